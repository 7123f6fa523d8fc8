(** Lasers in whole time steps with open sides: what the stage may change. *)
From Coq Require Import QArith Qabs Qround Qcanon Permutation Lqa.
From Verif Require Import Base M_Layout S_Layout M_PartSync S_PartSync M_FieldSync S_FieldSync M_Maxwell S_Maxwell M_Cpml S_Cpml M_Deposit S_Deposit M_Push S_Push M_Laser P_Layout P_FieldGeo P_FieldSync P_FieldSync4 P_FieldSync5 P_Maxwell P_Maxwell3 P_Laser P_Laser3 M_Step S_Step M_StepO S_StepO M_StepL P_Step1 P_Step2 P_Step3 P_Step6 S_Gauss S_GaussO P_Gauss1 P_Gauss2 P_StepO1 P_StepO3 P_StepO4 P_StepO5 P_GaussO1.
Local Open Scope list_scope.
Local Open Scope Z_scope.

Section Stage.
Variable eps : Qc.
Variable K : layer Qc. Variable D : domain2. Variable pmls : nat -> list pml_side.
Hypothesis OK : open_ok K D pmls.
Hypothesis Fit : thick K + 2 <= d_nx D.
Local Notation n := (npatches2 D).
Local Notation ns := [d_nx D; d_ny D].
Local Notation ng := (d_ng D).
(** addresses away from the plane of the lasers *)
Definition off_plane (a : addr) : Prop := forall f p j, (f < 3)%nat -> (p < n)%nat -> Z.of_nat p mod ax_n (d_ax D) = 0 -> 0 <= j < d_ny D -> a <> cell ns ng f p [thick K + 1; j].
Lemma update_off dt mE mJ src m p a : (p < n)%nat -> left2 (d_ax D) p = true -> off_plane a ->
  update_bfields_2d (qc_arith eps) K (Q2Qc LIGHT_SPEED) (d_ax D) (d_nx D) (d_ny D) ng (Q2Qc (d_dx D)) (Q2Qc (d_dy D)) (d_dy D) pmls dt mE mJ src m p a = m a.
Proof using OK Fit.
  intros Hp Hl O. destruct (oo_g K D pmls OK) as (G1 & G2 & G3). pose proof (oo_th K D pmls OK) as T. unfold left2 in Hl. apply Z.eqb_eq in Hl.
  unfold update_bfields_2d. cbv zeta. unfold laserpos.
  set (j0 := row_start K (pmls p)). set (j1 := row_end K (d_ny D) (pmls p)).
  assert (J0 : 0 <= j0) by (unfold j0, row_start; destruct (has_side _ _); lia). assert (J1 : j1 <= d_ny D) by (unfold j1, row_end; destruct (has_side _ _); lia). clearbody j0 j1.
  match goal with |- inject_2d _ _ _ _ _ _ _ _ ?lp _ _ ?es ?ez _ _ _ _ _ _ = _ =>
    pose proof (inject_2d_at (qc_arith eps) K (Q2Qc LIGHT_SPEED) (d_nx D) (d_ny D) ng (Q2Qc (d_dx D)) (Q2Qc (d_dy D)) ltac:(lia) G2 G3 lp j0 j1 ltac:(lia) J0 J1 es ez dt mE mJ m p) as (_ & _ & _ & H) end.
  apply H. intros f j Hf Hj. replace (thick K + 2 - 1) with (thick K + 1) by lia. apply O; auto. lia.
Qed.
Lemma stage_off nproc rank l time dt mE mJ st a : off_plane a ->
  snd (laser_stage_2d (qc_arith eps) K (Q2Qc LIGHT_SPEED) (d_ax D) (d_ay D) (d_nx D) (d_ny D) ng (Q2Qc (d_dx D)) (Q2Qc (d_dy D)) (d_dy D) pmls nproc rank l time dt mE mJ st) a = snd st a.
Proof using OK Fit.
  intro O. unfold laser_stage_2d, stage. generalize (seq 0 nproc). intro rs. revert st. induction rs as [|r rs IH]; intro st; [reflexivity|]. cbn [fold_left]. rewrite IH. clear IH. destruct st as [dis m].
  match goal with |- context [laser_call_2d ?a0 ?a1 ?a2 ?a3 ?a4 ?a5 ?a6 ?a7 ?a8 ?a9 ?b0 ?b1 ?b2 ?b3 ?b4 ?b5 ?b6 (filter ?f ?l0) ?d m] => set (mine := filter f l0); set (dd := d) end.
  assert (Hm : forall p, In p mine -> (p < n)%nat) by (intros p I; unfold mine in I; apply filter_In in I as [I _]; apply in_seq in I; unfold npatches2; lia).
  clearbody mine dd. unfold laser_call_2d, call. destruct dd; [reflexivity|]. destruct (Qle_bool _ _); [reflexivity|]. destruct (_ <? _)%nat; [reflexivity|]. cbn [snd].
  revert m Hm. induction mine as [|p mine IH]; intros m Hm; [reflexivity|]. cbn [fold_left]. rewrite IH by (intros q I; apply Hm; right; exact I).
  destruct (left2 (d_ax D) p) eqn:El; [|reflexivity]. destruct (sources2 _ _ _ _ _ _) as [src|]; [|reflexivity]. apply update_off; auto. apply Hm. left. reflexivity.
Qed.
Lemma run_off nproc rank time mE mJ a : off_plane a -> forall ls offs m, snd (run_lasers eps K D pmls nproc rank time mE mJ ls offs m) a = m a.
Proof using OK Fit.
  intro O. induction ls as [|l ls IH]; intros [|off offs] m; try reflexivity. cbn [run_lasers].
  match goal with |- context [laser_stage_2d ?a0 ?a1 ?a2 ?a3 ?a4 ?a5 ?a6 ?a7 ?a8 ?a9 ?b0 ?b1 ?b2 ?b3 ?b4 ?b5 ?b6 ?b7 ?b8 (off, m)] =>
    pose proof (stage_off b2 b3 b4 b5 b6 b7 b8 (off, m) a O) as E; destruct (laser_stage_2d a0 a1 a2 a3 a4 a5 a6 a7 a8 a9 b0 b1 b2 b3 b4 b5 b6 b7 b8 (off, m)) as [off1 m1] end.
  cbn [snd] in E. specialize (IH offs m1). destruct (run_lasers _ _ _ _ _ _ _ _ _ ls offs m1) as [offs1 m']. cbn [snd] in *. congruence.
Qed.

(** ** a change inside the patches, followed by the exchange, leaves one field on the whole grid *)
Lemma stored_here f p i j : (p < n)%nat -> 0 <= i < d_nx D -> 0 <= j < d_ny D ->
  stored D f (pnum p mod ax_n (d_ax D) * d_nx D + i) (pnum p / ax_n (d_ax D) * d_ny D + j) = cell ns ng f p [i; j].
Proof using OK.
  intros Hp Hi Hj. destruct (oo_n K D pmls OK) as [N1 N2]. unfold npatches2 in Hp. unfold pnum.
  set (P := Z.of_nat p) in *. assert (HP : 0 <= P < ax_n (d_ax D) * ax_n (d_ay D)) by (unfold P; lia).
  pose proof (Z.mod_pos_bound P (ax_n (d_ax D)) ltac:(lia)) as Q1. pose proof (Z.div_mod P (ax_n (d_ax D)) ltac:(lia)) as E.
  assert (Q2 : 0 <= P / ax_n (d_ax D) < ax_n (d_ay D)) by (split; [apply Z.div_pos; lia|apply Z.div_lt_upper_bound; lia]).
  unfold stored, cells_x, cells_y. cbv zeta. set (qx := P mod ax_n (d_ax D)) in *. set (qy := P / ax_n (d_ax D)) in *. clearbody qx qy.
  rewrite (Z.mod_small (qx * d_nx D + i)) by nia. rewrite (Z.mod_small (qy * d_ny D + j)) by nia.
  rewrite !(Z.add_comm (_ * _) i), !(Z.add_comm (_ * _) j), !Z.mod_add, !Z.div_add by lia. rewrite !Z.mod_small, !Z.div_small by lia.
  f_equal. clear - E. unfold P in *. lia.
Qed.
Lemma field_again rank F0 m m0 ml m2 : sync_guards D rank m m0 -> field_is D F0 m0 -> (forall a, off_plane a -> ml a = m a) -> sync_guards D rank ml m2 ->
  field_is D (fun f g => on_domain D ml f g) m2.
Proof using OK Fit.
  intros S0 H0 Off S2. apply (oguards K D pmls OK) in S0. apply (oguards K D pmls OK) in S2. destruct (oo_g K D pmls OK) as (G1 & G2 & G3). destruct (oo_n K D pmls OK) as [N1 N2]. pose proof (oo_th K D pmls OK) as T.
  pose proof (decomp2 (d_ax D) (d_ay D) (d_nx D) (d_ny D) ng (oo_p K D pmls OK) N1 N2 ltac:(lia) G2 G3) as [G X1 X2 X3 X4 X5 X6]. destruct S0 as [S0 _]. destruct S2 as [S2 _].
  assert (Here : forall p c, (p < n)%nat -> interior ns c -> exists i j, c = [i; j] /\ 0 <= i < d_nx D /\ 0 <= j < d_ny D).
  { intros p c _ Hc. inversion Hc as [|? i ? t A1 A2]; subst. inversion A2 as [|? j ? t' B1 B2]; subst. inversion B2; subst. eauto 10. }
  intros f p c Hf Hp Hc. rewrite (S2 f p c Hf Hp Hc).
  rewrite (guard_global ns ng bounds2 opp2 n G (nbr2 (d_ax D) (d_ay D)) [d_ax D; d_ay D] (position2 (d_ax D)) X1 X2 X3 X4 X5 X6 ml (fun f g => on_domain D ml f g) f); [| |exact Hp|exact Hc].
  - unfold shown. destruct (place [d_ax D; d_ay D] ns (position2 (d_ax D) p) c) as [g|] eqn:E; [reflexivity|].
    pose proof (S0 f p c Hf Hp Hc) as V. rewrite (H0 f p c Hf Hp Hc) in V.
    rewrite (guard_global ns ng bounds2 opp2 n G (nbr2 (d_ax D) (d_ay D)) [d_ax D; d_ay D] (position2 (d_ax D)) X1 X2 X3 X4 X5 X6 m (fun f g => on_domain D m f g) f) in V; [| |exact Hp|exact Hc].
    + unfold shown in V. rewrite E in V. rewrite V. apply Off. intros f' q j Hf' Hq _ Hj Ec.
      assert (Hi : interior ns [thick K + 1; j]) by (repeat constructor; lia).
      apply (cell_inj ns ng bounds2 opp2 G) in Ec as (-> & -> & ->); [|exact Hc|apply interior_within; [lia|exact Hi]].
      rewrite (place_interior ns ng bounds2 opp2 n G [d_ax D; d_ay D] (position2 (d_ax D)) X1 X2 X3 q _ Hp Hi) in E. discriminate.
    + clear - OK X1 X2 X3 G Here. intros p c g Hp Hc E. rewrite (place_interior ns ng bounds2 opp2 n G [d_ax D; d_ay D] (position2 (d_ax D)) X1 X2 X3 p c Hp Hc) in E. inversion E; subst g. destruct (Here p c Hp Hc) as (i & j & -> & Hi & Hj).
      cbn [flat position2 on_domain]. symmetry. f_equal. exact (stored_here f p i j Hp Hi Hj).
  - clear - OK X1 X2 X3 G Here. intros p c g Hp Hc E. rewrite (place_interior ns ng bounds2 opp2 n G [d_ax D; d_ay D] (position2 (d_ax D)) X1 X2 X3 p c Hp Hc) in E. inversion E; subst g. destruct (Here p c Hp Hc) as (i & j & -> & Hi & Hj).
    cbn [flat position2 on_domain]. symmetry. f_equal. exact (stored_here f p i j Hp Hi Hj).
Qed.
End Stage.
