(** Whole time steps with open sides, part 2: the currents of the whole grid. *)
From Coq Require Import QArith Qabs Qround Qcanon Permutation Lqa.
From Verif Require Import Base M_Layout S_Layout M_PartSync S_PartSync M_FieldSync S_FieldSync M_Maxwell S_Maxwell M_Cpml S_Cpml M_Deposit S_Deposit M_Push S_Push P_Deposit P_Deposit2 P_Deposit5 P_Interp P_Push P_Layout P_FieldGeo P_FieldSync P_FieldSync4 P_FieldSync5 P_PartSync3 P_Maxwell3 Properties_FieldSync M_Step S_Step M_StepO S_StepO P_Step1 P_Step2 P_Step3 P_Step4 P_Step5 P_StepO1.
Local Open Scope list_scope.
Local Open Scope Z_scope.

Lemma place1_in a m x : 0 <= x < ax_n a * m -> place1 a m 0 x = Some x.
Proof. intro H. unfold place1. cbv zeta. rewrite Z.mul_0_l, Z.add_0_l. destruct (Z.leb_spec 0 x); [|lia]. destruct (Z.ltb_spec x (ax_n a * m)); [|lia]. reflexivity. Qed.
Definition odep (pl : list Z -> option (list Z)) (dx dy dt : Q) (sp : species) (r : prow body) (f : nat) (g : list Z) : Q :=
  qsum (fun e => if match pl [k_ix (whole 0 0 dx dy) dt (bare r) + (Z.of_nat (e_i e) - 2); k_iy (whole 0 0 dx dy) dt (bare r) + (Z.of_nat (e_j e) - 2)] with Some g' => list_eqb g' g | None => false end then prf f e else 0%Q)
    (kevs (whole 0 0 dx dy) dt (sp_q sp) (bare r)).
Lemma odep_canon pl dx dy dt sp r r' f g : (0 < dx)%Q -> (0 < dy)%Q -> canon r = canon r' -> (odep pl dx dy dt sp r f g == odep pl dx dy dt sp r' f g)%Q.
Proof.
  intros Dx Dy E. destruct (canon_load r r' E) as [P _].
  destruct (kernel_shift (whole 0 0 dx dy) (whole 0 0 dx dy) dt (sp_q sp) (bare r) (bare r') 0 0 P eq_refl eq_refl Dx Dy) as (K1 & K2 & F).
  1,2: cbn [whole g_x0 g_y0 g_dx g_dy]; ring.
  unfold odep. rewrite K1, K2, !Z.add_0_r. apply (qsum_forall2 ev_eq); [exact F|]. intros e e' _ H. destruct H as (Ei & Ej & H). rewrite <- Ei, <- Ej.
  destruct (match pl _ with Some _ => _ | None => _ end); [|reflexivity]. apply prf_eq. split; [exact Ei|]. split; [exact Ej|exact H].
Qed.

Section Global.
Variable K : layer Qc. Variable D : domain2. Variable pmls : nat -> list pml_side.
Hypothesis OK : open_ok K D pmls.
Local Notation n := (npatches2 D).
Local Notation axes := [d_ax D; d_ay D]. Local Notation ns := [d_nx D; d_ny D]. Local Notation ng := (d_ng D).
Local Notation NX := (d_nx D + 2 * d_ng D). Local Notation NY := (d_ny D + 2 * d_ng D).
Local Notation position := (position2 (d_ax D)).
Local Notation dep := (odep (PL D) (d_dx D) (d_dy D) (d_dt D)).
Local Notation at_place p c g := (match place axes ns (position p) c with Some g' => list_eqb g' g | None => false end).

Local Notation OT := (twin_ok K D pmls OK).
Lemma osizes : sizes_ok ng ns.
Proof. exact (sizes (twin D) OT). Qed.
Lemma oev_cell_ok p r e : moved D p r -> (p < n)%nat -> (e_i e < 5)%nat -> (e_j e < 5)%nat ->
  within ng ns (ev_cell D p r e) /\ ev_index D p r e = index (extents ns ng) (ev_cell D p r e).
Proof. exact (ev_cell_ok (twin D) OT p r e). Qed.
Lemma oone_particle sp p r f g : moved D p r -> (p < n)%nat ->
  (qsum (fun c => if at_place p c g then contrib D sp p r f (index (extents ns ng) c) else 0%Q) (all_cells ng ns) == dep sp r f g)%Q.
Proof.
  intros M Hp. destruct (oo_d K D pmls OK) as [D1 D2].
  rewrite (qsum_ext _ (fun c => qsum (fun e => if at_place p c g then if (ev_index D p r e =? index (extents ns ng) c) then prf f e else 0%Q else 0%Q) (kevs (grid_of D p) (d_dt D) (sp_q sp) (bare r)))).
  2:{ intros c _. unfold contrib, hit. apply qsum_if. }
  rewrite qsum_swap. unfold odep.
  destruct (kernel_shift (grid_of D p) (whole 0 0 (d_dx D) (d_dy D)) (d_dt D) (sp_q sp) (bare r) (bare r) (pi D p * d_nx D) (pj D p * d_ny D)) as (K1 & K2 & F);
    [repeat (split; [reflexivity|]); reflexivity|reflexivity|reflexivity|exact D1|exact D2|cbn [grid_of whole g_x0 g_dx]; ring|cbn [grid_of whole g_y0 g_dy]; ring|].
  apply (qsum_forall2 ev_eq); [exact F|]. intros e e' I H. pose proof H as (Ei & Ej & _). destruct (kevs_in _ _ _ _ _ I) as [I1 I2].
  destruct (oev_cell_ok p r e M Hp I1 I2) as [W Ix].
  rewrite (qsum_one _ _ (ev_cell D p r e)); [|apply all_cells_NoDup|apply all_cells_in; exact W|].
  - rewrite Ix, Z.eqb_refl. unfold ev_cell. rewrite place_PL. rewrite K1, K2, <- Ei, <- Ej.
    rewrite !Z.add_assoc, (Z.add_comm (pi D p * d_nx D)), (Z.add_comm (pj D p * d_ny D)).
    replace (k_ix (grid_of D p) (d_dt D) (bare r) + (Z.of_nat (e_i e) - 2) + pi D p * d_nx D) with (k_ix (grid_of D p) (d_dt D) (bare r) + pi D p * d_nx D + (Z.of_nat (e_i e) - 2)) by ring.
    replace (k_iy (grid_of D p) (d_dt D) (bare r) + (Z.of_nat (e_j e) - 2) + pj D p * d_ny D) with (k_iy (grid_of D p) (d_dt D) (bare r) + pj D p * d_ny D + (Z.of_nat (e_j e) - 2)) by ring.
    destruct (match PL D _ with Some _ => _ | None => _ end); [|reflexivity]. apply prf_eq. exact H.
  - intros c Ic N. apply all_cells_in in Ic. destruct (Z.eqb_spec (ev_index D p r e) (index (extents ns ng) c)) as [E|]; [|destruct (place _ _ _ _); [destruct (list_eqb _ _)|]; reflexivity].
    exfalso. apply N. rewrite Ix in E. symmetry. exact (proj1 (good_index2 _ _ _ osizes) _ _ W Ic E).
Qed.
(** currents of the whole grid *)
Definition ocurrents (pl : list Z -> option (list Z)) (dx dy dt : Q) (sps : list species) (pss : list (list (list prt))) (f : nat) (g : list Z) : Qc :=
  Q2Qc (qsum (fun ss => qsum (fun r => odep pl dx dy dt (fst ss) r f g) (particles (snd ss))) (combine sps pss)).
Lemma ocurrents_ok sps pss rank mJ mJ' :
  (forall st p r, In st pss -> (p < n)%nat -> In r (S_PartSync.alive (nth p st [])) -> moved D p r) -> (forall st, In st pss -> length st = n) ->
  (forall f q o, (f < 4)%nat -> (q < n)%nat -> 0 <= o < NX * NY ->
       (this (mJ (Fld f q o)) == qsum (fun ss => qsum (fun r => contrib D (fst ss) q r f o) (S_PartSync.alive (nth q (snd ss) []))) (combine sps pss))%Q) ->
  sync_currents2 D rank mJ mJ' ->
  currents_are D (ocurrents (PL D) (d_dx D) (d_dy D) (d_dt D) sps pss) mJ'.
Proof.
  assert (monoid (Q2Qc 0) Qcplus) as Mo by (split; [exact Qcplus_0_r|split; [exact Qcplus_comm|exact Qcplus_assoc]]).
  intros M L V (s1 & s2 & H) f p c Hf Hp Hc. destruct (oo_g K D pmls OK) as (G1 & G2 & G3). destruct (oo_n K D pmls OK) as [N1 N2].
  pose proof (oo_p K D pmls OK) as Pd.
  apply C11_current_2d in H; [|exact Mo|lia|lia|lia|exact (sym2 _ _ Pd N1 N2)]. destruct H as [H _].
  rewrite H; [|exact Hf|exact Hp|apply interior_within; [lia|exact Hc]]. clear H. unfold shown.
  destruct (place axes ns (position p) c) as [g|] eqn:Eg.
  2:{ exfalso. inversion Hc as [|? a ? ? Ha Hb]; subst. inversion Hb as [|? b ? ? Hb' Hn]; subst. inversion Hn; subst. rewrite place_PL in Eg. assert (PL D [pi D p * d_nx D + a; pj D p * d_ny D + b] <> None) as X; [|contradiction].
    destruct (pij (twin D) OT p Hp) as [I1 I2]. cbn [twin d_ax d_ay d_nx d_ny ax_n] in I1, I2. unfold PL. cbn [place]. rewrite !place1_in by nia. discriminate. }
  rewrite (current_global ns ng bounds2 opp2 (npatch2 (d_ax D) (d_ay D)) (geometry2 _ _ ng ltac:(lia) G2 G3) (nbr2 (d_ax D) (d_ay D)) (sym2 _ _ Pd N1 N2) axes position) with (g := g); auto.
  2: intros; now apply hgrid2. 2: apply all2. 2: intros p0 b q Hp0 Hb; apply (nbr2_spec _ _ N1 N2 p0 b q Hp0 Hb). 2: apply (honto2 _ _ N1 N2). 2: apply (hpos2 _ _ N1 N2).
  apply Qc_is_canon. rewrite this_total, qsum_map. unfold ocurrents. rewrite this_q2qc. unfold copies_of. rewrite qsum_filter, qsum_prod. cbn [fst snd].
  change (npatch2 (d_ax D) (d_ay D)) with n.
  rewrite (qsum_ext _ (fun q => qsum (fun ss => qsum (fun r => dep (fst ss) r f g) (S_PartSync.alive (nth q (snd ss) []))) (combine sps pss))).
  - rewrite qsum_swap. apply qsum_ext. intros [sp st] I. cbn [fst snd]. unfold particles. rewrite (flat_map_nth _ []), (L st) by (eapply in_combine_r; eassumption).
    rewrite qsum_flat. reflexivity.
  - intros q Iq. apply in_seq in Iq.
    rewrite (qsum_ext _ (fun c => qsum (fun ss => qsum (fun r => if at_place q c g then contrib D (fst ss) q r f (index (extents ns ng) c) else 0%Q) (S_PartSync.alive (nth q (snd ss) []))) (combine sps pss))).
    + rewrite qsum_swap. apply qsum_ext. intros [sp st] I. cbn [fst snd]. rewrite qsum_swap. apply qsum_ext. intros r Ir.
      apply oone_particle; [|lia]. apply (M st q r); [eapply in_combine_r; eassumption|lia|exact Ir].
    + intros c' Ic'. apply all_cells_in in Ic'.
      assert (0 <= index (extents ns ng) c' < NX * NY) as B by (pose proof (proj2 (good_index2 _ _ _ osizes) c' Ic') as B; unfold volume, extents in B |- *; cbn [map fold_right] in B |- *; rewrite Z.mul_1_r in B; exact B).
      pose proof (V f q _ Hf ltac:(lia) B) as E. unfold cell. generalize (at_place q c' g). intro b. destruct b.
      * exact E.
      * symmetry. apply qsum_zero. intros ss _. apply qsum_zero. reflexivity.
Qed.
(** they depend on the particles only *)
End Global.
Lemma ocurrents_eq pl dx dy dt sps pss pss' f g : (0 < dx)%Q -> (0 < dy)%Q -> Forall2 same_particles pss pss' ->
  ocurrents pl dx dy dt sps pss f g = ocurrents pl dx dy dt sps pss' f g.
Proof.
  intros D1 D2 F. unfold ocurrents. apply q2qc_eq. revert sps. induction F as [|st st' pss pss' H F IH]; intros [|sp sps]; try reflexivity.
  cbn [combine]. rewrite !qsum_cons, IH. apply Qplus_comp; [|reflexivity]. cbn [fst snd].
  assert (forall l, (qsum (fun r => odep pl dx dy dt sp r f g) l == qsum (fun r => odep pl dx dy dt sp r f g) (map canon l))%Q) as K.
  { intro l. rewrite qsum_map. apply qsum_ext. intros r _. apply odep_canon; auto. symmetry. apply canon_idem. }
  rewrite K, (K (particles st')). apply qsum_perm. exact H.
Qed.
