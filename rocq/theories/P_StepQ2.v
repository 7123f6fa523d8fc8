(** Whole 3D time steps with open sides, part 2: the currents of the whole grid. *)
From Coq Require Import QArith Qabs Qround Qcanon Permutation Lqa.
From Verif Require Import Base M_Layout S_Layout M_PartSync S_PartSync M_FieldSync S_FieldSync M_Maxwell S_Maxwell M_Cpml S_Cpml M_Deposit S_Deposit M_Push S_Push P_Deposit P_Deposit2 P_Deposit5 P_Interp P_Push P_Layout P_FieldGeo P_FieldSync P_FieldSync4 P_FieldSync5 P_PartSync3 P_Maxwell3 Properties_FieldSync M_Step S_Step M_Step3D S_Step3D M_StepO S_StepO M_StepO3D S_StepO3D P_Step1 P_Step2 P_Step3 P_Step4 P_Step5 P_StepD1 P_StepD2 P_StepD3 P_StepD4 P_StepD5 P_StepO1 P_StepO2 P_StepQ1.
Local Open Scope list_scope.
Local Open Scope Z_scope.

Definition odep3 (pl : list Z -> option (list Z)) (dx dy dz dt : Q) (sp : species) (r : prow body) (f : nat) (g : list Z) : Q :=
  let W := whole3 0 0 0 dx dy dz in
  qsum (fun e => if match pl [m_ix W dt (bare3 r) + (Z.of_nat (e_i e) - 2); m_iy W dt (bare3 r) + (Z.of_nat (e_j e) - 2); m_iz W dt (bare3 r) + (Z.of_nat (e_k e) - 2)] with Some g' => list_eqb g' g | None => false end then prf f e else 0%Q)
    (mevs W dt (sp_q sp) (bare3 r)).
Lemma odep3_canon pl dx dy dz dt sp r r' f g : (0 < dx)%Q -> (0 < dy)%Q -> (0 < dz)%Q -> canon r = canon r' ->
  (odep3 pl dx dy dz dt sp r f g == odep3 pl dx dy dz dt sp r' f g)%Q.
Proof.
  intros Dx Dy Dz E. destruct (canon_load3 r r' E) as [P _].
  destruct (kernel_shift3 (whole3 0 0 0 dx dy dz) (whole3 0 0 0 dx dy dz) dt (sp_q sp) (bare3 r) (bare3 r') 0 0 0 P eq_refl eq_refl eq_refl Dx Dy Dz) as (K1 & K2 & K3 & F).
  1,2,3: cbn [whole3 h_x0 h_y0 h_z0 h_dx h_dy h_dz]; ring.
  unfold odep3. cbv zeta. rewrite K1, K2, K3, !Z.add_0_r. apply (qsum_forall2 ev_eq3); [exact F|]. intros e e' _ H. destruct H as (Ei & Ej & Ek & H). rewrite <- Ei, <- Ej, <- Ek.
  destruct (match pl _ with Some _ => _ | None => _ end); [|reflexivity]. apply prf_eq3. split; [exact Ei|]. split; [exact Ej|]. split; [exact Ek|exact H].
Qed.

Section Global.
Variable K : layer Qc. Variable D : domain3. Variable pmls : nat -> list pml_side.
Hypothesis OK : open3_ok K D pmls.
Local Notation n := (npatches3 D).
Local Notation axes := [e_ax D; e_ay D; e_az D]. Local Notation ns := [e_nx D; e_ny D; e_nz D]. Local Notation ng := (e_ng D).
Local Notation NX := (e_nx D + 2 * e_ng D). Local Notation NY := (e_ny D + 2 * e_ng D). Local Notation NZ := (e_nz D + 2 * e_ng D).
Local Notation position := (position3 (e_ax D) (e_ay D)).
Local Notation dep := (odep3 (PL3 D) (e_dx D) (e_dy D) (e_dz D) (e_dt D)).
Local Notation at_place p c g := (match place axes ns (position p) c with Some g' => list_eqb g' g | None => false end).

Local Notation OT := (twin3_ok K D pmls OK).
Lemma osizes3 : sizes_ok ng ns.
Proof. exact (sizes3 (twin3 D) OT). Qed.
Lemma oev_cell3_ok p r e : moved3 D p r -> (p < n)%nat -> (e_i e < 5)%nat -> (e_j e < 5)%nat -> (e_k e < 5)%nat ->
  within ng ns (ev_cell3 D p r e) /\ m_idx (grid_of3 D p) (e_dt D) (bare3 r) e = index (extents ns ng) (ev_cell3 D p r e).
Proof. exact (ev_cell3_ok (twin3 D) OT p r e). Qed.
Lemma oone_particle3 sp p r f g : moved3 D p r -> (p < n)%nat ->
  (qsum (fun c => if at_place p c g then contrib3 D sp p r f (index (extents ns ng) c) else 0%Q) (all_cells ng ns) == dep sp r f g)%Q.
Proof.
  intros M Hp. destruct (oo3_d K D pmls OK) as (D1 & D2 & D3).
  rewrite (qsum_ext _ (fun c => qsum (fun e => if at_place p c g then if (m_idx (grid_of3 D p) (e_dt D) (bare3 r) e =? index (extents ns ng) c) then prf f e else 0%Q else 0%Q) (mevs (grid_of3 D p) (e_dt D) (sp_q sp) (bare3 r)))).
  2:{ intros c _. unfold contrib3, hit. apply qsum_if. }
  rewrite qsum_swap. unfold odep3. cbv zeta.
  destruct (kernel_shift3 (grid_of3 D p) (whole3 0 0 0 (e_dx D) (e_dy D) (e_dz D)) (e_dt D) (sp_q sp) (bare3 r) (bare3 r) (qi D p * e_nx D) (qj D p * e_ny D) (qk D p * e_nz D)) as (K1 & K2 & K3 & F);
    [repeat (split; [reflexivity|]); reflexivity|reflexivity|reflexivity|reflexivity|exact D1|exact D2|exact D3|cbn [grid_of3 whole3 h_x0 h_dx]; ring|cbn [grid_of3 whole3 h_y0 h_dy]; ring|cbn [grid_of3 whole3 h_z0 h_dz]; ring|].
  apply (qsum_forall2 ev_eq3); [exact F|]. intros e e' I H. pose proof H as (Ei & Ej & Ek & _). destruct (mevs_in _ _ _ _ _ I) as (I1 & I2 & I3).
  destruct (oev_cell3_ok p r e M Hp I1 I2 I3) as [W Ix].
  rewrite (qsum_one _ _ (ev_cell3 D p r e)); [|apply all_cells_NoDup|apply all_cells_in; exact W|].
  - rewrite Ix, Z.eqb_refl. unfold ev_cell3. rewrite place_PL3. rewrite K1, K2, K3, <- Ei, <- Ej, <- Ek.
    rewrite !Z.add_assoc, (Z.add_comm (qi D p * e_nx D)), (Z.add_comm (qj D p * e_ny D)), (Z.add_comm (qk D p * e_nz D)).
    replace (m_ix (grid_of3 D p) (e_dt D) (bare3 r) + (Z.of_nat (e_i e) - 2) + qi D p * e_nx D) with (m_ix (grid_of3 D p) (e_dt D) (bare3 r) + qi D p * e_nx D + (Z.of_nat (e_i e) - 2)) by ring.
    replace (m_iy (grid_of3 D p) (e_dt D) (bare3 r) + (Z.of_nat (e_j e) - 2) + qj D p * e_ny D) with (m_iy (grid_of3 D p) (e_dt D) (bare3 r) + qj D p * e_ny D + (Z.of_nat (e_j e) - 2)) by ring.
    replace (m_iz (grid_of3 D p) (e_dt D) (bare3 r) + (Z.of_nat (e_k e) - 2) + qk D p * e_nz D) with (m_iz (grid_of3 D p) (e_dt D) (bare3 r) + qk D p * e_nz D + (Z.of_nat (e_k e) - 2)) by ring.
    destruct (match PL3 D _ with Some _ => _ | None => _ end); [|reflexivity]. apply prf_eq3. exact H.
  - intros c Ic N. apply all_cells_in in Ic. destruct (Z.eqb_spec (m_idx (grid_of3 D p) (e_dt D) (bare3 r) e) (index (extents ns ng) c)) as [E|]; [|destruct (place _ _ _ _); [destruct (list_eqb _ _)|]; reflexivity].
    exfalso. apply N. rewrite Ix in E. symmetry. exact (proj1 (good_index3 _ _ _ _ osizes3) _ _ W Ic E).
Qed.
(** currents of the whole grid *)
Definition ocurrents3 (pl : list Z -> option (list Z)) (dx dy dz dt : Q) (sps : list species) (pss : list (list (list prt))) (f : nat) (g : list Z) : Qc :=
  Q2Qc (qsum (fun ss => qsum (fun r => odep3 pl dx dy dz dt (fst ss) r f g) (particles (snd ss))) (combine sps pss)).
Lemma ocurrents3_ok sps pss rank mJ mJ' :
  (forall st p r, In st pss -> (p < n)%nat -> In r (S_PartSync.alive (nth p st [])) -> moved3 D p r) -> (forall st, In st pss -> length st = n) ->
  (forall f q o, (f < 4)%nat -> (q < n)%nat -> 0 <= o < NX * NY * NZ ->
       (this (mJ (Fld f q o)) == qsum (fun ss => qsum (fun r => contrib3 D (fst ss) q r f o) (S_PartSync.alive (nth q (snd ss) []))) (combine sps pss))%Q) ->
  sync_currents3 D rank mJ mJ' ->
  currents3_are D (ocurrents3 (PL3 D) (e_dx D) (e_dy D) (e_dz D) (e_dt D) sps pss) mJ'.
Proof.
  assert (monoid (Q2Qc 0) Qcplus) as Mo by (split; [exact Qcplus_0_r|split; [exact Qcplus_comm|exact Qcplus_assoc]]).
  intros M L V (s1 & s2 & H) f p c Hf Hp Hc. destruct (oo3_g K D pmls OK) as (G1 & G2 & G3 & G4). destruct (oo3_n K D pmls OK) as (N1 & N2 & N3).
  pose proof (oo3_p K D pmls OK) as Pd.
  apply C11_current_3d in H; [|exact Mo|lia|lia|lia|lia|exact (sym3 _ _ _ Pd N1 N2 N3)]. destruct H as [H _].
  rewrite H; [|exact Hf|exact Hp|apply interior_within; [lia|exact Hc]]. clear H. unfold shown.
  destruct (place axes ns (position p) c) as [g|] eqn:Eg.
  2:{ exfalso. inversion Hc as [|? a ? ? Ha Hb]; subst. inversion Hb as [|? b ? ? Hb' Hn]; subst. inversion Hn as [|? b' ? ? Hb'' Hn']; subst. inversion Hn'; subst. rewrite place_PL3 in Eg. assert (PL3 D [qi D p * e_nx D + a; qj D p * e_ny D + b; qk D p * e_nz D + b'] <> None) as X; [|contradiction].
    destruct (pijk (twin3 D) OT p Hp) as (I1 & I2 & I3). cbn [twin3 e_ax e_ay e_az e_nx e_ny e_nz ax_n] in I1, I2, I3. clear Eg Hc Hb Hn Hn' V L M. unfold PL3. cbn [place].
    set (u := qi D p) in *. set (v := qj D p) in *. set (w := qk D p) in *. clearbody u v w. rewrite !place1_in by nia. discriminate. }
  rewrite (current_global ns ng bounds3 opp3 (npatch3 (e_ax D) (e_ay D) (e_az D)) (geometry3 _ _ _ ng ltac:(lia) G2 G3 G4) (nbr3 (e_ax D) (e_ay D) (e_az D)) (sym3 _ _ _ Pd N1 N2 N3) axes position) with (g := g); auto.
  2: intros; now apply hgrid3. 2: apply all3. 2: intros p0 b q Hp0 Hb; apply (nbr3_spec _ _ _ N1 N2 N3 p0 b q Hp0 Hb). 2: apply (honto3 _ _ _ N1 N2 N3). 2: apply (hpos3 _ _ _ N1 N2 N3).
  apply Qc_is_canon. rewrite this_total, qsum_map. unfold ocurrents3. rewrite this_q2qc. unfold copies_of. rewrite qsum_filter, qsum_prod. cbn [fst snd].
  change (npatch3 (e_ax D) (e_ay D) (e_az D)) with n.
  rewrite (qsum_ext _ (fun q => qsum (fun ss => qsum (fun r => dep (fst ss) r f g) (S_PartSync.alive (nth q (snd ss) []))) (combine sps pss))).
  - rewrite qsum_swap. apply qsum_ext. intros [sp st] I. cbn [fst snd]. unfold particles. rewrite (flat_map_nth _ []), (L st) by (eapply in_combine_r; eassumption).
    rewrite qsum_flat. reflexivity.
  - intros q Iq. apply in_seq in Iq.
    rewrite (qsum_ext _ (fun c => qsum (fun ss => qsum (fun r => if at_place q c g then contrib3 D (fst ss) q r f (index (extents ns ng) c) else 0%Q) (S_PartSync.alive (nth q (snd ss) []))) (combine sps pss))).
    + rewrite qsum_swap. apply qsum_ext. intros [sp st] I. cbn [fst snd]. rewrite qsum_swap. apply qsum_ext. intros r Ir.
      apply oone_particle3; [|lia]. apply (M st q r); [eapply in_combine_r; eassumption|lia|exact Ir].
    + intros c' Ic'. apply all_cells_in in Ic'.
      assert (0 <= index (extents ns ng) c' < NX * NY * NZ) as B.
      { pose proof (proj2 (good_index3 _ _ _ _ osizes3) c' Ic') as B; unfold volume, extents in B |- *; cbn [map fold_right] in B |- *. rewrite Z.mul_1_r, Z.mul_assoc in B. exact B. }
      pose proof (V f q _ Hf ltac:(lia) B) as E. unfold cell. generalize (at_place q c' g). intro b. destruct b.
      * exact E.
      * symmetry. apply qsum_zero. intros ss _. apply qsum_zero. reflexivity.
Qed.
End Global.
(** they depend on the particles only *)
Lemma ocurrents3_eq pl dx dy dz dt sps pss pss' f g : (0 < dx)%Q -> (0 < dy)%Q -> (0 < dz)%Q -> Forall2 same_particles pss pss' ->
  ocurrents3 pl dx dy dz dt sps pss f g = ocurrents3 pl dx dy dz dt sps pss' f g.
Proof.
  intros D1 D2 D3 F. unfold ocurrents3. apply q2qc_eq. revert sps. induction F as [|st st' pss pss' H F IH]; intros [|sp sps]; try reflexivity.
  cbn [combine]. rewrite !qsum_cons, IH. apply Qplus_comp; [|reflexivity]. cbn [fst snd].
  assert (forall l, (qsum (fun r => odep3 pl dx dy dz dt sp r f g) l == qsum (fun r => odep3 pl dx dy dz dt sp r f g) (map canon l))%Q) as K.
  { intro l. rewrite qsum_map. apply qsum_ext. intros r _. apply odep3_canon; auto. symmetry. apply canon_idem. }
  rewrite K, (K (particles st')). apply qsum_perm. exact H.
Qed.
