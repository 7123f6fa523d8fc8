(** Whole time steps in 3D, part 5: the currents of the whole grid. *)
From Coq Require Import QArith Qabs Qround Qcanon Permutation Lqa.
From Verif Require Import Base M_Layout S_Layout M_PartSync S_PartSync M_FieldSync S_FieldSync S_Maxwell M_Deposit S_Deposit M_Push S_Push P_Deposit P_Deposit2 P_Deposit5 P_Interp P_Push P_Layout P_FieldGeo P_FieldSync P_FieldSync4 P_FieldSync5 S_PartSync P_PartSync3 P_Maxwell3 Properties_FieldSync M_Step S_Step P_Step1 P_Step2 P_Step3 P_Step4 P_Step5 M_Step3D S_Step3D P_StepD1 P_StepD2 P_StepD3 P_StepD4.
Local Open Scope list_scope.
Local Open Scope Z_scope.

(** * What a particle adds at a cell of the whole grid *)
Definition whole3 (Nx Ny Nz : Z) (dx dy dz : Q) : grid3 := {| h_nx := Nx; h_ny := Ny; h_nz := Nz; h_dx := dx; h_dy := dy; h_dz := dz; h_x0 := 0%Q; h_y0 := 0%Q; h_z0 := 0%Q |}.
Definition gdep3 (Nx Ny Nz : Z) (dx dy dz dt : Q) (sp : species) (r : prow body) (f : nat) (g : list Z) : Q :=
  let W := whole3 Nx Ny Nz dx dy dz in
  qsum (fun e => if list_eqb [(m_ix W dt (bare3 r) + (Z.of_nat (e_i e) - 2)) mod Nx; (m_iy W dt (bare3 r) + (Z.of_nat (e_j e) - 2)) mod Ny; (m_iz W dt (bare3 r) + (Z.of_nat (e_k e) - 2)) mod Nz] g then prf f e else 0%Q)
    (mevs W dt (sp_q sp) (bare3 r)).
Lemma gdep3_canon Nx Ny Nz dx dy dz dt sp r r' f g : (0 < dx)%Q -> (0 < dy)%Q -> (0 < dz)%Q -> canon r = canon r' ->
  (gdep3 Nx Ny Nz dx dy dz dt sp r f g == gdep3 Nx Ny Nz dx dy dz dt sp r' f g)%Q.
Proof.
  intros Dx Dy Dz E. destruct (canon_load3 r r' E) as [P _].
  destruct (kernel_shift3 (whole3 Nx Ny Nz dx dy dz) (whole3 Nx Ny Nz dx dy dz) dt (sp_q sp) (bare3 r) (bare3 r') 0 0 0 P eq_refl eq_refl eq_refl Dx Dy Dz) as (K1 & K2 & K3 & F).
  1,2,3: cbn [whole3 h_x0 h_y0 h_z0 h_dx h_dy h_dz]; ring.
  unfold gdep3. cbv zeta. rewrite K1, K2, K3, !Z.add_0_r. apply (qsum_forall2 ev_eq3); [exact F|]. intros e e' _ H. destruct H as (Ei & Ej & Ek & H). rewrite <- Ei, <- Ej, <- Ek.
  destruct (list_eqb _ _); [|reflexivity]. apply prf_eq3. split; [exact Ei|]. split; [exact Ej|]. split; [exact Ek|exact H].
Qed.

Section Global.
Variable D : domain3.
Hypothesis OK : domain3_ok D.
Local Notation n := (npatches3 D).
Local Notation axes := [e_ax D; e_ay D; e_az D]. Local Notation ns := [e_nx D; e_ny D; e_nz D]. Local Notation ng := (e_ng D).
Local Notation NX := (e_nx D + 2 * e_ng D). Local Notation NY := (e_ny D + 2 * e_ng D). Local Notation NZ := (e_nz D + 2 * e_ng D).
Local Notation position := (position3 (e_ax D) (e_ay D)).
Local Notation dep := (gdep3 (Vx D) (Vy D) (Vz D) (e_dx D) (e_dy D) (e_dz D) (e_dt D)).
Local Notation at_place p c g := (match place axes ns (position p) c with Some g' => list_eqb g' g | None => false end).

Lemma sizes3 : sizes_ok ng ns.
Proof. destruct (ok3_g D OK) as (G1 & G2 & G3 & G4). split; [lia|]. repeat constructor; lia. Qed.
(** cells the particle touches *)
Lemma start_cell3 p r : moved3 D p r -> (p < n)%nat ->
  -1 <= m_ix (grid_of3 D p) (e_dt D) (bare3 r) <= e_nx D /\ -1 <= m_iy (grid_of3 D p) (e_dt D) (bare3 r) <= e_ny D /\ -1 <= m_iz (grid_of3 D p) (e_dt D) (bare3 r) <= e_nz D.
Proof.
  intros (x & y & z & E1 & E2 & E3 & V1 & V2 & V3 & R1 & R2 & R3) Hp. destruct (ok3_d D OK) as (D1 & D2 & D3).
  assert (forall Z0 m, (-1 <= Z0 <= inject_Z m)%Q -> -1 <= Qfloor (Z0 + (1#2)) <= m) as FL.
  { intros Z0 m [L U]. split.
    - change (-1) with (Qfloor (-1 + 0)%Q) at 1. apply Qfloor_resp_le. lra.
    - pose proof (Qfloor_le (Z0 + (1#2))) as Q1. assert (inject_Z (Qfloor (Z0 + (1#2))) < inject_Z (m + 1))%Q as Q2 by (rewrite inject_Z_plus; unfold inject_Z at 3; lra).
      rewrite <- Zlt_Qlt in Q2. lia. }
  pose proof (reach_cells (e_nx D) (e_dx D) (qi D p) _ D1 R1) as C1. pose proof (reach_cells (e_ny D) (e_dy D) (qj D p) _ D2 R2) as C2. pose proof (reach_cells (e_nz D) (e_dz D) (qk D p) _ D3 R3) as C3.
  unfold m_ix, m_iy, m_iz. split; [|split]; apply FL.
  - assert (m_X0 (grid_of3 D p) (e_dt D) (bare3 r) == (x - cdt3 D * b_ig (other body r) * b_ux (other body r) - inject_Z (qi D p * e_nx D) * e_dx D) / e_dx D)%Q as E.
    { unfold m_X0, bare3, load3, vel, cdt3. cbn [l_p p_x p_ux p_ig M_PartSync.row grid_of3 h_x0 h_dx val]. rewrite E1. cbn [val]. field. lra. }
    rewrite E. exact C1.
  - assert (m_Y0 (grid_of3 D p) (e_dt D) (bare3 r) == (y - cdt3 D * b_ig (other body r) * b_uy (other body r) - inject_Z (qj D p * e_ny D) * e_dy D) / e_dy D)%Q as E.
    { unfold m_Y0, bare3, load3, vel, cdt3. cbn [l_p p_y p_uy p_ig M_PartSync.row grid_of3 h_y0 h_dy val]. rewrite E2. cbn [val]. field. lra. }
    rewrite E. exact C2.
  - assert (m_Z0 (grid_of3 D p) (e_dt D) (bare3 r) == (z - cdt3 D * b_ig (other body r) * b_uz (other body r) - inject_Z (qk D p * e_nz D) * e_dz D) / e_dz D)%Q as E.
    { unfold m_Z0, bare3, load3, vel, cdt3. cbn [l_p p_z p_uz p_ig M_PartSync.row grid_of3 h_z0 h_dz val]. rewrite E3. cbn [val]. field. lra. }
    rewrite E. exact C3.
Qed.
Definition ev_cell3 (p : nat) (r : prow body) (e : ev) : list Z :=
  [m_ix (grid_of3 D p) (e_dt D) (bare3 r) + (Z.of_nat (e_i e) - 2); m_iy (grid_of3 D p) (e_dt D) (bare3 r) + (Z.of_nat (e_j e) - 2); m_iz (grid_of3 D p) (e_dt D) (bare3 r) + (Z.of_nat (e_k e) - 2)].
Lemma ev_cell3_ok p r e : moved3 D p r -> (p < n)%nat -> (e_i e < 5)%nat -> (e_j e < 5)%nat -> (e_k e < 5)%nat ->
  within ng ns (ev_cell3 p r e) /\ m_idx (grid_of3 D p) (e_dt D) (bare3 r) e = index (extents ns ng) (ev_cell3 p r e).
Proof.
  intros M Hp H1 H2 H3. destruct (start_cell3 p r M Hp) as (S1 & S2 & S3). destruct (ok3_g D OK) as (G1 & G2 & G3 & G4).
  unfold ev_cell3, m_idx. cbn [grid_of3 h_nx h_ny h_nz]. fold (grid_of3 D p). set (a := m_ix _ _ _ + _) in *. set (b := m_iy _ _ _ + _) in *. set (c := m_iz _ _ _ + _) in *.
  assert (-3 <= a <= e_nx D + 2) by (unfold a; lia). assert (-3 <= b <= e_ny D + 2) by (unfold b; lia). assert (-3 <= c <= e_nz D + 2) by (unfold c; lia). clearbody a b c. split.
  - apply within3. lia.
  - cbn [extents map index]. unfold wrap_index, widx. rewrite !wrap_mod by lia. ring.
Qed.
Lemma one_particle3 sp p r f g : moved3 D p r -> (p < n)%nat ->
  (qsum (fun c => if at_place p c g then contrib3 D sp p r f (index (extents ns ng) c) else 0%Q) (all_cells ng ns) == dep sp r f g)%Q.
Proof.
  intros M Hp. destruct (ok3_d D OK) as (D1 & D2 & D3).
  rewrite (qsum_ext _ (fun c => qsum (fun e => if at_place p c g then if (m_idx (grid_of3 D p) (e_dt D) (bare3 r) e =? index (extents ns ng) c) then prf f e else 0%Q else 0%Q) (mevs (grid_of3 D p) (e_dt D) (sp_q sp) (bare3 r)))).
  2:{ intros c _. unfold contrib3, hit. apply qsum_if. }
  rewrite qsum_swap. unfold gdep3. cbv zeta.
  destruct (kernel_shift3 (grid_of3 D p) (whole3 (Vx D) (Vy D) (Vz D) (e_dx D) (e_dy D) (e_dz D)) (e_dt D) (sp_q sp) (bare3 r) (bare3 r) (qi D p * e_nx D) (qj D p * e_ny D) (qk D p * e_nz D)) as (K1 & K2 & K3 & F);
    [repeat (split; [reflexivity|]); reflexivity|reflexivity|reflexivity|reflexivity|exact D1|exact D2|exact D3|cbn [grid_of3 whole3 h_x0 h_dx]; ring|cbn [grid_of3 whole3 h_y0 h_dy]; ring|cbn [grid_of3 whole3 h_z0 h_dz]; ring|].
  apply (qsum_forall2 ev_eq3); [exact F|]. intros e e' I H. pose proof H as (Ei & Ej & Ek & _). destruct (mevs_in _ _ _ _ _ I) as (I1 & I2 & I3).
  destruct (ev_cell3_ok p r e M Hp I1 I2 I3) as [W Ix].
  rewrite (qsum_one _ _ (ev_cell3 p r e)); [|apply all_cells_NoDup|apply all_cells_in; exact W|].
  - rewrite Ix, Z.eqb_refl. unfold ev_cell3. rewrite place3_wrap by exact OK. rewrite K1, K2, K3, <- Ei, <- Ej, <- Ek.
    rewrite !Z.add_assoc, (Z.add_comm (qi D p * e_nx D)), (Z.add_comm (qj D p * e_ny D)), (Z.add_comm (qk D p * e_nz D)).
    replace (m_ix (grid_of3 D p) (e_dt D) (bare3 r) + (Z.of_nat (e_i e) - 2) + qi D p * e_nx D) with (m_ix (grid_of3 D p) (e_dt D) (bare3 r) + qi D p * e_nx D + (Z.of_nat (e_i e) - 2)) by ring.
    replace (m_iy (grid_of3 D p) (e_dt D) (bare3 r) + (Z.of_nat (e_j e) - 2) + qj D p * e_ny D) with (m_iy (grid_of3 D p) (e_dt D) (bare3 r) + qj D p * e_ny D + (Z.of_nat (e_j e) - 2)) by ring.
    replace (m_iz (grid_of3 D p) (e_dt D) (bare3 r) + (Z.of_nat (e_k e) - 2) + qk D p * e_nz D) with (m_iz (grid_of3 D p) (e_dt D) (bare3 r) + qk D p * e_nz D + (Z.of_nat (e_k e) - 2)) by ring.
    destruct (list_eqb _ _); [|reflexivity]. apply prf_eq3. exact H.
  - intros c Ic N. apply all_cells_in in Ic. destruct (Z.eqb_spec (m_idx (grid_of3 D p) (e_dt D) (bare3 r) e) (index (extents ns ng) c)) as [E|]; [|destruct (place _ _ _ _); [destruct (list_eqb _ _)|]; reflexivity].
    exfalso. apply N. rewrite Ix in E. symmetry. exact (proj1 (good_index3 _ _ _ _ sizes3) _ _ W Ic E).
Qed.
(** currents of the whole grid *)
Definition gcurrents3 (Nx Ny Nz : Z) (dx dy dz dt : Q) (sps : list species) (pss : list (list (list prt))) (f : nat) (g : list Z) : Qc :=
  Q2Qc (qsum (fun ss => qsum (fun r => gdep3 Nx Ny Nz dx dy dz dt (fst ss) r f g) (particles (snd ss))) (combine sps pss)).
Lemma currents3_ok sps pss rank mJ mJ' :
  (forall st p r, In st pss -> (p < n)%nat -> In r (S_PartSync.alive (nth p st [])) -> moved3 D p r) -> (forall st, In st pss -> length st = n) ->
  (forall f q o, (f < 4)%nat -> (q < n)%nat -> 0 <= o < NX * NY * NZ ->
       (this (mJ (Fld f q o)) == qsum (fun ss => qsum (fun r => contrib3 D (fst ss) q r f o) (S_PartSync.alive (nth q (snd ss) []))) (combine sps pss))%Q) ->
  sync_currents3 D rank mJ mJ' ->
  currents3_are D (gcurrents3 (Vx D) (Vy D) (Vz D) (e_dx D) (e_dy D) (e_dz D) (e_dt D) sps pss) mJ'.
Proof.
  assert (monoid (Q2Qc 0) Qcplus) as Mo by (split; [exact Qcplus_0_r|split; [exact Qcplus_comm|exact Qcplus_assoc]]).
  intros M L V (s1 & s2 & H) f p c Hf Hp Hc. destruct (ok3_g D OK) as (G1 & G2 & G3 & G4). destruct (ok3_n D OK) as (N1 & N2 & N3).
  assert (paired axes) as Pd.
  { destruct (ok3_px D OK) as [P1 P2]. destruct (ok3_py D OK) as [P3 P4]. destruct (ok3_pz D OK) as [P5 P6]. constructor; [|constructor; [|constructor; [|constructor]]]; congruence. }
  apply C11_current_3d in H; [|exact Mo|lia|lia|lia|lia|exact (sym3 _ _ _ Pd N1 N2 N3)]. destruct H as [H _].
  rewrite H; [|exact Hf|exact Hp|apply interior_within; [lia|exact Hc]]. clear H. unfold shown.
  destruct (place axes ns (position p) c) as [g|] eqn:Eg.
  2:{ exfalso. inversion Hc as [|? a ? ? Ha Hb]; subst. inversion Hb as [|? b ? ? Hb' Hn]; subst. inversion Hn as [|? b' ? ? Hb'' Hn']; subst. inversion Hn'; subst. rewrite place3_wrap in Eg by exact OK. discriminate. }
  rewrite (current_global ns ng bounds3 opp3 (npatch3 (e_ax D) (e_ay D) (e_az D)) (geometry3 _ _ _ ng ltac:(lia) G2 G3 G4) (nbr3 (e_ax D) (e_ay D) (e_az D)) (sym3 _ _ _ Pd N1 N2 N3) axes position) with (g := g); auto.
  2: intros; now apply hgrid3. 2: apply all3. 2: intros p0 b q Hp0 Hb; apply (nbr3_spec _ _ _ N1 N2 N3 p0 b q Hp0 Hb). 2: apply (honto3 _ _ _ N1 N2 N3). 2: apply (hpos3 _ _ _ N1 N2 N3).
  apply Qc_is_canon. rewrite this_total, qsum_map. unfold gcurrents3. rewrite this_q2qc. unfold copies_of. rewrite qsum_filter, qsum_prod. cbn [fst snd].
  change (npatch3 (e_ax D) (e_ay D) (e_az D)) with n.
  rewrite (qsum_ext _ (fun q => qsum (fun ss => qsum (fun r => dep (fst ss) r f g) (S_PartSync.alive (nth q (snd ss) []))) (combine sps pss))).
  - rewrite qsum_swap. apply qsum_ext. intros [sp st] I. cbn [fst snd]. unfold particles. rewrite (flat_map_nth _ []), (L st) by (eapply in_combine_r; eassumption).
    rewrite qsum_flat. reflexivity.
  - intros q Iq. apply in_seq in Iq.
    rewrite (qsum_ext _ (fun c => qsum (fun ss => qsum (fun r => if at_place q c g then contrib3 D (fst ss) q r f (index (extents ns ng) c) else 0%Q) (S_PartSync.alive (nth q (snd ss) []))) (combine sps pss))).
    + rewrite qsum_swap. apply qsum_ext. intros [sp st] I. cbn [fst snd]. rewrite qsum_swap. apply qsum_ext. intros r Ir.
      apply one_particle3; [|lia]. apply (M st q r); [eapply in_combine_r; eassumption|lia|exact Ir].
    + intros c' Ic'. apply all_cells_in in Ic'.
      assert (0 <= index (extents ns ng) c' < NX * NY * NZ) as B.
      { pose proof (proj2 (good_index3 _ _ _ _ sizes3) c' Ic') as B; unfold volume, extents in B |- *; cbn [map fold_right] in B |- *. rewrite Z.mul_1_r, Z.mul_assoc in B. exact B. }
      pose proof (V f q _ Hf ltac:(lia) B) as E. unfold cell. generalize (at_place q c' g). intro b. destruct b.
      * exact E.
      * symmetry. apply qsum_zero. intros ss _. apply qsum_zero. reflexivity.
Qed.
End Global.
(** they depend on the particles only *)
Lemma gcurrents3_eq Nx Ny Nz dx dy dz dt sps pss pss' f g : (0 < dx)%Q -> (0 < dy)%Q -> (0 < dz)%Q -> Forall2 same_particles pss pss' ->
  gcurrents3 Nx Ny Nz dx dy dz dt sps pss f g = gcurrents3 Nx Ny Nz dx dy dz dt sps pss' f g.
Proof.
  intros D1 D2 D3 F. unfold gcurrents3. apply q2qc_eq. revert sps. induction F as [|st st' pss pss' H F IH]; intros [|sp sps]; try reflexivity.
  cbn [combine]. rewrite !qsum_cons, IH. apply Qplus_comp; [|reflexivity]. cbn [fst snd].
  assert (forall l, (qsum (fun r => gdep3 Nx Ny Nz dx dy dz dt sp r f g) l == qsum (fun r => gdep3 Nx Ny Nz dx dy dz dt sp r f g) (map canon l))%Q) as K.
  { intro l. rewrite qsum_map. apply qsum_ext. intros r _. apply gdep3_canon; auto. symmetry. apply canon_idem. }
  rewrite K, (K (particles st')). apply qsum_perm. exact H.
Qed.
