(** Whole time steps in 3D, part 3: what a particle deposits does not depend on the patch it is in. *)
From Coq Require Import QArith Qabs Qround Qcanon Permutation Lqa.
From Verif Require Import Base M_Layout M_PartSync S_PartSync M_FieldSync S_FieldSync S_Maxwell M_Deposit S_Deposit M_Push S_Push P_Deposit P_Deposit2 P_Deposit5 P_Deposit6 P_Deposit7 P_Deposit8 P_Interp P_Push P_Layout P_FieldGeo P_FieldSync4 P_Maxwell M_Step S_Step P_Step1 P_Step2 P_Step3 M_Step3D S_Step3D P_StepD1 P_StepD2.
Local Open Scope list_scope.
Local Open Scope Q_scope.

(** * The additions of one particle *)
Definition ev_eq3 (e e' : ev) : Prop :=
  e_i e = e_i e' /\ e_j e = e_j e' /\ e_k e = e_k e' /\ e_jx e == e_jx e' /\ e_jy e == e_jy e' /\ e_jz e == e_jz e' /\ e_rho e == e_rho e'.
Definition w_eq (a b : Q * Q * Q) : Prop := fst (fst a) == fst (fst b) /\ snd (fst a) == snd (fst b) /\ snd a == snd b.

Section Cells.
Variables S1x S1y S1z T1x T1y T1z : list Q.
Variables c c' : Q.
Variables W W' : nat -> nat -> nat -> Q * Q * Q.
Hypothesis H1 : list_eq5 S1x T1x. Hypothesis H2 : list_eq5 S1y T1y. Hypothesis H3 : list_eq5 S1z T1z.
Hypothesis K1 : c == c'.
Hypothesis HW : forall i j k, w_eq (W i j k) (W' i j k).
Lemma line3_eq i j : forall ks bx bx' by_ by' z z', (forall k j, bx k j == bx' k j) -> (forall k, by_ k == by' k) -> z == z' ->
  let r := line3 S1x S1y S1z c W i j ks bx by_ z in let r' := line3 T1x T1y T1z c' W' i j ks bx' by' z' in
  (forall k j, fst (fst r) k j == fst (fst r') k j) /\ (forall k, snd (fst r) k == snd (fst r') k) /\ Forall2 ev_eq3 (snd r) (snd r').
Proof.
  induction ks as [|k ks IH]; intros bx bx' by_ by' z z' B Y Z; cbv zeta.
  - cbn [line3 fst snd]. split; [exact B|]. split; [exact Y|constructor].
  - rewrite !line3_cons. cbv zeta. cbn [fst snd]. destruct (HW i j k) as (W1 & W2 & W3).
    set (wx := fst (fst (W i j k))) in *. set (wy := snd (fst (W i j k))) in *. set (wz := snd (W i j k)) in *.
    set (vx := fst (fst (W' i j k))) in *. set (vy := snd (fst (W' i j k))) in *. set (vz := snd (W' i j k)) in *.
    assert (forall k0 j0, fset k (fset j (bx k j - wx) (bx k)) bx k0 j0 == fset k (fset j (bx' k j - vx) (bx' k)) bx' k0 j0) as B'.
    { intros k0 j0. unfold fset. destruct (k0 =? k)%nat; [|apply B]. destruct (j0 =? j)%nat; [|apply B]. pose proof (B k j). qcong K1. }
    assert (forall k0, fset k (by_ k - wy) by_ k0 == fset k (by' k - vy) by' k0) as Y'.
    { intros k0. unfold fset. destruct (k0 =? k)%nat; [|apply Y]. pose proof (Y k). qcong K1. }
    assert (z - wz == z' - vz) as Z' by qcong K1.
    destruct (IH _ _ _ _ _ _ B' Y' Z') as (R1 & R2 & R3). cbv zeta in R1, R2, R3. split; [exact R1|]. split; [exact R2|]. constructor; [|exact R3].
    unfold ev_eq3. cbn [e_i e_j e_k e_jx e_jy e_jz e_rho]. split; [reflexivity|]. split; [reflexivity|]. split; [reflexivity|].
    pose proof (B k j) as A1. pose proof (Y k) as A2. pose proof (H1 i) as A3. pose proof (H2 j) as A4. pose proof (H3 k) as A5.
    split; [qcong K1|]. split; [qcong K1|]. split; [exact Z'|]. qcong K1.
Qed.
Lemma plane3_eq i ks : forall js bx bx' by_ by', (forall k j, bx k j == bx' k j) -> (forall k, by_ k == by' k) ->
  let r := plane3 S1x S1y S1z c W i js ks bx by_ in let r' := plane3 T1x T1y T1z c' W' i js ks bx' by' in
  (forall k j, fst r k j == fst r' k j) /\ Forall2 ev_eq3 (snd r) (snd r').
Proof.
  induction js as [|j js IH]; intros bx bx' by_ by' B Y; cbv zeta.
  - cbn [plane3 fst snd]. split; [exact B|constructor].
  - rewrite !plane3_cons. cbv zeta. cbn [fst snd]. destruct (line3_eq i j ks bx bx' by_ by' 0 0 B Y (Qeq_refl 0)) as (R1 & R2 & R3). cbv zeta in R1, R2, R3.
    destruct (IH _ _ _ _ R1 R2) as [Q1 Q2]. cbv zeta in Q1, Q2. split; [exact Q1|]. apply Forall2_app; assumption.
Qed.
Lemma cells3_eq js ks : forall is_ bx bx', (forall k j, bx k j == bx' k j) ->
  Forall2 ev_eq3 (cells3 S1x S1y S1z c W is_ js ks bx) (cells3 T1x T1y T1z c' W' is_ js ks bx').
Proof.
  induction is_ as [|i is_ IH]; intros bx bx' B; [constructor|]. rewrite !cells3_cons. cbv zeta.
  destruct (plane3_eq i ks js bx bx' (fun _ => 0) (fun _ => 0) B (fun _ => Qeq_refl 0)) as [R1 R2]. cbv zeta in R1, R2.
  apply Forall2_app; [exact R2|]. apply IH. exact R1.
Qed.
End Cells.
Lemma weights_eq S0x S0y S0z DSx DSy DSz f1 f2 f3 T0x T0y T0z ETx ETy ETz g1 g2 g3 i j k :
  list_eq5 S0x T0x -> list_eq5 S0y T0y -> list_eq5 S0z T0z -> list_eq5 DSx ETx -> list_eq5 DSy ETy -> list_eq5 DSz ETz -> f1 == g1 -> f2 == g2 -> f3 == g3 ->
  w_eq (weights_fast S0x S0y S0z DSx DSy DSz f1 f2 f3 i j k) (weights_fast T0x T0y T0z ETx ETy ETz g1 g2 g3 i j k).
Proof.
  intros A1 A2 A3 A4 A5 A6 K1 K2 K3. pose proof (A1 i) as B1. pose proof (A2 j) as B2. pose proof (A3 k) as B3. pose proof (A4 i) as B4. pose proof (A5 j) as B5. pose proof (A6 k) as B6.
  unfold w_eq, weights_fast. cbv zeta. cbn [fst snd]. split; [|split]; qcong K1.
Qed.

(** the kernel in pieces *)
Section Kernel.
Variables (G : grid3) (dt q : Q) (p : part).
Definition m_nn : bool := all_nonneg [p_x p - vel (p_ux p) (p_ig p) * (1#2) * dt - h_x0 G; p_x p + vel (p_ux p) (p_ig p) * (1#2) * dt - h_x0 G;
  p_y p - vel (p_uy p) (p_ig p) * (1#2) * dt - h_y0 G; p_y p + vel (p_uy p) (p_ig p) * (1#2) * dt - h_y0 G;
  p_z p - vel (p_uz p) (p_ig p) * (1#2) * dt - h_z0 G; p_z p + vel (p_uz p) (p_ig p) * (1#2) * dt - h_z0 G].
Definition m_X0 : Q := (p_x p - vel (p_ux p) (p_ig p) * (1#2) * dt - h_x0 G) / h_dx G.
Definition m_X1 : Q := (p_x p + vel (p_ux p) (p_ig p) * (1#2) * dt - h_x0 G) / h_dx G.
Definition m_Y0 : Q := (p_y p - vel (p_uy p) (p_ig p) * (1#2) * dt - h_y0 G) / h_dy G.
Definition m_Y1 : Q := (p_y p + vel (p_uy p) (p_ig p) * (1#2) * dt - h_y0 G) / h_dy G.
Definition m_Z0 : Q := (p_z p - vel (p_uz p) (p_ig p) * (1#2) * dt - h_z0 G) / h_dz G.
Definition m_Z1 : Q := (p_z p + vel (p_uz p) (p_ig p) * (1#2) * dt - h_z0 G) / h_dz G.
Definition m_evs (ix0 ix1 iy0 iy1 iz0 iz1 : Z) : list ev :=
  let S0x := calculate_S0 (inject_Z ix0 - m_X0) in let S0y := calculate_S0 (inject_Z iy0 - m_Y0) in let S0z := calculate_S0 (inject_Z iz0 - m_Z0) in
  let S1x := shape1 (inject_Z ix1 - m_X1) (ix1 - ix0) in let S1y := shape1 (inject_Z iy1 - m_Y1) (iy1 - iy0) in let S1z := shape1 (inject_Z iz1 - m_Z1) (iz1 - iz0) in
  cells3 S1x S1y S1z (q / (h_dx G * h_dy G * h_dz G) * p_w p)
    (weights_fast S0x S0y S0z (diff5 S1x S0x) (diff5 S1y S0y) (diff5 S1z S0z)
      (q / (h_dy G * h_dz G * dt) * p_w p) (q / (h_dx G * h_dz G * dt) * p_w p) (q / (h_dx G * h_dy G * dt) * p_w p))
    (loop_range (ix1 - ix0)) (loop_range (iy1 - iy0)) (loop_range (iz1 - iz0)) (fun _ _ => 0).
(** cell the particle starts from *)
Definition m_ix : Z := Qfloor (m_X0 + (1#2)).
Definition m_iy : Z := Qfloor (m_Y0 + (1#2)).
Definition m_iz : Z := Qfloor (m_Z0 + (1#2)).
Definition mevs : list ev := m_evs m_ix (Qfloor (m_X1 + (1#2))) m_iy (Qfloor (m_Y1 + (1#2))) m_iz (Qfloor (m_Z1 + (1#2))).
Definition m_idx (e : ev) : Z :=
  (wrap_index (h_nz G) (m_iz + (Z.of_nat (e_k e) - 2)) + wrap_index (h_ny G) (m_iy + (Z.of_nat (e_j e) - 2)) * h_nz G + wrap_index (h_nx G) (m_ix + (Z.of_nat (e_i e) - 2)) * (h_ny G * h_nz G))%Z.
Lemma m_evs_in a b c d e f v : In v (m_evs a b c d e f) -> (e_i v < 5)%nat /\ (e_j v < 5)%nat /\ (e_k v < 5)%nat.
Proof. unfold m_evs. cbv zeta. intro I. apply cells3_pos in I. destruct I as (A & B & C). repeat split; eapply range_in; eassumption. Qed.
Lemma mevs_in e : In e mevs -> (e_i e < 5)%nat /\ (e_j e < 5)%nat /\ (e_k e < 5)%nat.
Proof. apply m_evs_in. Qed.
Lemma clean_range {A} a b c (f : list nat -> list nat -> list nat -> A) :
  (if ((a =? 0) && (b =? 0) && (c =? 0))%Z%bool then f (seq 1 3) (seq 1 3) (seq 1 3) else f (loop_range a) (loop_range b) (loop_range c)) = f (loop_range a) (loop_range b) (loop_range c).
Proof. destruct (Z.eqb_spec a 0) as [->|]; [|reflexivity]. destruct (Z.eqb_spec b 0) as [->|]; [|reflexivity]. destruct (Z.eqb_spec c 0) as [->|]; reflexivity. Qed.
Lemma kernel_events3 A : 0 < h_dx G -> 0 < h_dy G -> 0 < h_dz G -> (1 < h_nx G)%Z -> (1 < h_ny G)%Z -> (1 < h_nz G)%Z ->
  current_deposit_3d_fast G dt (q / (h_dx G * h_dy G * h_dz G)) (q / (h_dy G * h_dz G * dt)) (q / (h_dx G * h_dz G * dt)) (q / (h_dx G * h_dy G * dt)) A p
  = fold_left (add_ev m_idx) mevs A.
Proof.
  intros D1 D2 D3 N1 N2 N3. unfold current_deposit_3d_fast. cbv zeta. fold m_nn m_X0 m_X1 m_Y0 m_Y1 m_Z0 m_Z1.
  rewrite (nearest_floor m_nn m_X0), (nearest_floor m_nn m_X1), (nearest_floor m_nn m_Y0), (nearest_floor m_nn m_Y1), (nearest_floor m_nn m_Z0), (nearest_floor m_nn m_Z1);
    try (intro N; apply div_nonneg; try assumption; apply (all_nonneg_in _ _ N); cbn [In]; tauto).
  match goal with |- fold_left _ (if _ then cells3 ?a ?b ?c ?d ?w _ _ _ ?z else cells3 _ _ _ _ _ (loop_range ?u) (loop_range ?v) (loop_range ?t) _) _ = _ =>
    pose proof (clean_range u v t (fun i j k => cells3 a b c d w i j k z)) as CR end.
  cbv beta in CR. rewrite CR. clear CR. fold m_ix m_iy m_iz.
  match goal with |- fold_left _ ?l _ = _ => change l with mevs end.
  apply fold_ext_in. intros B e I. destruct (mevs_in e I) as (I1 & I2 & I3).
  unfold add_ev, m_idx. rewrite !wrap_once_eq by assumption. reflexivity.
Qed.
End Kernel.
(** the same particle seen on two grids whose origins differ by whole cells *)
Lemma kernel_shift3 G G' dt q p p' ox oy oz : part_eq p p' -> h_dx G = h_dx G' -> h_dy G = h_dy G' -> h_dz G = h_dz G' -> 0 < h_dx G -> 0 < h_dy G -> 0 < h_dz G ->
  h_x0 G == h_x0 G' + inject_Z ox * h_dx G -> h_y0 G == h_y0 G' + inject_Z oy * h_dy G -> h_z0 G == h_z0 G' + inject_Z oz * h_dz G ->
  (m_ix G' dt p' = m_ix G dt p + ox)%Z /\ (m_iy G' dt p' = m_iy G dt p + oy)%Z /\ (m_iz G' dt p' = m_iz G dt p + oz)%Z /\ Forall2 ev_eq3 (mevs G dt q p) (mevs G' dt q p').
Proof.
  intros (E1 & E2 & E3 & E4 & E5 & E6 & E7 & E8 & _) Dx Dy Dz Px Py Pz Ox Oy Oz.
  assert (m_X0 G' dt p' == m_X0 G dt p + inject_Z ox) as X0.
  { unfold m_X0. rewrite <- Dx, Ox, (vel_eq _ _ _ _ E4 E7), E1. field. lra. }
  assert (m_X1 G' dt p' == m_X1 G dt p + inject_Z ox) as X1.
  { unfold m_X1. rewrite <- Dx, Ox, (vel_eq _ _ _ _ E4 E7), E1. field. lra. }
  assert (m_Y0 G' dt p' == m_Y0 G dt p + inject_Z oy) as Y0.
  { unfold m_Y0. rewrite <- Dy, Oy, (vel_eq _ _ _ _ E5 E7), E2. field. lra. }
  assert (m_Y1 G' dt p' == m_Y1 G dt p + inject_Z oy) as Y1.
  { unfold m_Y1. rewrite <- Dy, Oy, (vel_eq _ _ _ _ E5 E7), E2. field. lra. }
  assert (m_Z0 G' dt p' == m_Z0 G dt p + inject_Z oz) as Z0.
  { unfold m_Z0. rewrite <- Dz, Oz, (vel_eq _ _ _ _ E6 E7), E3. field. lra. }
  assert (m_Z1 G' dt p' == m_Z1 G dt p + inject_Z oz) as Z1.
  { unfold m_Z1. rewrite <- Dz, Oz, (vel_eq _ _ _ _ E6 E7), E3. field. lra. }
  assert (forall Z0 Z1 o, Z1 == Z0 + inject_Z o -> Qfloor (Z1 + (1#2)) = (Qfloor (Z0 + (1#2)) + o)%Z) as FS.
  { intros A0 A1 o H. rewrite <- floor_shift. apply Qfloor_comp. rewrite H. ring. }
  pose proof (FS _ _ _ X0) as F1. pose proof (FS _ _ _ X1) as F2. pose proof (FS _ _ _ Y0) as F3. pose proof (FS _ _ _ Y1) as F4. pose proof (FS _ _ _ Z0) as F5. pose proof (FS _ _ _ Z1) as F6. clear FS.
  unfold mevs, m_ix, m_iy, m_iz. rewrite F1, F2, F3, F4, F5, F6. split; [reflexivity|]. split; [reflexivity|]. split; [reflexivity|].
  set (ix0 := Qfloor (m_X0 G dt p + (1#2))) in *. set (ix1 := Qfloor (m_X1 G dt p + (1#2))) in *. set (iy0 := Qfloor (m_Y0 G dt p + (1#2))) in *. set (iy1 := Qfloor (m_Y1 G dt p + (1#2))) in *.
  set (iz0 := Qfloor (m_Z0 G dt p + (1#2))) in *. set (iz1 := Qfloor (m_Z1 G dt p + (1#2))) in *.
  clearbody ix0 ix1 iy0 iy1 iz0 iz1. clear F1 F2 F3 F4 F5 F6. unfold m_evs. cbv zeta.
  replace (ix1 + ox - (ix0 + ox))%Z with (ix1 - ix0)%Z by ring. replace (iy1 + oy - (iy0 + oy))%Z with (iy1 - iy0)%Z by ring. replace (iz1 + oz - (iz0 + oz))%Z with (iz1 - iz0)%Z by ring.
  assert (inject_Z ix0 - m_X0 G dt p == inject_Z (ix0 + ox) - m_X0 G' dt p') as D1 by (rewrite inject_Z_plus, X0; ring).
  assert (inject_Z ix1 - m_X1 G dt p == inject_Z (ix1 + ox) - m_X1 G' dt p') as D2 by (rewrite inject_Z_plus, X1; ring).
  assert (inject_Z iy0 - m_Y0 G dt p == inject_Z (iy0 + oy) - m_Y0 G' dt p') as D3 by (rewrite inject_Z_plus, Y0; ring).
  assert (inject_Z iy1 - m_Y1 G dt p == inject_Z (iy1 + oy) - m_Y1 G' dt p') as D4 by (rewrite inject_Z_plus, Y1; ring).
  assert (inject_Z iz0 - m_Z0 G dt p == inject_Z (iz0 + oz) - m_Z0 G' dt p') as D5 by (rewrite inject_Z_plus, Z0; ring).
  assert (inject_Z iz1 - m_Z1 G dt p == inject_Z (iz1 + oz) - m_Z1 G' dt p') as D6 by (rewrite inject_Z_plus, Z1; ring).
  rewrite <- Dx, <- Dy, <- Dz.
  apply cells3_eq; try (apply shape1_eq; assumption); try (intros; reflexivity); try (rewrite E8; reflexivity).
  intros i j k. apply weights_eq; try (apply diff5_eq); try (apply S0_eq; assumption); try (apply shape1_eq; assumption); rewrite E8; reflexivity.
Qed.

(** * Deposition of a patch *)
Lemma prf_eq3 f e e' : ev_eq3 e e' -> prf f e == prf f e'.
Proof. intros (_ & _ & _ & H1 & H2 & H3 & H4). destruct f as [|[|[|f]]]; assumption. Qed.
Definition bare3 (r : prow body) : part := l_p (load3 (live r)).
Definition placed (r : prow body) : Prop := exists x y z, px _ r = Some x /\ py _ r = Some y /\ pz _ r = Some z.
Lemma bare3_flags r : placed r -> p_dead (bare3 r) = false /\ p_nan (bare3 r) = false.
Proof. intros (x & y & z & H1 & H2 & H3). unfold bare3, load3. cbn [l_p p_dead p_nan M_PartSync.row M_PartSync.dead]. rewrite H1, H2, H3. split; reflexivity. Qed.

Section Deposit.
Variable D : domain3.
Hypothesis OK : domain3_ok D.
Local Notation NX := (e_nx D + 2 * e_ng D)%Z. Local Notation NY := (e_ny D + 2 * e_ng D)%Z. Local Notation NZ := (e_nz D + 2 * e_ng D)%Z.
(** what one particle adds at one index *)
Definition contrib3 (sp : species) (p : nat) (r : prow body) (f : nat) (o : Z) : Q :=
  hit (m_idx (grid_of3 D p) (e_dt D) (bare3 r)) o (prf f) (mevs (grid_of3 D p) (e_dt D) (sp_q sp) (bare3 r)).
Lemma alive_parts3 l : (forall r, In r (S_PartSync.alive l) -> placed r) ->
  S_Deposit.alive (map (fun s => l_p (load3 s)) l) = map bare3 (S_PartSync.alive l).
Proof.
  induction l as [|[r [|]] l IH]; intro H; [reflexivity| |].
  - cbn [map]. rewrite alive_cons. cbn [load3 l_p p_dead M_PartSync.dead negb andb]. apply IH. exact H.
  - cbn [map]. rewrite alive_cons. fold (bare3 r). rewrite alive_cons_live in H |- *.
    destruct (bare3_flags r (H r (or_introl eq_refl))) as [F1 F2]. rewrite F1, F2. cbn [negb andb map]. f_equal.
    apply IH. intros r' I. apply H. right. exact I.
Qed.
Lemma deposit_list3 sp p l A f z : (forall r, In r (S_PartSync.alive l) -> placed r) ->
  arrf f (fused_deposition_3d (grid_of3 D p) (e_dt D) (sp_q sp) A (map (fun s => l_p (load3 s)) l)) z
  == arrf f A z + qsum (fun r => contrib3 sp p r f z) (S_PartSync.alive l).
Proof.
  intro H. destruct (ok3_d D OK) as (D1 & D2 & D3). destruct (ok3_g D OK) as (G1 & G2 & G3 & G4). unfold fused_deposition_3d.
  rewrite (deposit_sum _ (fun A => arrf f A z) (fun a => hit (m_idx (grid_of3 D p) (e_dt D) a) z (prf f) (mevs (grid_of3 D p) (e_dt D) (sp_q sp) a))).
  - rewrite (alive_parts3 l H), qsum_map. reflexivity.
  - intros a A' _. rewrite kernel_events3 by (assumption || (cbn [grid_of3 h_nx h_ny h_nz]; lia)). apply add_evs_f.
Qed.
Lemma put_currents3_f m p C f o : (f < 4)%nat -> (0 <= o < NX * NY * NZ)%Z -> put_currents3 D m p C (Fld f p o) = Q2Qc (arrf f C o).
Proof.
  intros H B. unfold put_currents3. rewrite Nat.eqb_refl. destruct (Z.leb_spec 0 o); [|lia]. destruct (Z.ltb_spec o (NX * NY * NZ)); [|lia]. cbn [andb].
  destruct f as [|[|[|[|f]]]]; try reflexivity. lia.
Qed.
Lemma put_currents3_other m p C f q o : q <> p -> put_currents3 D m p C (Fld f q o) = m (Fld f q o).
Proof. intro H. unfold put_currents3. destruct (Nat.eqb_spec q p); [contradiction|]. reflexivity. Qed.
Lemma deposit_here3 sp m p l f o : sp_unified sp = true -> (forall r, In r (S_PartSync.alive l) -> placed r) -> (f < 4)%nat -> (0 <= o < NX * NY * NZ)%Z ->
  deposit_patch3 D sp m p l (Fld f p o) = Q2Qc (this (m (Fld f p o)) + qsum (fun r => contrib3 sp p r f o) (S_PartSync.alive l)).
Proof. intros U H Hf Ho. unfold deposit_patch3. rewrite U, put_currents3_f by assumption. apply q2qc_eq. rewrite deposit_list3 by exact H. rewrite currents_of_f by exact Hf. reflexivity. Qed.
Lemma deposit_other3 sp m p l f q o : q <> p -> deposit_patch3 D sp m p l (Fld f q o) = m (Fld f q o).
Proof. apply put_currents3_other. Qed.
Lemma reset_value3 m f p o : (f < 4)%nat -> (p < npatches3 D)%nat -> (0 <= o < NX * NY * NZ)%Z -> reset_currents3 D m (Fld f p o) = Q2Qc 0.
Proof.
  intros Hf Hp Ho. unfold reset_currents3.
  assert (forall l m, (In p l \/ m (Fld f p o) = Q2Qc 0) -> fold_left (fun m p => put_currents3 D m p reset_current) l m (Fld f p o) = Q2Qc 0) as K.
  { induction l as [|a l IH]; intros m' H; [destruct H as [[]|H]; exact H|]. cbn [fold_left]. apply IH.
    destruct (Nat.eq_dec p a) as [<-|N]; [right; rewrite put_currents3_f by assumption; destruct f as [|[|[|f]]]; reflexivity|].
    destruct H as [[E|I]|E]; [congruence|left; exact I|right; rewrite put_currents3_other by exact N; exact E]. }
  apply K. left. apply in_seq. lia.
Qed.
End Deposit.
