(** Whole time steps, part 3: what a particle deposits does not depend on the patch it is in. *)
From Coq Require Import QArith Qabs Qround Qcanon Permutation Lqa.
From Verif Require Import Base M_Layout M_PartSync S_PartSync M_FieldSync S_FieldSync S_Maxwell M_Deposit S_Deposit M_Push S_Push P_Deposit P_Deposit2 P_Deposit5 P_Interp P_Push P_Layout P_FieldGeo P_FieldSync4 M_Step S_Step P_Step1 P_Step2.
Local Open Scope list_scope.
Local Open Scope Q_scope.

(** * The additions of one particle *)
Definition ev_eq (e e' : ev) : Prop :=
  e_i e = e_i e' /\ e_j e = e_j e' /\ e_jx e == e_jx e' /\ e_jy e == e_jy e' /\ e_jz e == e_jz e' /\ e_rho e == e_rho e'.
Definition list_eq5 (l l' : list Q) : Prop := forall i, at5 l i == at5 l' i.

Section Rows.
Variables S0x S0y S1x S1y DSx DSy T0x T0y T1x T1y ETx ETy : list Q.
Variables c f1 f2 f3 c' f1' f2' f3' : Q.
Hypothesis H1 : list_eq5 S0x T0x. Hypothesis H2 : list_eq5 S0y T0y. Hypothesis H3 : list_eq5 S1x T1x.
Hypothesis H4 : list_eq5 S1y T1y. Hypothesis H5 : list_eq5 DSx ETx. Hypothesis H6 : list_eq5 DSy ETy.
Hypothesis K1 : c == c'. Hypothesis K2 : f1 == f1'. Hypothesis K3 : f2 == f2'. Hypothesis K4 : f3 == f3'.
Lemma row2_eq i : forall js b b' y y', (forall k, b k == b' k) -> y == y' ->
  let r := row2 S0x S0y S1x S1y DSx DSy c f1 f2 f3 i js b y in let r' := row2 T0x T0y T1x T1y ETx ETy c' f1' f2' f3' i js b' y' in
  (forall k, fst r k == fst r' k) /\ Forall2 ev_eq (snd r) (snd r').
Proof.
  induction js as [|j js IH]; intros b b' y y' B Y; cbv zeta; cbn [row2].
  - split; [exact B|constructor].
  - pose proof (H1 i) as A1. pose proof (H2 j) as A2. pose proof (H3 i) as A3. pose proof (H4 j) as A4. pose proof (H5 i) as A5. pose proof (H6 j) as A6.
    assert (forall k, fset j (b j - f1 * at5 DSx i * (at5 S0y j + (1#2) * at5 DSy j)) b k == fset j (b' j - f1' * at5 ETx i * (at5 T0y j + (1#2) * at5 ETy j)) b' k) as B'.
    { intro k. unfold fset. destruct (k =? j)%nat; [|apply B]. pose proof (B j). qcong K1. }
    assert (y - f2 * (at5 DSy j * (at5 S0x i + (1#2) * at5 DSx i)) == y' - f2' * (at5 ETy j * (at5 T0x i + (1#2) * at5 ETx i))) as Y' by qcong K1.
    destruct (IH _ _ _ _ B' Y') as [R1 R2]. cbv zeta in R1, R2. cbn [fst snd]. split; [exact R1|]. constructor; [|exact R2].
    unfold ev_eq. cbn [e_i e_j e_jx e_jy e_jz e_rho]. split; [reflexivity|]. split; [reflexivity|].
    split; [apply B'|]. split; [exact Y'|]. split; qcong K1.
Qed.
Lemma rows2_eq js : forall is_ b b', (forall k, b k == b' k) ->
  Forall2 ev_eq (rows2 S0x S0y S1x S1y DSx DSy c f1 f2 f3 is_ js b) (rows2 T0x T0y T1x T1y ETx ETy c' f1' f2' f3' is_ js b').
Proof.
  induction is_ as [|i is_ IH]; intros b b' B; cbn [rows2]; [constructor|].
  destruct (row2_eq i js b b' 0 0 B (Qeq_refl 0)) as [R1 R2]. cbv zeta in R1, R2. apply Forall2_app; [exact R2|]. apply IH. exact R1.
Qed.
Lemma row2_in i : forall js b y e, In e (snd (row2 S0x S0y S1x S1y DSx DSy c f1 f2 f3 i js b y)) -> e_i e = i /\ In (e_j e) js.
Proof.
  induction js as [|j js IH]; intros b y e I; cbn [row2 snd] in I; [destruct I|].
  destruct I as [<-|I]; [split; [reflexivity|left; reflexivity]|]. destruct (IH _ _ _ I) as [A B]. split; [exact A|right; exact B].
Qed.
Lemma rows2_in js : forall is_ b e, In e (rows2 S0x S0y S1x S1y DSx DSy c f1 f2 f3 is_ js b) -> In (e_i e) is_ /\ In (e_j e) js.
Proof.
  induction is_ as [|i is_ IH]; intros b e I; cbn [rows2] in I; [destruct I|]. apply in_app_iff in I. destruct I as [I|I].
  - destruct (row2_in _ _ _ _ _ I) as [<- B]. split; [left; reflexivity|exact B].
  - destruct (IH _ _ I) as [A B]. split; [right; exact A|exact B].
Qed.
End Rows.

Lemma S0_eq d d' : d == d' -> list_eq5 (calculate_S0 d) (calculate_S0 d').
Proof. intros H i. unfold calculate_S0. cbv zeta. destruct i as [|[|[|[|[|i]]]]]; unfold at5; cbn [nth]; try reflexivity; try (destruct i; reflexivity); qcong H. Qed.
Lemma S_eq d d' k : d == d' -> list_eq5 (calculate_S d k) (calculate_S d' k).
Proof. intros H i. unfold calculate_S. cbv zeta. destruct i as [|[|[|[|[|i]]]]]; unfold at5; cbn [nth]; try (destruct i; reflexivity); qcong H. Qed.
Lemma shape1_eq d d' k : d == d' -> list_eq5 (shape1 d k) (shape1 d' k).
Proof. intro H. unfold shape1. destruct (k =? 0)%Z; [apply S0_eq|apply S_eq]; exact H. Qed.
Lemma diff5_eq a b a' b' : list_eq5 a a' -> list_eq5 b b' -> list_eq5 (diff5 a b) (diff5 a' b').
Proof.
  intros H K i. unfold diff5. destruct i as [|[|[|[|[|i]]]]]; unfold at5 at 1 4; cbn [seq map nth]; try (apply Qminus_comp; [apply H|apply K]).
  destruct i; reflexivity.
Qed.
Lemma range_in k i : In i (loop_range k) -> (i < 5)%nat.
Proof. unfold loop_range. intro I. apply in_seq in I. destruct (k <? 0)%Z, (0 <? k)%Z; lia. Qed.

(** the kernel in pieces *)
Section Kernel.
Variables (G : grid2) (dt q : Q) (p : part).
Definition k_nn : bool := all_nonneg [p_x p - vel (p_ux p) (p_ig p) * (1#2) * dt - g_x0 G; p_x p + vel (p_ux p) (p_ig p) * (1#2) * dt - g_x0 G;
  p_y p - vel (p_uy p) (p_ig p) * (1#2) * dt - g_y0 G; p_y p + vel (p_uy p) (p_ig p) * (1#2) * dt - g_y0 G].
Definition k_X0 : Q := (p_x p - vel (p_ux p) (p_ig p) * (1#2) * dt - g_x0 G) / g_dx G.
Definition k_X1 : Q := (p_x p + vel (p_ux p) (p_ig p) * (1#2) * dt - g_x0 G) / g_dx G.
Definition k_Y0 : Q := (p_y p - vel (p_uy p) (p_ig p) * (1#2) * dt - g_y0 G) / g_dy G.
Definition k_Y1 : Q := (p_y p + vel (p_uy p) (p_ig p) * (1#2) * dt - g_y0 G) / g_dy G.
Definition k_evs (ix0 ix1 iy0 iy1 : Z) : list ev :=
  let S0x := calculate_S0 (inject_Z ix0 - k_X0) in let S0y := calculate_S0 (inject_Z iy0 - k_Y0) in
  let S1x := shape1 (inject_Z ix1 - k_X1) (ix1 - ix0) in let S1y := shape1 (inject_Z iy1 - k_Y1) (iy1 - iy0) in
  let charge_density := q * p_w p / (g_dx G * g_dy G) in let factor := charge_density / dt in
  rows2 S0x S0y S1x S1y (diff5 S1x S0x) (diff5 S1y S0y) charge_density (factor * g_dx G) (factor * g_dy G) (factor * dt * vel (p_uz p) (p_ig p))
    (loop_range (ix1 - ix0)) (loop_range (iy1 - iy0)) (fun _ => 0).
Lemma kernel_pieces A : current_deposit_2d G dt q A p =
  fold_left (add_ev (fun e => wrap_index (g_ny G) (nearest k_nn k_Y0 + (Z.of_nat (e_j e) - 2)) + wrap_index (g_nx G) (nearest k_nn k_X0 + (Z.of_nat (e_i e) - 2)) * g_ny G)%Z)
    (k_evs (nearest k_nn k_X0) (nearest k_nn k_X1) (nearest k_nn k_Y0) (nearest k_nn k_Y1)) A.
Proof. reflexivity. Qed.
(** cell the particle starts from *)
Definition k_ix : Z := Qfloor (k_X0 + (1#2)).
Definition k_iy : Z := Qfloor (k_Y0 + (1#2)).
Definition kevs : list ev := k_evs k_ix (Qfloor (k_X1 + (1#2))) k_iy (Qfloor (k_Y1 + (1#2))).
Lemma kernel_events A : 0 < g_dx G -> 0 < g_dy G -> current_deposit_2d G dt q A p =
  fold_left (add_ev (fun e => wrap_index (g_ny G) (k_iy + (Z.of_nat (e_j e) - 2)) + wrap_index (g_nx G) (k_ix + (Z.of_nat (e_i e) - 2)) * g_ny G)%Z) kevs A.
Proof.
  intros D1 D2. rewrite kernel_pieces. unfold kevs, k_ix, k_iy.
  rewrite (nearest_floor k_nn k_X0), (nearest_floor k_nn k_X1), (nearest_floor k_nn k_Y0), (nearest_floor k_nn k_Y1); [reflexivity| | | |];
    intro N; apply div_nonneg; try assumption; apply (all_nonneg_in _ _ N); cbn [In]; tauto.
Qed.
Lemma kevs_in e : In e kevs -> (e_i e < 5)%nat /\ (e_j e < 5)%nat.
Proof. unfold kevs, k_evs. cbv zeta. intro I. apply rows2_in in I. destruct I as [A B]. split; eapply range_in; eassumption. Qed.
End Kernel.
Lemma vel_eq a b a' b' : a == a' -> b == b' -> vel a b == vel a' b'.
Proof. intros H K. unfold vel. qcong H. Qed.
(** the same particle seen on two grids whose origins differ by whole cells *)
Lemma kernel_shift G G' dt q p p' ox oy : part_eq p p' -> g_dx G = g_dx G' -> g_dy G = g_dy G' -> 0 < g_dx G -> 0 < g_dy G ->
  g_x0 G == g_x0 G' + inject_Z ox * g_dx G -> g_y0 G == g_y0 G' + inject_Z oy * g_dy G ->
  (k_ix G' dt p' = k_ix G dt p + ox)%Z /\ (k_iy G' dt p' = k_iy G dt p + oy)%Z /\ Forall2 ev_eq (kevs G dt q p) (kevs G' dt q p').
Proof.
  intros (E1 & E2 & E3 & E4 & E5 & E6 & E7 & E8 & _) Dx Dy Px Py Ox Oy.
  assert (k_X0 G' dt p' == k_X0 G dt p + inject_Z ox) as X0.
  { unfold k_X0. rewrite <- Dx, Ox, (vel_eq _ _ _ _ E4 E7), E1. field. lra. }
  assert (k_X1 G' dt p' == k_X1 G dt p + inject_Z ox) as X1.
  { unfold k_X1. rewrite <- Dx, Ox, (vel_eq _ _ _ _ E4 E7), E1. field. lra. }
  assert (k_Y0 G' dt p' == k_Y0 G dt p + inject_Z oy) as Y0.
  { unfold k_Y0. rewrite <- Dy, Oy, (vel_eq _ _ _ _ E5 E7), E2. field. lra. }
  assert (k_Y1 G' dt p' == k_Y1 G dt p + inject_Z oy) as Y1.
  { unfold k_Y1. rewrite <- Dy, Oy, (vel_eq _ _ _ _ E5 E7), E2. field. lra. }
  assert (forall Z0 Z1 o, Z1 == Z0 + inject_Z o -> Qfloor (Z1 + (1#2)) = (Qfloor (Z0 + (1#2)) + o)%Z) as FS.
  { intros Z0 Z1 o H. rewrite <- floor_shift. apply Qfloor_comp. rewrite H. ring. }
  pose proof (FS _ _ _ X0) as F1. pose proof (FS _ _ _ X1) as F2. pose proof (FS _ _ _ Y0) as F3. pose proof (FS _ _ _ Y1) as F4. clear FS.
  unfold kevs, k_ix, k_iy. rewrite F1, F2, F3, F4. split; [reflexivity|]. split; [reflexivity|].
  set (ix0 := Qfloor (k_X0 G dt p + (1#2))) in *. set (ix1 := Qfloor (k_X1 G dt p + (1#2))) in *. set (iy0 := Qfloor (k_Y0 G dt p + (1#2))) in *. set (iy1 := Qfloor (k_Y1 G dt p + (1#2))) in *.
  clearbody ix0 ix1 iy0 iy1. clear F1 F2 F3 F4. unfold k_evs. cbv zeta.
  replace (ix1 + ox - (ix0 + ox))%Z with (ix1 - ix0)%Z by ring. replace (iy1 + oy - (iy0 + oy))%Z with (iy1 - iy0)%Z by ring.
  assert (inject_Z ix0 - k_X0 G dt p == inject_Z (ix0 + ox) - k_X0 G' dt p') as D1 by (rewrite inject_Z_plus, X0; ring).
  assert (inject_Z ix1 - k_X1 G dt p == inject_Z (ix1 + ox) - k_X1 G' dt p') as D2 by (rewrite inject_Z_plus, X1; ring).
  assert (inject_Z iy0 - k_Y0 G dt p == inject_Z (iy0 + oy) - k_Y0 G' dt p') as D3 by (rewrite inject_Z_plus, Y0; ring).
  assert (inject_Z iy1 - k_Y1 G dt p == inject_Z (iy1 + oy) - k_Y1 G' dt p') as D4 by (rewrite inject_Z_plus, Y1; ring).
  rewrite <- Dx, <- Dy.
  apply rows2_eq; try (apply diff5_eq); try (apply S0_eq; assumption); try (apply shape1_eq; assumption); try (intro; reflexivity); try (rewrite E8; reflexivity).
  rewrite E8, (vel_eq _ _ _ _ E6 E7). reflexivity.
Qed.

(** * Deposition of a patch *)
Definition prf (f : nat) : ev -> Q := match f with 0%nat => e_jx | 1%nat => e_jy | 2%nat => e_jz | _ => e_rho end.
Definition arrf (f : nat) : arrays -> Z -> Q := match f with 0%nat => a_jx | 1%nat => a_jy | 2%nat => a_jz | _ => a_rho end.
Lemma add_evs_f f idx es A z : arrf f (fold_left (add_ev idx) es A) z == arrf f A z + hit idx z (prf f) es.
Proof. destruct (add_evs idx es A z) as (H1 & H2 & H3 & H4). destruct f as [|[|[|f]]]; assumption. Qed.
Lemma prf_eq f e e' : ev_eq e e' -> prf f e == prf f e'.
Proof. intros (_ & _ & H1 & H2 & H3 & H4). destruct f as [|[|[|f]]]; assumption. Qed.
Definition bare (r : prow body) : part := l_p (load (live r)).
Lemma bare_flags r x y : px _ r = Some x -> py _ r = Some y -> p_dead (bare r) = false /\ p_nan (bare r) = false.
Proof. intros H1 H2. unfold bare, load. cbn [l_p p_dead p_nan M_PartSync.row M_PartSync.dead]. rewrite H1, H2. split; reflexivity. Qed.

Section Deposit.
Variable D : domain2.
Hypothesis OK : domain_ok D.
Local Notation NX := (d_nx D + 2 * d_ng D)%Z. Local Notation NY := (d_ny D + 2 * d_ng D)%Z.
(** flat index of an addition; what one particle adds at one index *)
Definition ev_index (p : nat) (r : prow body) (e : ev) : Z :=
  (wrap_index NY (k_iy (grid_of D p) (d_dt D) (bare r) + (Z.of_nat (e_j e) - 2)) + wrap_index NX (k_ix (grid_of D p) (d_dt D) (bare r) + (Z.of_nat (e_i e) - 2)) * NY)%Z.
Definition contrib (sp : species) (p : nat) (r : prow body) (f : nat) (o : Z) : Q :=
  hit (ev_index p r) o (prf f) (kevs (grid_of D p) (d_dt D) (sp_q sp) (bare r)).
Lemma alive_parts l : (forall r, In r (S_PartSync.alive l) -> exists x y, px _ r = Some x /\ py _ r = Some y) ->
  S_Deposit.alive (map (fun s => l_p (load s)) l) = map bare (S_PartSync.alive l).
Proof.
  induction l as [|[r [|]] l IH]; intro H; [reflexivity| |].
  - cbn [map]. rewrite alive_cons. cbn [load l_p p_dead M_PartSync.dead negb andb]. apply IH. exact H.
  - cbn [map]. rewrite alive_cons. fold (bare r). rewrite alive_cons_live in H |- *.
    destruct (H r (or_introl eq_refl)) as (x & y & E1 & E2). destruct (bare_flags r x y E1 E2) as [F1 F2]. rewrite F1, F2. cbn [negb andb map]. f_equal.
    apply IH. intros r' I. apply H. right. exact I.
Qed.
Lemma deposit_list sp p l A f z : (forall r, In r (S_PartSync.alive l) -> exists x y, px _ r = Some x /\ py _ r = Some y) ->
  arrf f ((if sp_unified sp then fused_deposition_2d else current_deposition_cpu_2d) (grid_of D p) (d_dt D) (sp_q sp) A (map (fun s => l_p (load s)) l)) z
  == arrf f A z + qsum (fun r => contrib sp p r f z) (S_PartSync.alive l).
Proof.
  intro H. destruct (ok_d D OK) as [D1 D2]. destruct (ok_t D OK) as (T1 & _).
  assert (arrf f (current_deposition_cpu_2d (grid_of D p) (d_dt D) (sp_q sp) A (map (fun s => l_p (load s)) l)) z == arrf f A z + qsum (fun r => contrib sp p r f z) (S_PartSync.alive l)) as C.
  { unfold current_deposition_cpu_2d.
    rewrite (deposit_sum (current_deposit_2d (grid_of D p) (d_dt D) (sp_q sp)) (fun A => arrf f A z)
      (fun a => hit (fun e => wrap_index NY (k_iy (grid_of D p) (d_dt D) a + (Z.of_nat (e_j e) - 2)) + wrap_index NX (k_ix (grid_of D p) (d_dt D) a + (Z.of_nat (e_i e) - 2)) * NY)%Z z (prf f) (kevs (grid_of D p) (d_dt D) (sp_q sp) a))).
    - rewrite (alive_parts l H), qsum_map. reflexivity.
    - intros a A' _. rewrite kernel_events by assumption. apply add_evs_f. }
  destruct (sp_unified sp); [|exact C]. rewrite <- C.
  destruct (fused_same (grid_of D p) (d_dt D) (sp_q sp) (map (fun s => l_p (load s)) l) ltac:(lra) ltac:(cbn [grid_of g_dx]; lra) ltac:(cbn [grid_of g_dy]; lra) A A) with (z := z) as (F1 & F2 & F3 & F4).
  { intro z'. repeat split; reflexivity. }
  destruct f as [|[|[|f]]]; assumption.
Qed.
Lemma currents_of_f m p f o : (f < 4)%nat -> arrf f (currents_of m p) o = this (m (Fld f p o)).
Proof. intro H. destruct f as [|[|[|[|f]]]]; try reflexivity. lia. Qed.
Lemma put_currents_f m p C f o : (f < 4)%nat -> (0 <= o < NX * NY)%Z -> put_currents D m p C (Fld f p o) = Q2Qc (arrf f C o).
Proof.
  intros H B. unfold put_currents. rewrite Nat.eqb_refl. destruct (Z.leb_spec 0 o); [|lia]. destruct (Z.ltb_spec o (NX * NY)); [|lia]. cbn [andb].
  destruct f as [|[|[|[|f]]]]; try reflexivity. lia.
Qed.
Lemma put_currents_other m p C f q o : q <> p -> put_currents D m p C (Fld f q o) = m (Fld f q o).
Proof. intro H. unfold put_currents. destruct (Nat.eqb_spec q p); [contradiction|]. reflexivity. Qed.
Lemma q2qc_eq a b : a == b -> Q2Qc a = Q2Qc b.
Proof. intro H. apply Qc_is_canon. cbn [Q2Qc this]. rewrite !Qred_correct. exact H. Qed.
Lemma deposit_here sp m p l f o : (forall r, In r (S_PartSync.alive l) -> exists x y, px _ r = Some x /\ py _ r = Some y) -> (f < 4)%nat -> (0 <= o < NX * NY)%Z ->
  deposit_patch D sp m p l (Fld f p o) = Q2Qc (this (m (Fld f p o)) + qsum (fun r => contrib sp p r f o) (S_PartSync.alive l)).
Proof. intros H Hf Ho. unfold deposit_patch. rewrite put_currents_f by assumption. apply q2qc_eq. rewrite deposit_list by exact H. rewrite currents_of_f by exact Hf. reflexivity. Qed.
Lemma deposit_other sp m p l f q o : q <> p -> deposit_patch D sp m p l (Fld f q o) = m (Fld f q o).
Proof. apply put_currents_other. Qed.
Lemma reset_value m f p o : (f < 4)%nat -> (p < npatches2 D)%nat -> (0 <= o < NX * NY)%Z -> reset_currents D m (Fld f p o) = Q2Qc 0.
Proof.
  intros Hf Hp Ho. unfold reset_currents.
  assert (forall l m, (In p l \/ m (Fld f p o) = Q2Qc 0) -> fold_left (fun m p => put_currents D m p reset_current) l m (Fld f p o) = Q2Qc 0) as K.
  { induction l as [|a l IH]; intros m' H; [destruct H as [[]|H]; exact H|]. cbn [fold_left]. apply IH.
    destruct (Nat.eq_dec p a) as [<-|N]; [right; rewrite put_currents_f by assumption; destruct f as [|[|[|f]]]; reflexivity|].
    destruct H as [[E|I]|E]; [congruence|left; exact I|right; rewrite put_currents_other by exact N; exact E]. }
  apply K. left. apply in_seq. lia.
Qed.
End Deposit.
