(** Proofs for C128: the deposition kernels write only inside their arrays. *)
From Coq Require Import QArith Qround Qabs Lqa.
From Verif Require Import Base M_Deposit S_Deposit M_Push S_Push S_Bounds P_Deposit P_Deposit6 P_Deposit7 P_Interp.
Local Open Scope list_scope.
Local Open Scope Z_scope.

Lemma inside_refl n A : only_inside n A A.
Proof. intros i _. auto. Qed.
Lemma inside_trans n A B C : only_inside n A B -> only_inside n B C -> only_inside n A C.
Proof. intros H K i Hi. destruct (H i Hi) as (H1 & H2 & H3 & H4). destruct (K i Hi) as (K1 & K2 & K3 & K4). rewrite K1, K2, K3, K4. auto. Qed.
Lemma inside_ev n idx e A : 0 <= idx e < n -> only_inside n A (add_ev idx A e).
Proof. intros H i Hi. unfold add_ev, fadd. cbn [a_jx a_jy a_jz a_rho]. assert ((i =? idx e) = false) as -> by lia. auto. Qed.
Lemma inside_fold n idx es : forall A, (forall e, In e es -> 0 <= idx e < n) -> only_inside n A (fold_left (add_ev idx) es A).
Proof.
  induction es as [|e es IH]; intros A H; [apply inside_refl|]. cbn [fold_left]. apply (inside_trans n A (add_ev idx A e)).
  - apply inside_ev, H. left. reflexivity.
  - apply IH. intros e' I. apply H. right. exact I.
Qed.
Lemma inside_all n kernel (P : part -> Prop) ps : (forall A p, P p -> only_inside n A (kernel A p)) ->
  forall A, (forall p, In p ps -> p_dead p = false -> p_nan p = false -> P p) -> only_inside n A (deposit_all kernel A ps).
Proof.
  intro K. unfold deposit_all. induction ps as [|p ps IH]; intros A H; [apply inside_refl|]. cbn [fold_left].
  apply (inside_trans n A (if p_dead p then A else if p_nan p then A else kernel A p)).
  - destruct (p_dead p) eqn:E1; [apply inside_refl|]. destruct (p_nan p) eqn:E2; [apply inside_refl|]. apply K, H; [left; reflexivity|exact E1|exact E2].
  - apply IH. intros p' I. apply H. right. exact I.
Qed.

Lemma flat2 nx ny i j : 0 <= i < nx -> 0 <= j < ny -> 0 <= j + i * ny < nx * ny.
Proof. intros. nia. Qed.
Lemma flat3 nx ny nz i j k : 0 <= i < nx -> 0 <= j < ny -> 0 <= k < nz -> 0 <= k + j * nz + i * (ny * nz) < nx * ny * nz.
Proof.
  intros Hi Hj Hk. pose proof (flat2 ny nz j k Hj Hk) as H. pose proof (flat2 nx (ny * nz) i (k + j * nz) Hi H) as K. rewrite <- Z.mul_assoc. exact K.
Qed.

Lemma deposit_2d_inside G dt q A p : 0 < g_nx G -> 0 < g_ny G -> only_inside (g_nx G * g_ny G) A (current_deposit_2d G dt q A p).
Proof.
  intros H1 H2. unfold current_deposit_2d. cbv zeta. apply inside_fold. intros e _. unfold wrap_index. apply flat2; apply Z.mod_pos_bound; assumption.
Qed.
Lemma deposit_2d_fast_inside G dt a b c A p : 0 < g_nx G -> 0 < g_ny G -> only_inside (g_nx G * g_ny G) A (current_deposit_2d_fast G dt a b c A p).
Proof.
  intros H1 H2. unfold current_deposit_2d_fast. cbv zeta. apply inside_fold. intros e _. unfold wrap_index. apply flat2; apply Z.mod_pos_bound; assumption.
Qed.

Lemma once_inside n i k : 2 <= n -> (k < 5)%nat -> 0 <= wrap_once n (wrap_index n i + (Z.of_nat k - 2)) < n.
Proof.
  intros H K. unfold wrap_index. pose proof (Z.mod_pos_bound i n ltac:(lia)) as B. set (m := i mod n) in *. clearbody m. unfold wrap_once. destruct (m + (Z.of_nat k - 2) <? 0) eqn:E1; [lia|]. destruct (n <=? m + (Z.of_nat k - 2)) eqn:E2; lia.
Qed.
Lemma seq3_lt k : In k (seq 1 3) -> (k < 5)%nat.
Proof. intro I. apply in_seq in I. lia. Qed.
Lemma deposit_3d_fast_inside G dt a b c d A p : 2 <= h_nx G -> 2 <= h_ny G -> 2 <= h_nz G ->
  only_inside (h_nx G * h_ny G * h_nz G) A (current_deposit_3d_fast G dt a b c d A p).
Proof.
  intros H1 H2 H3. unfold current_deposit_3d_fast. cbv zeta. apply inside_fold. intros e I.
  assert (e_i e < 5 /\ e_j e < 5 /\ e_k e < 5)%nat as (L1 & L2 & L3).
  { match type of I with In e (if ?b then _ else _) => destruct b end; apply cells3_pos in I; destruct I as (I1 & I2 & I3).
    - apply seq3_lt in I1, I2, I3. auto.
    - apply range_lt5 in I1, I2, I3. auto. }
  clear I. apply flat3; apply once_inside; assumption.
Qed.

(** ** the staged kernel in 3D wraps only negative indices *)
Lemma half_cells (n : Z) (dx dt v x0 x : Q) (s : Q) : (0 < dx)%Q -> in_patch_cells n dx x0 x -> at_most_a_cell dx dt v -> s = (1#2)%Q \/ s = (- (1#2))%Q ->
  (-1 <= (x + s * (v * dt) - x0) / dx /\ (x + s * (v * dt) - x0) / dx <= inject_Z n)%Q.
Proof.
  intros D [H1 H2] V Hs. unfold at_most_a_cell in V. apply Qabs_Qle_condition in V. destruct V as [V1 V2]. set (w := (v * dt)%Q) in *. clearbody w.
  unfold Qdiv in H1, H2. change (/ 2)%Q with (1#2)%Q in *.
  split.
  - apply Qle_shift_div_l; [exact D|]. destruct Hs as [-> | ->]; lra.
  - apply Qle_shift_div_r; [exact D|]. destruct Hs as [-> | ->]; lra.
Qed.
Lemma floor_in (n : Z) (u : Q) : (-1 <= u)%Q -> (u <= inject_Z n)%Q -> -1 <= Qfloor (u + (1#2)) <= n.
Proof.
  intros H1 H2. destruct (floor_bounds (u + (1#2))) as [B1 B2]. set (f := Qfloor (u + (1#2))) in *. clearbody f. split.
  - assert (inject_Z (-2) < inject_Z f)%Q as L; [|rewrite <- Zlt_Qlt in L; lia]. change (inject_Z (-2)) with (-2)%Q. lra.
  - assert (inject_Z f < inject_Z (n + 1))%Q as L; [|rewrite <- Zlt_Qlt in L; lia]. rewrite inject_Z_plus. change (inject_Z 1) with 1%Q. lra.
Qed.
Lemma floor_change (u w : Q) : (- 1 <= w - u)%Q -> (w - u <= 1)%Q -> -1 <= Qfloor (w + (1#2)) - Qfloor (u + (1#2)) <= 1.
Proof.
  intros H1 H2. destruct (floor_bounds (u + (1#2))) as [B1 B2]. destruct (floor_bounds (w + (1#2))) as [C1 C2].
  set (f := Qfloor (u + (1#2))) in *. set (g := Qfloor (w + (1#2))) in *. clearbody f g. split.
  - assert (inject_Z f < inject_Z (g + 2))%Q as L; [|rewrite <- Zlt_Qlt in L; lia]. rewrite inject_Z_plus. change (inject_Z 2) with 2%Q. lra.
  - assert (inject_Z g < inject_Z (f + 2))%Q as L; [|rewrite <- Zlt_Qlt in L; lia]. rewrite inject_Z_plus. change (inject_Z 2) with 2%Q. lra.
Qed.
Lemma staged_range d k : -1 <= d <= 1 -> In k (loop_range_staged d) -> (k < 5)%nat /\ Z.min 1 (1 + d) <= Z.of_nat k < Z.max 4 (4 + d).
Proof. intros D I. unfold loop_range_staged in I. cbv zeta in I. apply in_seq in I. lia. Qed.

(** the window of one axis *)
Lemma window n N (dx dt v x0 x : Q) k : (0 < dx)%Q -> 1 <= n -> n + 2 <= N -> in_patch_cells n dx x0 x -> at_most_a_cell dx dt v ->
  let i0 := Qfloor ((x - v * (1#2) * dt - x0) / dx + (1#2)) in let i1 := Qfloor ((x + v * (1#2) * dt - x0) / dx + (1#2)) in
  -1 <= i1 - i0 <= 1 /\ (In k (loop_range_staged (i1 - i0)) -> 0 <= wrap_negative N (i0 + (Z.of_nat k - 2)) < N).
Proof.
  intros D Hn HN X V i0 i1.
  pose proof (half_cells n dx dt v x0 x (- (1#2)) D X V (or_intror eq_refl)) as [A1 A2]. pose proof (half_cells n dx dt v x0 x (1#2) D X V (or_introl eq_refl)) as [B1 B2].
  assert ((x + - (1#2) * (v * dt) - x0) / dx == (x - v * (1#2) * dt - x0) / dx)%Q as E1 by (apply Qmult_comp; [ring|reflexivity]).
  assert ((x + (1#2) * (v * dt) - x0) / dx == (x + v * (1#2) * dt - x0) / dx)%Q as E2 by (apply Qmult_comp; [ring|reflexivity]).
  rewrite E1 in A1, A2. rewrite E2 in B1, B2.
  assert ((x + v * (1#2) * dt - x0) / dx - (x - v * (1#2) * dt - x0) / dx == v * dt / dx)%Q as E3 by (field; lra).
  unfold at_most_a_cell in V. apply Qabs_Qle_condition in V. destruct V as [V1 V2].
  assert (-1 <= v * dt / dx)%Q as W1 by (apply Qle_shift_div_l; [exact D|lra]). assert (v * dt / dx <= 1)%Q as W2 by (apply Qle_shift_div_r; [exact D|lra]).
  rewrite <- E3 in W1, W2.
  pose proof (floor_in n _ A1 A2) as F0. pose proof (floor_in n _ B1 B2) as F1. pose proof (floor_change _ _ W1 W2) as FC.
  fold i0 in F0, FC. fold i1 in F1, FC. clearbody i0 i1. clear - F0 F1 FC Hn HN. split; [exact FC|]. intro I. apply (staged_range _ _ FC) in I. unfold wrap_negative. destruct (0 <=? i0 + (Z.of_nat k - 2)) eqn:E; lia.
Qed.

Lemma deposit_3d_inside G n m l dt q A p : (0 < h_dx G)%Q -> (0 < h_dy G)%Q -> (0 < h_dz G)%Q -> 1 <= n -> 1 <= m -> 1 <= l ->
  n + 2 <= h_nx G -> m + 2 <= h_ny G -> l + 2 <= h_nz G -> ready_3d G n m l dt p ->
  only_inside (h_nx G * h_ny G * h_nz G) A (current_deposit_3d G dt q A p).
Proof.
  intros D1 D2 D3 N1 N2 N3 L1 L2 L3 (X & Y & Zz & VX & VY & VZ). unfold current_deposit_3d. cbv zeta. apply inside_fold. intros e I.
  apply cells3_pos in I. destruct I as (I1 & I2 & I3).
  apply (proj2 (window n (h_nx G) _ dt _ _ _ (e_i e) D1 N1 L1 X VX)) in I1. apply (proj2 (window m (h_ny G) _ dt _ _ _ (e_j e) D2 N2 L2 Y VY)) in I2.
  apply (proj2 (window l (h_nz G) _ dt _ _ _ (e_k e) D3 N3 L3 Zz VZ)) in I3. rewrite <- Z.mul_assoc. apply flat3; assumption.
Qed.

(** ** reads *)
Lemma stencil n N (X : Q) : 0 <= n -> n + 2 <= N -> (-1 <= X)%Q -> (X <= inject_Z n)%Q -> stencil_inside N X.
Proof.
  intros Hn HN H1 H2. unfold stencil_inside.
  assert (inject_Z (1 - N) <= -1)%Q by (change (-1)%Q with (inject_Z (-1)); rewrite <- Zle_Qle; lia).
  assert (inject_Z n + 1 <= inject_Z (N - 1))%Q by (change 1%Q with (inject_Z 1); rewrite <- inject_Z_plus, <- Zle_Qle; lia). split; lra.
Qed.
