(** Shape factors, sums and the window algebra of deposition. *)
From Coq Require Import QArith Qround Qabs Lqa Setoid Morphisms.
From Verif Require Import Base M_Deposit S_Deposit.
Local Open Scope nat_scope.
Local Open Scope Q_scope.

(** ** Sums *)

Lemma qsum_ext {A} (f g : A -> Q) l :
  (forall a, In a l -> f a == g a) -> qsum f l == qsum g l.
Proof.
  induction l as [|a l IH]; intro H; [reflexivity|].
  cbn [qsum fold_right]. rewrite (H a (or_introl eq_refl)).
  fold (qsum f l). fold (qsum g l). rewrite IH; [reflexivity|]. intros b I. apply H. now right.
Qed.

Lemma qsum_cons {A} (f : A -> Q) a l : qsum f (a :: l) = f a + qsum f l.
Proof. reflexivity. Qed.

Lemma qsum_app {A} (f : A -> Q) l m : qsum f (l ++ m) == qsum f l + qsum f m.
Proof.
  induction l as [|a l IH]; cbn [app]; [change (qsum f []) with 0; ring|].
  rewrite !qsum_cons, IH. ring.
Qed.

Lemma qsum_add {A} (f g : A -> Q) l : qsum (fun a => f a + g a) l == qsum f l + qsum g l.
Proof.
  induction l as [|a l IH]; [reflexivity|]. rewrite !qsum_cons, IH. ring.
Qed.

Lemma qsum_scale {A} c (f : A -> Q) l : qsum (fun a => c * f a) l == c * qsum f l.
Proof.
  induction l as [|a l IH]; [cbn; ring|]. rewrite !qsum_cons, IH. ring.
Qed.

Lemma qsum_zero {A} (f : A -> Q) l : (forall a, In a l -> f a == 0) -> qsum f l == 0.
Proof.
  intro H. rewrite (qsum_ext f (fun _ => 0)) by exact H.
  induction l as [|a l IH]; [reflexivity|]. rewrite qsum_cons, IH; [ring|].
  intros; apply H; now right.
Qed.

Lemma qsum_map {A B} (f : B -> Q) (g : A -> B) l : qsum f (map g l) = qsum (fun a => f (g a)) l.
Proof. induction l as [|a l IH]; [reflexivity|]. cbn [map]. now rewrite !qsum_cons, IH. Qed.

Lemma qsum_swap {A B} (f : A -> B -> Q) l m :
  qsum (fun a => qsum (f a) m) l == qsum (fun b => qsum (fun a => f a b) l) m.
Proof.
  induction l as [|a l IH].
  - change (0 == qsum (fun _ : B => 0) m). symmetry. apply qsum_zero. reflexivity.
  - rewrite qsum_cons, IH, <- qsum_add. apply qsum_ext. intros b _. reflexivity.
Qed.

Lemma qsum_filter {A} (f : A -> Q) (p : A -> bool) l :
  qsum f (filter p l) == qsum (fun a => if p a then f a else 0) l.
Proof.
  induction l as [|a l IH]; [reflexivity|]. cbn [filter]. rewrite qsum_cons.
  destruct (p a); rewrite ?qsum_cons, IH; ring.
Qed.

(** ** Nearest cell *)

Lemma floor_bounds x : inject_Z (Qfloor x) <= x /\ x < inject_Z (Qfloor x) + 1.
Proof.
  split; [apply Qfloor_le|]. pose proof (Qlt_floor x) as H.
  rewrite inject_Z_plus in H. exact H.
Qed.

Lemma floor_unique x z : inject_Z z <= x -> x < inject_Z z + 1 -> Qfloor x = z.
Proof.
  intros H1 H2. destruct (floor_bounds x) as [F1 F2].
  assert (inject_Z z < inject_Z (Qfloor x) + 1) as A1 by lra.
  assert (inject_Z (Qfloor x) < inject_Z z + 1) as A2 by lra.
  change 1 with (inject_Z 1) in A1, A2. rewrite <- inject_Z_plus in A1, A2.
  rewrite <- Zlt_Qlt in A1, A2. lia.
Qed.

Lemma ctrunc_floor x : 0 <= x -> ctrunc x = Qfloor x.
Proof.
  intros H. destruct x as [n d]. unfold ctrunc, Qfloor. cbn [Qnum Qden].
  unfold Qle in H. cbn in H. rewrite Z.quot_div_nonneg; lia.
Qed.

Lemma nearest_floor nn x : (nn = true -> 0 <= x) -> nearest nn x = Qfloor (x + (1#2)).
Proof.
  intros H. unfold nearest. destruct nn; [|reflexivity].
  apply ctrunc_floor. specialize (H eq_refl). lra.
Qed.

Lemma all_nonneg_in l q : all_nonneg l = true -> In q l -> 0 <= q.
Proof.
  unfold all_nonneg. rewrite forallb_forall. intros H I. apply Qle_bool_iff. auto.
Qed.

Lemma div_nonneg a b : 0 <= a -> 0 < b -> 0 <= a / b.
Proof. intros H1 H2. apply Qle_shift_div_l; lra. Qed.

(** ** Shape factors are the spline *)

Lemma spline_mid d : - (1#2) <= d -> d <= (1#2) -> spline d == (3#4) - d * d.
Proof.
  intros H1 H2. unfold spline.
  rewrite (proj2 (Qle_bool_iff (Qabs d) (1#2))); [reflexivity|].
  apply Qabs_Qle_condition. split; lra.
Qed.

Lemma Qle_bool_false a b : b < a -> Qle_bool a b = false.
Proof.
  intro H. destruct (Qle_bool a b) eqn:E; [|reflexivity].
  apply Qle_bool_iff in E. lra.
Qed.

Lemma spline_right d : (1#2) <= d -> d <= (3#2) -> spline d == (1#2) * (((3#2) - d) * ((3#2) - d)).
Proof.
  intros H1 H2. unfold spline.
  assert (Qabs d == d) as A by (apply Qabs_pos; lra).
  destruct (Qle_bool (Qabs d) (1#2)) eqn:E.
  - apply Qle_bool_iff in E. rewrite A in E. assert (d == 1#2) as D by lra. rewrite D. reflexivity.
  - rewrite (proj2 (Qle_bool_iff (Qabs d) (3#2))) by (rewrite A; lra). rewrite A. reflexivity.
Qed.

Lemma spline_left d : - (3#2) <= d -> d <= - (1#2) -> spline d == (1#2) * (((3#2) + d) * ((3#2) + d)).
Proof.
  intros H1 H2. unfold spline.
  assert (Qabs d == - d) as A by (apply Qabs_neg; lra).
  destruct (Qle_bool (Qabs d) (1#2)) eqn:E.
  - apply Qle_bool_iff in E. rewrite A in E. assert (d == - (1#2)) as D by lra. rewrite D. reflexivity.
  - rewrite (proj2 (Qle_bool_iff (Qabs d) (3#2))) by (rewrite A; lra). rewrite A. ring.
Qed.

Lemma spline_out d : d <= - (3#2) \/ (3#2) <= d -> spline d == 0.
Proof.
  intros H.
  assert ((3#2) <= Qabs d) as A.
  { destruct H as [H|H]; [rewrite Qabs_neg by lra|rewrite Qabs_pos by lra]; lra. }
  unfold spline. rewrite Qle_bool_false by lra.
  destruct (Qle_bool (Qabs d) (3#2)) eqn:E; [|reflexivity].
  apply Qle_bool_iff in E. assert (Qabs d == (3#2)) as D by lra. rewrite D. reflexivity.
Qed.

#[global] Instance spline_proper : Proper (Qeq ==> Qeq) spline.
Proof.
  intros a b E. unfold spline.
  assert (Qle_bool (Qabs a) (1#2) = Qle_bool (Qabs b) (1#2)) as E1.
  { destruct (Qle_bool (Qabs b) (1#2)) eqn:B.
    - apply Qle_bool_iff in B. apply Qle_bool_iff. now rewrite E.
    - destruct (Qle_bool (Qabs a) (1#2)) eqn:A; [|reflexivity].
      apply Qle_bool_iff in A. rewrite E in A. apply Qle_bool_iff in A. congruence. }
  assert (Qle_bool (Qabs a) (3#2) = Qle_bool (Qabs b) (3#2)) as E2.
  { destruct (Qle_bool (Qabs b) (3#2)) eqn:B.
    - apply Qle_bool_iff in B. apply Qle_bool_iff. now rewrite E.
    - destruct (Qle_bool (Qabs a) (3#2)) eqn:A; [|reflexivity].
      apply Qle_bool_iff in A. rewrite E in A. apply Qle_bool_iff in A. congruence. }
  rewrite E1, E2. destruct (Qle_bool (Qabs b) (1#2)); [now rewrite E|].
  destruct (Qle_bool (Qabs b) (3#2)); [now rewrite E|reflexivity].
Qed.

(** [S] describes the spline of a particle at [X] on the window around [i0]. *)
Definition window_of (S : nat -> Q) (i0 : Z) (X : Q) : Prop :=
  forall k, (k < 5)%nat -> S k == spline (inject_Z (i0 + (Z.of_nat k - 2)) - X).

Lemma inject_eval a b : inject_Z (a + b) == inject_Z a + inject_Z b.
Proof. rewrite inject_Z_plus. reflexivity. Qed.

Ltac spl :=
  first
    [ rewrite spline_mid by lra; ring
    | rewrite spline_left by lra; ring
    | rewrite spline_right by lra; ring
    | rewrite spline_out by lra; ring ].

Lemma five_cases (P : nat -> Prop) :
  P 0%nat -> P 1%nat -> P 2%nat -> P 3%nat -> P 4%nat -> forall k, (k < 5)%nat -> P k.
Proof.
  intros P0 P1 P2 P3 P4 k Hk.
  destruct k as [|[|[|[|[|k]]]]]; auto; exfalso; lia.
Qed.

Lemma shape_window i0 i1 X d :
  inject_Z i1 <= X + (1#2) -> X + (1#2) < inject_Z i1 + 1 ->
  (d = i1 - i0)%Z -> (-1 <= d <= 1)%Z ->
  window_of (at5 (calculate_S (inject_Z i1 - X) d)) i0 X.
Proof.
  intros H1 H2 Hd Hr. unfold window_of. apply five_cases;
    rewrite inject_eval;
    (assert (d = -1 \/ d = 0 \/ d = 1)%Z as C by lia);
    (assert (inject_Z i0 == inject_Z i1 - inject_Z d) as E0
      by (replace i1 with (i0 + d)%Z by lia; rewrite inject_eval; ring));
    destruct C as [-> | [-> | ->]];
    cbn [calculate_S at5 nth b2q Z.eqb Pos.eqb Z.of_nat Z.sub Z.add Z.opp Pos.of_succ_nat
         Z.pos_sub Pos.succ Pos.pred_double Z.succ_double Z.pred_double Z.double];
    unfold b2q; cbn [Z.eqb Pos.eqb];
    rewrite E0; unfold inject_Z in *;
    spl.
Qed.

Lemma S0_S delta k : at5 (calculate_S0 delta) k == at5 (calculate_S delta 0) k.
Proof.
  unfold calculate_S0, calculate_S, b2q. cbn [Z.eqb].
  destruct k as [|[|[|[|[|[|k]]]]]]; unfold at5; cbn [nth]; ring.
Qed.

Lemma shape1_S delta d k : at5 (shape1 delta d) k == at5 (calculate_S delta d) k.
Proof.
  unfold shape1. destruct (Z.eqb_spec d 0) as [->|N]; [apply S0_S|reflexivity].
Qed.

Lemma at5_diff S1 S0 k : (k < 5)%nat -> at5 (diff5 S1 S0) k = at5 S1 k - at5 S0 k.
Proof. revert k. apply five_cases; reflexivity. Qed.

(** ** Facts about one axis *)

(** Everything the kernels need to know about one axis: the two shape arrays are splines at
    the old and the new position on the same window, and outside the loop bounds nothing
    happens. *)
Record axis (S0 S1 DS : nat -> Q) (i0 : Z) (X0 X1 : Q) : Prop := {
  ax_0 : window_of S0 i0 X0;
  ax_1 : window_of S1 i0 X1;
  ax_d : forall k, (k < 5)%nat -> DS k == S1 k - S0 k;
  ax_b0 : inject_Z i0 - (1#2) <= X0 /\ X0 < inject_Z i0 + (1#2);
  ax_b1 : inject_Z i0 - (3#2) <= X1 /\ X1 < inject_Z i0 + (3#2);
}.

Definition sum5 (f : nat -> Q) : Q := qsum f (seq 0 5).
Lemma sum5_eq f : sum5 f == f 0%nat + f 1%nat + f 2%nat + f 3%nat + f 4%nat.
Proof. unfold sum5. cbn [seq qsum fold_right]. ring. Qed.

(** prefix sums over the window *)
Definition psum (f : nat -> Q) (s i : nat) : Q := qsum f (seq s (Datatypes.S i - s)).

Lemma psum0_5 f i : (i < 5)%nat -> psum f 0 i == sum5 (fun k => if (k <=? i)%nat then f k else 0).
Proof.
  intros H. rewrite sum5_eq. revert i H. apply five_cases; unfold psum;
    cbn [seq Nat.sub qsum fold_right Nat.leb]; ring.
Qed.

Section Axis.
  Variables (S0 S1 DS : nat -> Q) (i0 : Z) (X0 X1 : Q) (d : Z).
  Hypothesis AX : axis S0 S1 DS i0 X0 X1.

  Lemma win_sum S X : window_of S i0 X ->
    inject_Z i0 - (3#2) <= X -> X < inject_Z i0 + (3#2) ->
    sum5 S == 1 /\ sum5 (fun k => inject_Z (Z.of_nat k) * S k) == X - inject_Z i0 + 2.
  Proof using.
    clear. intros W L U.
    rewrite !sum5_eq.
    rewrite (W 0%nat), (W 1%nat), (W 2%nat), (W 3%nat), (W 4%nat) by lia.
    rewrite !inject_eval.
    change (Z.of_nat 0 - 2)%Z with (-2)%Z. change (Z.of_nat 1 - 2)%Z with (-1)%Z.
    change (Z.of_nat 2 - 2)%Z with 0%Z. change (Z.of_nat 3 - 2)%Z with 1%Z.
    change (Z.of_nat 4 - 2)%Z with 2%Z.
    change (Z.of_nat 0) with 0%Z. change (Z.of_nat 1) with 1%Z. change (Z.of_nat 2) with 2%Z.
    change (Z.of_nat 3) with 3%Z. change (Z.of_nat 4) with 4%Z.
    set (c := inject_Z i0) in *. clearbody c. unfold inject_Z.
    destruct (Qlt_le_dec X (c - (1#2))) as [C|C]; [|destruct (Qlt_le_dec X (c + (1#2))) as [C'|C']].
    - rewrite (spline_left (c + (-2 # 1) - X)), (spline_mid (c + (-1 # 1) - X)),
        (spline_right (c + (0 # 1) - X)), (spline_out (c + (1 # 1) - X)),
        (spline_out (c + (2 # 1) - X)) by lra. split; ring.
    - rewrite (spline_out (c + (-2 # 1) - X)), (spline_left (c + (-1 # 1) - X)),
        (spline_mid (c + (0 # 1) - X)), (spline_right (c + (1 # 1) - X)),
        (spline_out (c + (2 # 1) - X)) by lra. split; ring.
    - rewrite (spline_out (c + (-2 # 1) - X)), (spline_out (c + (-1 # 1) - X)),
        (spline_left (c + (0 # 1) - X)), (spline_mid (c + (1 # 1) - X)),
        (spline_right (c + (2 # 1) - X)) by lra. split; ring.
  Qed.

  Lemma ax_sum0 : sum5 S0 == 1.
  Proof using AX. apply (win_sum S0 X0 (ax_0 _ _ _ _ _ _ AX)); destruct (ax_b0 _ _ _ _ _ _ AX); lra. Qed.
  Lemma ax_sum1 : sum5 S1 == 1.
  Proof using AX. apply (win_sum S1 X1 (ax_1 _ _ _ _ _ _ AX)); destruct (ax_b1 _ _ _ _ _ _ AX); lra. Qed.

  Lemma ax_ds k : (k < 5)%nat -> DS k == S1 k - S0 k.
  Proof using AX. apply (ax_d _ _ _ _ _ _ AX). Qed.

  Lemma ax_sumd : sum5 DS == 0.
  Proof using AX.
    pose proof ax_sum0 as A. pose proof ax_sum1 as B. rewrite sum5_eq in *.
    rewrite !ax_ds by lia. lra.
  Qed.

  Lemma ax_moment : sum5 (fun i => psum DS 0 i) == X0 - X1.
  Proof using AX.
    destruct (win_sum S0 X0 (ax_0 _ _ _ _ _ _ AX)) as [A A'];
      [destruct (ax_b0 _ _ _ _ _ _ AX); lra..|].
    destruct (win_sum S1 X1 (ax_1 _ _ _ _ _ _ AX)) as [B B'];
      [destruct (ax_b1 _ _ _ _ _ _ AX); lra..|].
    rewrite sum5_eq in *. rewrite !psum0_5 by lia. rewrite !sum5_eq. cbn [Nat.leb].
    rewrite !ax_ds by lia. unfold inject_Z in *. cbn [Z.of_nat Pos.of_succ_nat Pos.succ] in *. lra.
  Qed.

  Lemma psum_last : psum DS 0 4 == 0.
  Proof using AX. rewrite <- ax_sumd. reflexivity. Qed.

  (** ** Periodic folding *)
  Definition foldp (n a : Z) (f : nat -> Q) : Q :=
    sum5 (fun k => if (wrap_index n (i0 + (Z.of_nat k - 2)) =? a)%Z then f k else 0).

  Lemma foldp_ext n a f g : (forall k, (k < 5)%nat -> f k == g k) -> foldp n a f == foldp n a g.
  Proof using.
    clear. intros H. unfold foldp, sum5. apply qsum_ext. intros k I. apply in_seq in I.
    destruct (_ =? a)%Z; [apply H; lia|reflexivity].
  Qed.

  Lemma foldp_add n a f g : foldp n a (fun k => f k + g k) == foldp n a f + foldp n a g.
  Proof using.
    clear. unfold foldp, sum5. rewrite <- qsum_add. apply qsum_ext. intros k _.
    destruct (_ =? a)%Z; ring.
  Qed.

  Lemma foldp_scale n a c f : foldp n a (fun k => c * f k) == c * foldp n a f.
  Proof using.
    clear. unfold foldp, sum5. rewrite <- qsum_scale. apply qsum_ext. intros k _.
    destruct (_ =? a)%Z; ring.
  Qed.

  Lemma foldp_ds n a : foldp n a DS == foldp n a S1 - foldp n a S0.
  Proof using AX.
    rewrite (foldp_ext n a DS (fun k => S1 k + (-1) * S0 k)).
    - rewrite foldp_add, (foldp_scale n a (-1) S0). ring.
    - intros k H. rewrite ax_ds by exact H. ring.
  Qed.

  (** Moving one cell to the left in the prefix sums undoes the summation. *)
  Lemma foldp_shift n a : (0 < n)%Z -> (0 <= a < n)%Z ->
    foldp n a (fun i => psum DS 0 i) - foldp n ((a - 1) mod n) (fun i => psum DS 0 i)
    == foldp n a DS.
  Proof using AX.
    intros Hn Ha.
    assert (forall k, (wrap_index n (i0 + (Z.of_nat k - 2)) =? (a - 1) mod n)%Z
                      = (wrap_index n (i0 + (Z.of_nat (Datatypes.S k) - 2)) =? a)%Z) as E.
    { intro k. unfold wrap_index. apply Bool.eq_iff_eq_true. rewrite !Z.eqb_eq.
      replace (i0 + (Z.of_nat (Datatypes.S k) - 2))%Z with (i0 + (Z.of_nat k - 2) + 1)%Z by lia.
      generalize (i0 + (Z.of_nat k - 2))%Z. intros u. split; intro H.
      - rewrite Zplus_mod, H, <- Zplus_mod. replace (a - 1 + 1)%Z with a by lia.
        apply Z.mod_small. lia.
      - rewrite <- H, Zminus_mod_idemp_l. f_equal. lia. }
    unfold foldp. rewrite !sum5_eq. rewrite !E.
    cbv beta.
    pose proof (psum0_5 DS 0) as P0. pose proof (psum0_5 DS 1) as P1.
    pose proof (psum0_5 DS 2) as P2. pose proof (psum0_5 DS 3) as P3.
    pose proof psum_last as P4.
    specialize (P0 ltac:(lia)). specialize (P1 ltac:(lia)).
    specialize (P2 ltac:(lia)). specialize (P3 ltac:(lia)).
    rewrite sum5_eq in P0, P1, P2, P3. cbn [Nat.leb] in P0, P1, P2, P3.
    pose proof ax_sumd as T. rewrite sum5_eq in T.
    destruct (wrap_index n (i0 + (Z.of_nat 0 - 2)) =? a)%Z,
      (wrap_index n (i0 + (Z.of_nat 1 - 2)) =? a)%Z,
      (wrap_index n (i0 + (Z.of_nat 2 - 2)) =? a)%Z,
      (wrap_index n (i0 + (Z.of_nat 3 - 2)) =? a)%Z,
      (wrap_index n (i0 + (Z.of_nat 4 - 2)) =? a)%Z,
      (wrap_index n (i0 + (Z.of_nat 5 - 2)) =? a)%Z; lra.
  Qed.
End Axis.
