(** Shared list utilities (no model content). *)
From Coq Require Export List Arith ZArith Lia Bool Permutation.
From Coq Require Export ZifyBool ZifyNat.
Export ListNotations.

Ltac Zify.zify_post_hook ::= Z.div_mod_to_equations.

(** In-place array store [a[i] = v]; a store outside of the array leaves it unchanged
    (theorems about stores carry explicit bounds). *)
Fixpoint upd {A} (i : nat) (v : A) (l : list A) : list A :=
  match l, i with
  | [], _ => []
  | _ :: t, O => v :: t
  | h :: t, S j => h :: upd j v t
  end.

Lemma upd_length {A} i (v : A) l : length (upd i v l) = length l.
Proof. revert i; induction l as [|h t IH]; intros [|i]; simpl; auto. Qed.

Lemma nth_upd_eq {A} i (v : A) l d : i < length l -> nth i (upd i v l) d = v.
Proof.
  revert i; induction l as [|h t IH]; intros [|i] H; simpl in *; try lia; auto.
  apply IH; lia.
Qed.

Lemma nth_upd_neq {A} i j (v : A) l d : i <> j -> nth j (upd i v l) d = nth j l d.
Proof.
  revert i j; induction l as [|h t IH]; intros [|i] [|j] H; simpl; auto; try lia.
Qed.

Lemma nth_upd {A} i j (v : A) l d :
  nth j (upd i v l) d = if (i =? j) && (i <? length l) then v else nth j l d.
Proof.
  destruct (Nat.eq_dec i j) as [->|Hn].
  - rewrite Nat.eqb_refl; cbn [andb].
    destruct (Nat.ltb_spec j (length l)) as [H|H].
    + now apply nth_upd_eq.
    + rewrite !nth_overflow; auto. now rewrite upd_length.
  - rewrite (proj2 (Nat.eqb_neq i j)) by auto. cbn [andb]. now apply nth_upd_neq.
Qed.

(** Number of elements satisfying a boolean predicate. *)
Definition countb {A} (p : A -> bool) (l : list A) : nat := length (filter p l).

Lemma countb_nil {A} (p : A -> bool) : countb p [] = 0. Proof. reflexivity. Qed.
Lemma countb_cons {A} (p : A -> bool) a l :
  countb p (a :: l) = (if p a then 1 else 0) + countb p l.
Proof. unfold countb; simpl; destruct (p a); simpl; lia. Qed.
Lemma countb_app {A} (p : A -> bool) l1 l2 : countb p (l1 ++ l2) = countb p l1 + countb p l2.
Proof. unfold countb; now rewrite filter_app, app_length. Qed.
Lemma countb_le {A} (p : A -> bool) l : countb p l <= length l.
Proof. induction l as [|a l IH]; [auto|rewrite countb_cons; simpl; destruct (p a); lia]. Qed.
Lemma countb_perm {A} (p : A -> bool) l l' : Permutation l l' -> countb p l = countb p l'.
Proof.
  intro H; induction H; rewrite ?countb_cons in *; try lia; auto.
Qed.
Lemma countb_map {A B} (f : A -> B) (p : B -> bool) l :
  countb p (map f l) = countb (fun a => p (f a)) l.
Proof. induction l as [|a l IH]; [auto|simpl; rewrite !countb_cons, IH; auto]. Qed.
Lemma countb_ext {A} (p q : A -> bool) l :
  (forall a, In a l -> p a = q a) -> countb p l = countb q l.
Proof.
  induction l as [|a l IH]; intros H; [auto|].
  rewrite !countb_cons, (H a) by (now left). rewrite IH; auto. intros; apply H; now right.
Qed.
Lemma countb_split {A} (p q : A -> bool) l :
  countb p l = countb (fun a => p a && q a) l + countb (fun a => p a && negb (q a)) l.
Proof.
  induction l as [|a l IH]; [auto|]. rewrite !countb_cons, IH.
  destruct (p a), (q a); simpl; lia.
Qed.
Lemma countb_filter {A} (p q : A -> bool) l :
  countb p (filter q l) = countb (fun a => p a && q a) l.
Proof.
  induction l as [|a l IH]; [auto|]. simpl.
  destruct (q a) eqn:Hq; rewrite !countb_cons, ?IH, ?Hq; destruct (p a); simpl; auto.
Qed.
Lemma countb_repeat {A} (p : A -> bool) a n :
  countb p (repeat a n) = if p a then n else 0.
Proof.
  induction n as [|n IH]; simpl; [destruct (p a); auto|].
  rewrite countb_cons, IH. destruct (p a); lia.
Qed.
Lemma countb_false {A} (p : A -> bool) l : (forall a, In a l -> p a = false) -> countb p l = 0.
Proof.
  induction l as [|a l IH]; intros H; [auto|].
  rewrite countb_cons, (H a) by (now left). rewrite IH; auto. intros; apply H; now right.
Qed.
Lemma countb_true {A} (p : A -> bool) l : (forall a, In a l -> p a = true) -> countb p l = length l.
Proof.
  induction l as [|a l IH]; intros H; [auto|].
  rewrite countb_cons, (H a) by (now left). simpl; rewrite IH; auto. intros; apply H; now right.
Qed.

Definition sumn (l : list nat) : nat := fold_right Nat.add 0 l.
Lemma sumn_app l1 l2 : sumn (l1 ++ l2) = sumn l1 + sumn l2.
Proof. unfold sumn; induction l1 as [|a l1 IH]; simpl; [auto|]. rewrite IH; lia. Qed.
Lemma sumn_cons a l : sumn (a :: l) = a + sumn l. Proof. reflexivity. Qed.

Lemma seq_snoc s n : seq s (S n) = seq s n ++ [s + n].
Proof. rewrite seq_S. reflexivity. Qed.

Lemma nth_map {A B} (f : A -> B) l n d d' : n < length l -> nth n (map f l) d' = f (nth n l d).
Proof.
  intro H. rewrite (nth_indep _ d' (f d)) by (now rewrite map_length). apply map_nth.
Qed.

Lemma list_ext {A} (l l' : list A) d :
  length l = length l' -> (forall i, i < length l -> nth i l d = nth i l' d) -> l = l'.
Proof. intros H1 H2. apply (nth_ext _ _ d d); auto. Qed.

Lemma map_nth_seq {A} (l : list A) d : map (fun i => nth i l d) (seq 0 (length l)) = l.
Proof.
  apply (list_ext _ _ d); rewrite map_length, seq_length; auto.
  intros i Hi. rewrite (nth_map _ _ _ 0) by (now rewrite seq_length). now rewrite seq_nth.
Qed.

(** An injective self-map of [0,n) enumerates a permutation of [0,n). *)
Lemma inj_endo_perm (n : nat) (f : nat -> nat) :
  (forall i, i < n -> f i < n) ->
  (forall i j, i < n -> j < n -> f i = f j -> i = j) ->
  Permutation (map f (seq 0 n)) (seq 0 n).
Proof.
  intros Hb Hi. symmetry. apply NoDup_Permutation_bis.
  - apply seq_NoDup.
  - rewrite map_length, seq_length; auto.
  - (* incl seq map *)
    assert (Hnd : NoDup (map f (seq 0 n))).
    { assert (Hg : forall k, k <= n -> NoDup (map f (seq 0 k))).
      { induction k as [|k IH]; intros Hk; [constructor|].
        rewrite seq_S, map_app; simpl.
        assert (Hk' : k <= n) by lia. specialize (IH Hk').
        clear Hk'. apply (Permutation_NoDup (l := f k :: map f (seq 0 k))).
        - apply Permutation_cons_append.
        - constructor; auto. intro Hin. apply in_map_iff in Hin.
          destruct Hin as (j & Hj & Hin). apply in_seq in Hin.
          apply Hi in Hj; lia. }
      apply Hg; lia. }
    assert (Hincl : incl (map f (seq 0 n)) (seq 0 n)).
    { intros x Hx. apply in_map_iff in Hx. destruct Hx as (j & <- & Hj).
      apply in_seq in Hj. apply in_seq. split; [lia|]. simpl. apply Hb; lia. }
    apply NoDup_length_incl; auto. rewrite map_length, seq_length; auto.
Qed.

Lemma nth_firstn_lt {A} (l : list A) k i d : i < k -> nth i (firstn k l) d = nth i l d.
Proof.
  revert k i; induction l as [|a l IH]; intros [|k] [|i] H; simpl; auto; try lia.
  apply IH; lia.
Qed.
