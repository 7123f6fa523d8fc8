(** The recorded number of particles against the particles themselves. *)
From Verif Require Import Base M_PartSync S_PartSync P_PartSync M_Weight.
From Coq Require Import QArith Permutation Qfield.
Local Open Scope list_scope.
Local Open Scope nat_scope.

Section W.
Variables R Geo : Type.
Variable nb : nat.
Variable opp : nat -> nat.
Variable classify : Geo -> R -> option nat.
Variable outside : Geo -> R -> bool.
Variable geo : nat -> Geo.
Variable nbr : nat -> nat -> option nat.
Variable fresh : nat -> nat -> R.

Lemma alive_count (l : list (slot R)) : length (alive l) = length l - countb (dead R) l.
Proof.
  unfold alive, countb. rewrite map_length. induction l as [|s l IH]; auto. cbn [filter length].
  assert (length (filter (dead R) l) <= length l) by (clear; induction l as [|a l IH]; cbn; auto; destruct (dead R a); cbn; lia).
  destruct (dead R s); cbn [negb length]; lia.
Qed.
Lemma recorded_is st q : sides_ok nb classify outside -> nbr_symmetric (length st) nb opp nbr -> q < length st ->
  recorded R Geo nb opp classify geo nbr st q = length (alive (nth q st [])) + length (arrivals nb opp classify geo nbr st q).
Proof using fresh.
  intros Sd Sy Hq. unfold recorded. rewrite alive_count. f_equal. symmetry.
  exact (arr_length nb opp classify geo nbr fresh st Sy q Hq).
Qed.
End W.

Lemma fold_sum {A} (f : A -> Q) l : forall a, (fold_left (fun a c => a + f c) l a == a + fold_left (fun a c => a + f c) l 0)%Q.
Proof.
  induction l as [|c l IH]; intro a; cbn [fold_left]; [ring|]. rewrite (IH (a + f c)%Q), (IH (0 + f c)%Q). ring.
Qed.
