(** Vocabulary for the redistribution of patches. *)
From Verif Require Import Base M_Balance.
Local Open Scope list_scope.

(** an order of the numbers below n *)
Definition order_of (n : nat) (l : list nat) : Prop := Permutation l (seq 0 n).

(** the number of patches that process i held and that are in part j *)
Definition overlap (prev parts : list nat) (i j : nat) : nat :=
  length (filter (fun e => (fst e =? i) && (snd e =? j)) (combine prev parts)).
(** number of patches that stay where they are *)
Definition staying (prev new : list nat) : nat := length (filter (fun e => fst e =? snd e) (combine prev new)).

Section Exchange.
Context {B : Type}.
(** every patch is held by one process only *)
Definition valid_holdings (h : list (list (patch B))) : Prop := NoDup (map idx (concat h)).
(** the new distribution: process r holds exactly the patches assigned to it, unchanged *)
Definition as_assigned (new_rank : nat -> nat) (old new : list (list (patch B))) : Prop :=
  length new = length old /\
  forall r, Permutation (nth r new []) (filter (fun p => new_rank (idx p) =? r) (concat old)).
End Exchange.
