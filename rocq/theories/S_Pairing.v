(** Specification vocabulary for collision pairing. *)
From Verif Require Import Base M_Pairing.
From Coq Require Import QArith.
Local Open Scope nat_scope.

(** the live slots of a bucket *)
Definition live (dead : list bool) (start stop : nat) : list nat :=
  filter (fun i => negb (nth i dead true)) (seq start (stop - start)).
(** both ends of all pairs *)
Definition ends (ps : list pair) : list nat := flat_map (fun p => [p_1 p; p_2 p]) ps.
Definition qsum (l : list Q) : Q := fold_right Qplus 0%Q l.
Definition has_end (a : nat) (p : pair) : bool := (p_1 p =? a) || (p_2 p =? a).
