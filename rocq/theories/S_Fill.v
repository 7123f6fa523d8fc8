(** Vocabulary of C40 and C71. *)
From Verif Require Import Base M_Fill.
From Coq Require Import QArith.
Local Open Scope nat_scope.
Local Open Scope list_scope.

Fixpoint total (l : list Q) : Q := match l with [] => 0%Q | x :: l' => (x + total l')%Q end.
(** the number of particles a cell is asked to have *)
Definition asked (dense : cell -> bool) (ppc : cell -> Z) (c : cell) : nat := if dense c then Z.to_nat (ppc c) else 0.
(** the array is cut into one block per cell, of the length asked for, with every entry as [R] says *)
Definition by_cell (n : cell -> nat) (R : cell -> Q -> Prop) (cs : list cell) (a : list Q) : Prop :=
  exists blocks, a = concat blocks /\ Forall2 (fun c b => length b = n c /\ Forall (R c) b) cs blocks.
(** inside of the cell along axis k *)
Definition in_cell (k : nat) (d : Q) (c : cell) (x : Q) : Prop :=
  (nth k c 0 - d / 2 <= x)%Q /\ (x < nth k c 0 + d / 2)%Q.
(** the real particles of a cell *)
Definition real_particles (density : cell -> Q) (dense : cell -> bool) (ds : list Q) (c : cell) : Q :=
  if dense c then (density c * volume ds)%Q else 0%Q.
(** where there are particles there is at least one per cell *)
Definition populated (dense : cell -> bool) (ppc : cell -> Z) (axes : list (list Q)) : Prop :=
  forall c, In c (cells axes) -> dense c = true -> (1 <= ppc c)%Z.
(** the weight of each of the particles of a cell *)
Definition weight (density : cell -> Q) (ppc : cell -> Z) (ds : list Q) (c : cell) (v : Q) : Prop :=
  (v == density c * volume ds / inject_Z (ppc c))%Q.
