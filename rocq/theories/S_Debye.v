(** Specification vocabulary for the density statistics. *)
From Verif Require Import Base M_Debye.
From Coq Require Import QArith.
Local Open Scope nat_scope.

(** total density of the species of a cell *)
Definition qtot (cs : list (ext * Q)) : Q :=
  fold_right (fun c s => ((if Qlt_le_dec 0 (snd c) then snd c else 0) + s)%Q) 0%Q cs.
Fixpoint repeat_steps {A} (n : nat) (f : A -> A) (a : A) : A :=
  match n with 0 => a | S n' => f (repeat_steps n' f a) end.
