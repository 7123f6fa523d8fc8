(** Vocabulary for C107 and C108: progress reports. *)
From Verif Require Import Base.
From Coq Require Import QArith.
Local Open Scope Z_scope.

(** Counts above lo, each at most k above the one before. *)
Fixpoint spaced (lo k : Z) (l : list Z) : Prop := match l with [] => True | r :: l' => lo < r <= lo + k /\ spaced r k l' end.
(** The advertised interval: every tenth of the run, at least every 100 steps. *)
Definition interval (total : Z) : Z := Z.min 100 (Z.max 1 (total / 10)).
