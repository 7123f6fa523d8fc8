(** Vocabulary for the species loop. *)
From Verif Require Import Base M_Pushers.

(** the fused kernel stands for its parts (C24) *)
Definition parts (k : kernel) : list kernel :=
  match k with Fused j => [HalfMove j; Interpolate j; Momentum j; HalfMove j; Deposit j] | _ => [k] end.
(** what one enabled species needs in a step *)
Definition needs (i : nat) (s : spec) : list kernel :=
  if on s then
    [HalfMove i; Interpolate i] ++ (if radiates s || makes_pairs s then [Events i] else []) ++
    (match kind_of s with PhotonP => [] | _ => [Momentum i] end) ++ [HalfMove i; Deposit i]
  else [].
Fixpoint needs_from (i : nat) (l : list spec) : list kernel :=
  match l with [] => [] | s :: l' => needs i s ++ needs_from (S i) l' end.
Definition all_needs (l : list spec) : list kernel := needs_from 0 l.
Definition supported (s : spec) : Prop := kind_of s <> BorisTBMT.
Definition moves (k : kernel) : list nat := match k with HalfMove j => [j] | Fused j => [j; j] | _ => [] end.
Definition deposits (k : kernel) : list nat := match k with Deposit j => [j] | Fused j => [j] | _ => [] end.
