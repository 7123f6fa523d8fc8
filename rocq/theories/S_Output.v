(** Specification vocabulary for outputs. *)
From Verif Require Import Base M_Output.

Section SP.
Context {V : Type} (zero : V).
(** slots of alive particles of one patch *)
Definition alive_slots (p : ppatch V) : list nat :=
  filter (fun s => negb (nth s (pp_dead p) true)) (seq 0 (length (pp_dead p))).
(** all alive particles (rank, patch, slot), in rank, patch, slot order *)
Definition alive_all (ranks : list (list (ppatch V))) : list (nat * nat * nat) :=
  flat_map (fun r => flat_map (fun i =>
      map (fun s => (r, i, s)) (alive_slots (nth i (nth r ranks []) (mkPP [] (fun _ => [])))))
    (seq 0 (length (nth r ranks [])))) (seq 0 (length ranks)).
Definition attr_value (ranks : list (list (ppatch V))) (a : nat) (k : nat * nat * nat) : V :=
  let '(r, i, s) := k in nth s (pp_attr (nth i (nth r ranks []) (mkPP [] (fun _ => []))) a) zero.
End SP.
