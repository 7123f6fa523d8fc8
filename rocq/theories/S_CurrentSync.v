(** Vocabulary for the synchronisation theorems. *)
From Verif Require Import Base M_FieldSync S_FieldSync M_CurrentSync.

(** a callback leaves nothing in flight: its last action is not a bare start *)
Definition finishes (cs : list call) : Prop := last cs Wait <> Start.
Definition all_finish {V} (es : list (event (V := V))) : Prop :=
  forall cs, In (Calls cs) es -> finishes cs.
(** everything deposited in the step, per cell *)
Definition deposited_sum {V} (zero : V) (plus : V -> V -> V) (es : list (event (V := V))) : addr -> V :=
  fun a => total zero plus (flat_map (fun e => match e with Deposits d => [d a] | Calls _ => [] end) es).
(** all callbacks of a step leave nothing in flight *)
Definition turns_finish {V} (ts : list (turn (V := V))) : Prop :=
  Forall (fun t => finishes (inner t) /\ finishes (earlier t) /\ finishes (later t)) ts.
(** subtraction undoes addition *)
Definition undoes {V} (plus minus : V -> V -> V) : Prop := forall x y, minus (plus x y) x = y.
