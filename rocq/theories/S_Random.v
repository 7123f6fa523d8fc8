(** Vocabulary for random numbers (C137, C138). *)
From Verif Require Import Base M_Random.
Local Open Scope list_scope.
Local Open Scope nat_scope.

(** The runs of the interpreter a history goes through after its first. *)
Definition later_runs (es : list event) : list nat := flat_map (fun e => match e with Resume run => [run] | _ => [] end) es.
(** No use of the QED kernels. *)
Definition no_qed (es : list event) : Prop := forall counts, ~ In (Qed counts) es.
(** No resumption. *)
Definition uninterrupted (es : list event) : Prop := later_runs es = [].
(** The stream a value was drawn from. *)
Definition stream_of (u : use) : source * list nat := fst u.
