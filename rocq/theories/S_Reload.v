(** Vocabulary for the auto-reloading runner. *)
From Verif Require Import Base M_Reload.
From Coq Require Import String.
Local Open Scope nat_scope.

(** what [python script.py] would run: the script executed by a new interpreter defines one simulation, under the name [x];
    without [add_species] it gets every species there is *)
Definition runs_alone (x : string) (s : script) (p : plan) : Prop :=
  exists i o ob, exec s fresh_interp = (i, true) /\ lookup x (ns i) = Some (VSim o) /\
    (forall y o', lookup y (ns i) = Some (VSim o') -> y = x) /\ nth_error (heap i) o = Some ob /\
    p = mkPlan (o_steps ob) (o_raises ob) (match o_species ob with [] => registry i | l => l end) (callbacks_of (ns i)).
(** at the end of the script its simulation has been given species *)
Definition adds_species (x : string) (s : script) : Prop :=
  forall i o ob, exec s fresh_interp = (i, true) -> lookup x (ns i) = Some (VSim o) -> nth_error (heap i) o = Some ob ->
    o_species ob <> [].
(** the script spells everything out: it keeps to one variable for its simulations, adds its species itself and sets [callbacks] *)
Definition explicit (x : string) (s : script) : Prop :=
  (exists p, runs_alone x s p) /\ adds_species x s /\
  (forall y n r, In (MkSim y n r) s -> y = x) /\
  (exists c, In (SetCallbacks c) s).
(** a complete run as it appears in the log *)
Definition whole_run (p : plan) : list event := Start p 0 :: map Step (seq 0 (p_steps p)) ++ [Finished].
(** a later save has a later modification time *)
Definition newer (P : script -> Prop) (s : script) (before now : nat) : Prop := P s /\ before < now.
