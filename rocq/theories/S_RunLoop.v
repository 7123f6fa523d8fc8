(** Specification vocabulary for the run loop. *)
From Verif Require Import Base M_Checkpoint S_Checkpoint M_RunLoop.
From Coq Require Import QArith String.
Local Open Scope string_scope.
Local Open Scope list_scope.
Local Open Scope Z_scope.

(** the stages executed exactly once per step *)
Definition step_stage (s : string) : Prop :=
  In s ["start"; "maxwell_1"; "qed_create_particles"; "_laser"; "maxwell_2"; "end"].

(** a, a+1, ..., a+k-1 *)
Definition zrange (a : Z) (k : nat) : list Z := map (fun i => a + Z.of_nat i) (seq 0 k).

(** step and time agree, as in a fresh simulation *)
Definition clock_ok {P} (c : config P) (w : world P) : Prop :=
  time (w_sim w) = Qred (inject_Z (itime (w_sim w)) * dt c).

(** the steps at which an interval asks for a call *)
Definition due_int (n j : Z) : bool := j mod n =? 0.
(** the time j*dt falls in the first dt of a period of length x: some period start m*x lies in (j*dt - dt, j*dt] *)
Definition due_float (x d : Q) (j : Z) : Prop :=
  exists m : Z, (inject_Z m * x <= inject_Z j * d /\ inject_Z j * d < inject_Z m * x + d)%Q.

(** no callback registered on a stage *)
Definition no_callback {P} (s : string) (cbs : list (callback P)) : Prop :=
  forall cb, In cb cbs -> stage_of cb <> s.
Definition unique_ids {P} (cbs : list (callback P)) : Prop := NoDup (map cb_id cbs).

(** executions of callback [id] recorded in a log *)
Definition calls_of (id : nat) (l : list event) : list event := filter (fun e => (ev_cb e =? id)%nat) l.

(** no signal is ever delivered; no stop callback *)
Definition no_signal : Z -> bool := fun _ => false.
Definition never {P} : sim P -> bool := fun _ => false.

(** two runs end alike: same simulation state, and the same callback calls after the given logs *)
Definition ends_alike {P} (o1 : outcome (P := P)) (l1 : list event) (o2 : outcome (P := P)) (l2 : list event) : Prop :=
  match o1, o2 with
  | Finished a, Finished b => w_sim a = w_sim b /\ exists l, w_log a = l1 ++ l /\ w_log b = l2 ++ l
  | Raised e, Raised e' => e = e'
  | _, _ => False
  end.

(** the checkpoint directory holds no checkpoint newer than step [k] *)
Definition disk_upto {A} (k : Z) (d : disk A) : Prop :=
  exists sts, holds_checkpoints sts d /\ NoDup sts /\ Forall six_digits sts /\ (forall s, In s sts -> s <= k).

Definition is_restart {P} (cb : callback P) : bool := match cb_action cb with Restart _ => true | _ => false end.
(** a callback that leaves the simulation as it is (output only) *)
Definition harmless {P} (cb : callback P) : Prop :=
  match cb_action cb with User f => forall s, f s = rest s | Restart _ => False end.

(** the interval of [cb] asks for a call at step j of a run with time step d *)
Definition due {P} (d : Q) (j : Z) (cb : callback P) : Prop :=
  match interval_of cb with
  | IInt n => j mod n = 0
  | IFloat x => (0 < x)%Q -> due_float x d j
  | _ => True
  end.
(** stages executed once per enabled species *)
Definition species_stage (s : string) : Prop := In s ("current_deposition" :: INNER_STAGES).
(** enabling of species does not change during the run *)
Definition fixed_species {P} (c : config P) (en : nat -> bool) : Prop := forall p i, enabled c p i = en i.
