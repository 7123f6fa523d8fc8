(** Vocabulary for C105 and C106: timer statistics. *)
From Verif Require Import Base M_Timer.
From Coq Require Import String Ascii QArith.
Local Open Scope list_scope.
Local Open Scope Z_scope.
Local Open Scope string_scope.

Fixpoint chars (s : string) : list ascii := match s with EmptyString => [] | String c t => c :: chars t end.
(** A name of a timer that cannot be mistaken: not empty, without the separator of the log and line ends, and without
    the word between the name and the time. *)
Definition plain (n : string) : Prop :=
  n <> "" /\ (forall c, In c (chars n) -> c <> "|"%char /\ c <> "010"%char /\ c <> "013"%char) /\ ~ (exists a b, n = a ++ " took " ++ b).
(** A timer as the simulation itself uses it. *)
Definition ordinary (t : timing) : Prop := 0 <= t_rank t /\ (0 <= t_time t)%Q /\ t_unit t = Ms /\ exists n, t_name t = Some n /\ plain n.

Definition named (c : string) (t : timing) : bool := match t_name t with Some n => n =? c | None => false end.
Definition sum (l : list Q) : Q := fold_right Qplus 0%Q l.
(** What was measured under the name c. *)
Definition measured (c : string) (ts : list timing) : Q := sum (map t_time (filter (named c) ts)).
Definition events (c : string) (ts : list timing) : Z := Z.of_nat (List.length (filter (named c) ts)).
(** A simulation with a log file and timers that starts with the world w, and its runs. *)
Definition log_of (f stamp : string) (w : world) (runs : list (list timing)) : world :=
  fold_left (fun w ts => run_timers stamp ts w) runs (construct (mkCfg (Some f) true true) w).
(** As [log_of], for a simulation that is told not to truncate the log file. *)
Definition appended_to (f stamp : string) (w : world) (runs : list (list timing)) : world :=
  fold_left (fun w ts => run_timers stamp ts w) runs (construct (mkCfg (Some f) false true) w).
(** The timers worth reporting: above 0.1. *)
Definition slow (t : timing) : bool := negb (Qle_bool (t_time t) (1 # 10)).
(** For the concrete cases. *)
Definition ms (n : string) (x : Q) : timing := mkTiming 0 (Some n) Ms x.
Definition empty_disk : world := mkWorld (fun _ => None) (mkCfg None true false).
