(** Model of the question whether a stage will do anything (src/lambdapic/simulation/simulation.py:1482-1509,
    SimulationCallbacks.non_empty_stages and has_triggered_callbacks), over the callbacks of M_RunLoop. *)
From Coq Require Import String QArith.
From Verif Require Import Base M_RunLoop.
Local Open Scope list_scope.

(** simulation.py:1506-1509; intervals are taken to be valid (an interval of 0 raises ZeroDivisionError in Python) *)
Definition has_triggered {P} (dt : Q) (t : table P) (stage : string) (s : sim P) : bool :=
  existsb (fun cb => triggered dt s (interval_of cb)) (t stage).
(** simulation.py:1491, in the order of STAGES (simulation.py:1452) *)
Definition non_empty_stages {P} (t : table P) : list string := filter (fun s => match t s with [] => false | _ => true end) STAGES.
