(** Model of the collective calls of a run, process by process (src/lambdapic/simulation/simulation.py:858-1183,
    core/mpi/load_balancer.py:54-269, callback/callback.py:80-141, callback/restart.py:88-107).
    All collective calls use one communicator ([mpi.comm]); point-to-point messages are on other communicators or are
    matched by tag and are the subject of other files.  A process is a program that issues collective calls and goes on
    with the values contributed by all processes. What a process sees of its own patches (its loads, which callbacks are
    due, signals, the answer of the stop callback) is an arbitrary function of the step. Exceptions are not modelled. *)
From Verif Require Import Base.
From Coq Require Import QArith.
Local Open Scope list_scope.

Inductive op := Barrier | Allgather | Gather | Scatter | Bcast.
(** [Coll o v k]: call [o] contributing [v], continue with the contributions of all processes in rank order. Values that
    no later collective call depends on are left out (0). *)
Inductive prog := Done | Coll (o : op) (v : Q) (k : list Q -> prog).
Definition call_ (o : op) (k : prog) : prog := Coll o 0%Q (fun _ => k).

(** simulation.py: [current_synced], [_current_sync_handle is not None]; load_balancer.py:49 [threshold] *)
Record st := mkSt { synced : bool; pending : bool; threshold : Q }.

(** what the body of a callback may call: collectives (callback/hdf5.py, utils.py, restart.py) and
    Simulation.sync_currents / sync_currents_start / sync_currents_wait *)
Inductive call := CColl (o : op) | CSync | CStart | CWait.
Inductive stage := Init | Start | Maxwell1 | Inner (n ispec : nat) | CurrentDeposition (ispec : nat)
| QedCreate | Laser | Maxwell2 | End | Final.

(** One process. [due it s]: the bodies of the callbacks registered on stage s whose interval asks for a call at step it,
    in order; [enabled it]: the indices of the enabled species; [loads it], [loads_after it]: local_loads at the check
    of step it, and after the patches of that step have been exchanged; [signal it]: a dump signal has been delivered to
    this process when step it ends (and a RestartDump is registered); [stop it]: what stop_callback returns. *)
Record view := mkView {
  due : nat -> stage -> list (list call);
  enabled : nat -> list nat;
  loads : nat -> list Q; loads_after : nat -> list Q;
  signal : nat -> bool; stop : nat -> bool }.

Section Process.
Variable size : nat.
(** load_balancer.py:49-52 *)
Variables (init_threshold dec_factor inc_factor : Q).

(** simulation.py:1155-1175 *)
Definition sync_start (s : st) (k : st -> prog) : prog :=
  if synced s || pending s then k s
  else call_ Barrier (k (if size =? 1 then mkSt true false (threshold s) else mkSt (synced s) true (threshold s))).
(** simulation.py:1177-1187 *)
Definition sync_wait (s : st) (k : st -> prog) : prog :=
  if pending s then k (mkSt true false (threshold s)) else k s.
Definition do_call (c : call) (s : st) (k : st -> prog) : prog :=
  match c with
  | CColl o => call_ o (k s)
  | CSync => if synced s then k s else sync_start s (fun s => sync_wait s k)
  | CStart => sync_start s k
  | CWait => sync_wait s k
  end.
Fixpoint do_calls (cs : list call) (s : st) (k : st -> prog) : prog :=
  match cs with [] => k s | c :: cs => do_call c s (fun s => do_calls cs s k) end.
(** callback.py:80-101, 117-138: the body, then a barrier; simulation.py:1479-1480 *)
Fixpoint run_stage (bodies : list (list call)) (s : st) (k : st -> prog) : prog :=
  match bodies with [] => k s | b :: bs => do_calls (b ++ [CColl Barrier]) s (fun s => run_stage bs s k) end.

Definition qsum (l : list Q) : Q := fold_right Qplus 0%Q l.
Definition qmax (l : list Q) : Q := match l with [] => 0%Q | a :: l => fold_left (fun m x => if Qle_bool m x then x else m) l a end.
Definition qmin (l : list Q) : Q := match l with [] => 0%Q | a :: l => fold_left (fun m x => if Qle_bool x m then x else m) l a end.
Definition qmean (l : list Q) : Q := (qsum l / inject_Z (Z.of_nat (length l)))%Q.
(** load_balancer.py:258-269 *)
Definition unbalanced (thr : Q) (totals : list Q) : bool :=
  if Qeq_bool (qmean totals) 0 then false
  else negb (Qle_bool ((qmax totals - qmin totals) / qmean totals) thr).
(** load_balancer.py:247-269 *)
Definition should_rebalance (ld : list Q) (s : st) (k : bool -> prog) : prog :=
  match ld with
  | [] => k false
  | _ => Coll Allgather (qsum ld) (fun totals => k (unbalanced (threshold s) totals))
  end.
Definition set_threshold (s : st) (t : Q) : st := mkSt (synced s) (pending s) t.
(** load_balancer.py:54-79: _gather_loads (98-99), _compute_distribution (119-121), scatter and bcast (63-64),
    _exchange (191), then the check that adapts the threshold *)
Definition rebalance (ld' : list Q) (s : st) (k : st -> prog) : prog :=
  call_ Gather (call_ Gather (call_ Gather (call_ Scatter (call_ Bcast (call_ Allgather
    (should_rebalance ld' s (fun b =>
       k (set_threshold s (if b then threshold s * inc_factor
                           else if negb (Qle_bool (threshold s) init_threshold) then threshold s * dec_factor
                           else threshold s)%Q)))))))).
(** simulation.py:1082-1088 *)
Definition balance (v : view) (it : nat) (s : st) (k : st -> prog) : prog :=
  if 1 <? size then should_rebalance (loads v it) s (fun b => if b then rebalance (loads_after v it) s k else k s)
  else k s.

Definition unsync (s : st) : st := mkSt false (pending s) (threshold s).
(** simulation.py:984-1041: the stages inside the loop over the species; with the fused pusher the inner stages have
    no callbacks *)
Fixpoint species_loop (v : view) (it : nat) (is : list nat) (s : st) (k : st -> prog) : prog :=
  match is with
  | [] => k s
  | i :: is =>
      run_stage (due v it (Inner 1 i)) s (fun s => run_stage (due v it (Inner 2 i)) s (fun s =>
      run_stage (due v it (Inner 3 i)) s (fun s => run_stage (due v it (Inner 4 i)) s (fun s =>
      run_stage (due v it (Inner 5 i)) s (fun s =>
      run_stage (due v it (CurrentDeposition i)) (unsync s) (fun s => species_loop v it is s k))))))
  end.
(** simulation.py:937-1135 *)
Definition step (v : view) (it : nat) (s : st) (k : st -> prog) : prog :=
  run_stage (due v it Start) s (fun s =>
  run_stage (due v it Maxwell1) s (fun s =>
  species_loop v it (enabled v it) (unsync s) (fun s =>
  sync_start s (fun s => sync_wait s (fun s =>
  balance v it s (fun s =>
  run_stage (due v it QedCreate) s (fun s =>
  run_stage (due v it Laser) s (fun s =>
  run_stage (due v it Maxwell2) s (fun s =>
  run_stage (due v it End) s (fun s =>
  if signal v it then call_ Barrier (call_ Barrier (call_ Barrier Done))
  else if stop v it then Done
  else k s)))))))))).
Fixpoint steps (v : view) (n it : nat) (s : st) (k : st -> prog) : prog :=
  match n with O => k s | S n => step v it s (fun s => steps v n (S it) s k) end.
(** simulation.py:858-1141: a call of run() that starts at step [it] and makes [n] steps *)
Definition run (v : view) (n it : nat) (s : st) : prog :=
  run_stage (due v it Init) s (fun s =>
  call_ Barrier (steps v n it s (fun s =>
  call_ Barrier (run_stage (due v (it + n) Final) s (fun _ => Done))))).
End Process.
