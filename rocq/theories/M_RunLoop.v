(** Model of the simulation loop, callback scheduling and restart
    (src/lambdapic/simulation/simulation.py:858-1210 and 1435-1491, callback/callback.py:11-141,
    callback/restart.py:57-160).  All processes run in lock step and are modelled as one; time is an exact rational
    (in lowest terms). Timers, logging, progress bar and the version check are left out. *)
From Verif Require Import Base M_Checkpoint.
From Coq Require Import QArith Qround String.
Local Open Scope string_scope.
Local Open Scope list_scope.
Local Open Scope Z_scope.

(** simulation.py:170-185 *)
Definition STAGES : list string :=
  ["init"; "start"; "maxwell_1"; "_push_position_1"; "_interpolator"; "_qed"; "_push_momentum"; "_push_position_2";
   "current_deposition"; "qed_create_particles"; "_laser"; "maxwell_2"; "end"; "final"].
Definition DEFAULT_STAGE : string := "end".
(** simulation.py:897-903 *)
Definition INNER_STAGES : list string :=
  ["_push_position_1"; "_interpolator"; "_qed"; "_push_momentum"; "_push_position_2"].

Inductive error := ValueError | TypeError.
Inductive res (A : Type) := Ok (a : A) | Err (e : error).
Arguments Ok {A}. Arguments Err {A}.

(** The module calls of one step, simulation.py:937-1118, named; species are identified by their index. *)
Inductive group := EF | BF.
Inductive op :=
| UpdE | UpdB | GuardStart (g : group) | GuardLocal (g : group) | GuardWait (g : group)
| SortSpecies (i : nat) | Collide | ResetJ
| Fused (i : nat) | PushPos (i : nat) | Interp (i : nat) | RadEvent (i : nat) | PairEvent (i : nat)
| PushMom (i : nat) | Deposit (i : nat)
| CurStart | CreateRad (i : nat) | CreatePair (i : nat) | MpiParticles | LocalParticles | CurWait
| Rebalance | UpdateLists.

(** The simulation as far as the loop is concerned: step counter, time, current species, everything else. *)
Record sim (P : Type) := mkSim { itime : Z; time : Q; ispec : option nat; rest : P }.
Arguments mkSim {P}. Arguments itime {P}. Arguments time {P}. Arguments ispec {P}. Arguments rest {P}.

(** What stays fixed during a run: the effect of each module call, Species.is_enabled, the species' pusher class
    and QED modules, whether collisions are configured, the time step, the constructor's nsteps / sim_time, and which
    checkpoint directories the file system lets us remove. *)
Record config (P : Type) := mkCfg {
  phys : op -> P -> P;
  enabled : P -> nat -> bool;
  nspecies : nat;
  boris : nat -> bool; rad : nat -> bool; pair : nat -> bool;
  has_collision : bool;
  dt : Q;
  cfg_nsteps : option Z; cfg_time : option Q;
  removable : list Z -> bool }.
Arguments mkCfg {P}. Arguments phys {P}. Arguments enabled {P}. Arguments nspecies {P}. Arguments boris {P}.
Arguments rad {P}. Arguments pair {P}. Arguments has_collision {P}. Arguments dt {P}. Arguments cfg_nsteps {P}.
Arguments cfg_time {P}. Arguments removable {P}.

(** ** intervals, callback.py:11-45 *)
Inductive interval (P : Type) := IInt (n : Z) | IFloat (x : Q) | ICall (f : sim P -> bool) | IOther.
Arguments IInt {P}. Arguments IFloat {P}. Arguments ICall {P}. Arguments IOther {P}.
Definition validate {P} (iv : interval P) : option error :=
  match iv with
  | IOther => Some TypeError
  | IFloat x => if Qle_bool x 0 || Qle_bool 1 x then Some ValueError else None
  | IInt n => if n <? 1 then Some ValueError else None
  | ICall _ => None
  end.
(** Python's float [%] (floor) *)
Definition qmod (a b : Q) : Q := (a - inject_Z (Qfloor (a / b)) * b)%Q.
Definition qltb (a b : Q) : bool := negb (Qle_bool b a).
Definition triggered {P} (dt : Q) (s : sim P) (iv : interval P) : bool :=
  match iv with
  | ICall f => f s
  | IInt n => itime s mod n =? 0
  | IFloat x => qltb (qmod (time s) x) dt
  | IOther => true
  end.

(** ** callbacks *)
(** a user callback computes the new [rest] (and whatever it does outside is observed through the log);
    RestartDump with its [keep] *)
Inductive action (P : Type) := User (f : sim P -> P) | Restart (keep : option nat).
Arguments User {P}. Arguments Restart {P}.
(** the [stage] attribute: absent (plain function), None, or a string *)
Inductive attr := NoAttr | AttrNone | Attr (s : string).
Record callback (P : Type) := mkCb { cb_id : nat; cb_attr : attr; cb_interval : interval P; cb_action : action P }.
Arguments mkCb {P}. Arguments cb_id {P}. Arguments cb_attr {P}. Arguments cb_interval {P}. Arguments cb_action {P}.
(** simulation.py:1457-1466; a plain function is wrapped with interval 1 *)
Definition stage_of {P} (cb : callback P) : string :=
  match cb_attr cb with
  | NoAttr | AttrNone => DEFAULT_STAGE
  | Attr s => if (s =? "")%string then DEFAULT_STAGE else s
  end.
Definition interval_of {P} (cb : callback P) : interval P :=
  match cb_attr cb with NoAttr => IInt 1 | _ => cb_interval cb end.
Definition table (P : Type) := string -> list (callback P).
Definition add_cb {P} (t : table P) (cb : callback P) : table P :=
  fun s => if (s =? stage_of cb)%string then t s ++ [cb] else t s.
(** simulation.py:1452-1468 *)
Definition register_one {P} (rt : res (table P)) (cb : callback P) : res (table P) :=
  match rt with
  | Ok t => if existsb (String.eqb (stage_of cb)) STAGES then Ok (add_cb t cb) else Err ValueError
  | Err e => Err e
  end.
Definition register {P} (cbs : list (callback P)) : res (table P) :=
  fold_left register_one cbs (Ok (fun _ => [])).

(** a record of one execution of a callback body *)
Record event := mkEv { ev_step : Z; ev_stage : string; ev_cb : nat }.
Record world (P : Type) := mkWorld { w_sim : sim P; w_disk : disk (sim P); w_log : list event }.
Arguments mkWorld {P}. Arguments w_sim {P}. Arguments w_disk {P}. Arguments w_log {P}.
Definition set_rest {P} (s : sim P) (p : P) : sim P := mkSim (itime s) (time s) (ispec s) p.

Section Run.
Context {P : Type}.
Variable c : config P.
(** RestartDump._call, restart.py:88-107; one shard stands for the shards of all processes *)
Definition dump_sim (keep : option nat) (w : world P) : world P :=
  mkWorld (w_sim w) (dump (removable c) 1 keep (itime (w_sim w)) (fun _ => w_sim w) (w_disk w)) (w_log w).
(** Callback.__call__ / the decorator's wrapper, callback.py:80-101 and 117-138 *)
Definition call_cb (stage : string) (cb : callback P) (w : world P) : res (world P) :=
  match validate (interval_of cb) with
  | Some e => Err e
  | None =>
      if triggered (dt c) (w_sim w) (interval_of cb)
      then let w' := match cb_action cb with
                     | User f => mkWorld (set_rest (w_sim w) (f (w_sim w))) (w_disk w) (w_log w)
                     | Restart keep => dump_sim keep w
                     end in
           Ok (mkWorld (w_sim w') (w_disk w') (w_log w' ++ [mkEv (itime (w_sim w)) stage (cb_id cb)]))
      else Ok w
  end.
Definition bind (r : res (world P)) (f : world P -> res (world P)) : res (world P) :=
  match r with Ok w => f w | Err e => Err e end.
Definition seqr (fs : list (world P -> res (world P))) (w : world P) : res (world P) :=
  fold_left bind fs (Ok w).
(** simulation.py:1479-1480 *)
Definition run_stage (t : table P) (stage : string) (w : world P) : res (world P) :=
  seqr (map (call_cb stage) (t stage)) w.
Definition do_op (o : op) (w : world P) : res (world P) :=
  Ok (mkWorld (set_rest (w_sim w) (phys c o (rest (w_sim w)))) (w_disk w) (w_log w)).
Definition set_ispec (i : option nat) (w : world P) : res (world P) :=
  Ok (mkWorld (mkSim (itime (w_sim w)) (time (w_sim w)) i (rest (w_sim w))) (w_disk w) (w_log w)).
(** [for ispec, s in enumerate(species): if not s.is_enabled(): continue; ...] *)
Definition for_species (f : nat -> world P -> res (world P)) : world P -> res (world P) :=
  seqr (map (fun i w => if enabled c (rest (w_sim w)) i then f i w else Ok w) (seq 0 (nspecies c))).
Definition when (b : bool) (f : world P -> res (world P)) (w : world P) : res (world P) := if b then f w else Ok w.

(** simulation.py:983-1041, one species *)
Definition push_species (t : table P) (fused : nat -> bool) (i : nat) : world P -> res (world P) :=
  seqr [ set_ispec (Some i);
         (fun w => if fused i then do_op (Fused i) w
                   else seqr [ do_op (PushPos i); run_stage t "_push_position_1";
                               do_op (Interp i); run_stage t "_interpolator";
                               when (rad c i) (do_op (RadEvent i));
                               when (pair c i) (do_op (PairEvent i));
                               run_stage t "_qed";
                               do_op (PushMom i); run_stage t "_push_momentum";
                               do_op (PushPos i); run_stage t "_push_position_2";
                               do_op (Deposit i) ] w);
         run_stage t "current_deposition" ].

(** simulation.py:937-1122, the body of one step up to the restart check *)
Definition step (t : table P) (fused : nat -> bool) : world P -> res (world P) :=
  seqr [ run_stage t "start";
         do_op UpdE; do_op (GuardStart EF); do_op (GuardLocal EF); do_op (GuardWait EF);
         do_op UpdB; do_op (GuardStart BF); do_op (GuardLocal BF); do_op (GuardWait BF);
         run_stage t "maxwell_1";
         for_species (fun i => seqr [set_ispec (Some i); do_op (SortSpecies i)]);
         when (has_collision c) (do_op Collide);
         do_op ResetJ;
         for_species (push_species t fused);
         do_op CurStart;
         set_ispec None;
         for_species (fun i => seqr [when (rad c i) (do_op (CreateRad i)); when (pair c i) (do_op (CreatePair i))]);
         do_op MpiParticles; do_op LocalParticles; do_op CurWait; do_op Rebalance; do_op UpdateLists;
         run_stage t "qed_create_particles";
         do_op UpdB;
         run_stage t "_laser";
         do_op (GuardStart BF); do_op (GuardLocal BF); do_op (GuardWait BF);
         do_op UpdE; do_op (GuardStart EF); do_op (GuardLocal EF); do_op (GuardWait EF);
         run_stage t "maxwell_2"; run_stage t "end" ].

(** simulation.py:904-911 *)
Definition nonempty (t : table P) (s : string) : bool := match t s with [] => false | _ => true end.
Definition use_fused (t : table P) (i : nat) : bool :=
  boris c i && negb (rad c i) && negb (pair c i) && negb (existsb (nonempty t) INNER_STAGES).

(** simulation.py:1190-1210; [int(x)] truncates towards zero *)
Definition qtrunc (x : Q) : Z := Z.quot (Qnum x) (Zpos (Qden x)).
Definition handle_nsteps (nsteps : option Z) (sim_time : option Q) (it : Z) : res Z :=
  match nsteps, sim_time with
  | Some _, Some _ => Err ValueError
  | None, None => match cfg_nsteps c, cfg_time c with
                  | Some n, _ => Ok n
                  | None, Some x => Ok (qtrunc (x / dt c))
                  | None, None => Err ValueError
                  end
  | None, Some x => Ok (qtrunc (x / dt c))
  | Some n, None => Ok (n + it)
  end.

(** simulation.py:890-894 *)
Definition restart_cb (cbs : list (callback P)) : option (option nat) :=
  match find (fun cb => match cb_action cb with Restart _ => true | _ => false end) cbs with
  | Some cb => match cb_action cb with Restart k => Some k | _ => None end
  | None => None
  end.

(** simulation.py:1129-1130 *)
Definition advance (s : sim P) : sim P := mkSim (itime s + 1) (Qred (time s + dt c)) (ispec s) (rest s).
Definition advance_w (w : world P) : world P := mkWorld (advance (w_sim w)) (w_disk w) (w_log w).

Inductive outcome := Finished (w : world P) | StoppedByCallback (w : world P) | Dumped (w : world P) | Raised (e : error).

(** [stop] is the stop_callback (a function of the simulation state); [signal k] says that the dump signal has been
    delivered when it is polled at the end of step k. *)
Variable stop : (sim P) -> bool.
Variable signal : Z -> bool.

(** simulation.py:937-1135 *)
Fixpoint steps (k : nat) (t : table P) (fused : nat -> bool) (rcb : option (option nat)) (w : world P) : outcome :=
  match k with
  | O => Finished w
  | S k' =>
      match step t fused w with
      | Err e => Raised e
      | Ok w1 =>
          match (if signal (itime (w_sim w1)) then rcb else None) with
          | Some keep => Dumped (dump_sim keep w1)
          | None => let w2 := advance_w w1 in
                    if stop (w_sim w2) then StoppedByCallback w2 else steps k' t fused rcb w2
          end
      end
  end.

(** simulation.py:877-1141; the choice of fused pushers is a parameter of [run_with] *)
Definition run_with (choose : (table P) -> nat -> bool) (cbs : list (callback P)) (nsteps : option Z) (sim_time : option Q) (w : world P) : outcome :=
  match register cbs with
  | Err e => Raised e
  | Ok t =>
      match run_stage t "init" w with
      | Err e => Raised e
      | Ok w0 =>
          match handle_nsteps nsteps sim_time (itime (w_sim w0)) with
          | Err e => Raised e
          | Ok total =>
              match steps (Z.to_nat (total - itime (w_sim w0))) t (choose t) (restart_cb cbs) w0 with
              | Finished w1 => match run_stage t "final" w1 with Ok w2 => Finished w2 | Err e => Raised e end
              | o => o
              end
          end
      end
  end.
Definition run := run_with use_fused.

(** RestartDump.load, restart.py:129-160: [reload] is what unpickling and update_lists make of the state *)
Variable reload : P -> P.
Definition load_sim (s : sim P) : sim P :=
  mkSim (itime s + 1) (Qred (inject_Z (itime s + 1) * dt c)) (ispec s) (reload (rest s)).
End Run.
