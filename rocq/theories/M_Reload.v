(** Model of the auto-reloading runner (src/lambdapic/cli/auto_reload.py:11-92), of the Python module namespace it keeps
    reloading, of the global species registry (core/species.py:18,112, simulation/simulation.py:559-575) and of as much of
    [Simulation.run] as it depends on (simulation.py:858-1138, core/mpi/utils.py:13-45).
    A script is a list of the assignments that matter; an event of the environment is saving the script under a new
    modification time. Sleeping, logging and Python's byte code cache are left out, and every species is taken to be
    compatible with the dimension. *)
From Verif Require Import Base.
From Coq Require Import String.
Local Open Scope list_scope.
Local Open Scope nat_scope.

(** ** Scripts and the namespace of the module *)
(** what a script line does: construct a Species with some parameters, construct a Simulation with its [nsteps] (whose run
    raises in the given step, if any), [x.add_species(...)], assign [callbacks], raise *)
Inductive stmt :=
| MkSpecies (x : string) (params : nat)
| MkSim (x : string) (steps : nat) (raises_at : option nat)
| AddSpecies (x : string) (names : list string)
| SetCallbacks (cbs : list nat)
| Raise.
Definition script := list stmt.

Inductive value := VSpecies (params : nat) | VSim (o : nat) | VCallbacks (cbs : list nat).
(** a Simulation object: [nsteps], failing step, [species], [itime] *)
Record obj := mkObj { o_steps : nat; o_raises : option nat; o_species : list nat; o_itime : nat }.
Definition namespace := list (string * value).
(** the interpreter: the module's [__dict__], the registry [_ALL_SPECIES], the Simulation objects *)
Record interp := mkInterp { ns : namespace; registry : list nat; heap : list obj }.
Definition fresh_interp : interp := mkInterp [] [] [].

Fixpoint lookup (x : string) (n : namespace) : option value :=
  match n with [] => None | (y, v) :: t => if (x =? y)%string then Some v else lookup x t end.
Definition bind (x : string) (v : value) (n : namespace) : namespace :=
  (x, v) :: filter (fun e => negb (x =? fst e)%string) n.
Fixpoint species_named (n : namespace) (xs : list string) : option (list nat) :=
  match xs with
  | [] => Some []
  | x :: t => match lookup x n, species_named n t with
              | Some (VSpecies p), Some ps => Some (p :: ps)
              | _, _ => None
              end
  end.
Definition set_species (o : obj) (s : list nat) : obj := mkObj (o_steps o) (o_raises o) s (o_itime o).
Definition set_itime (o : obj) (i : nat) : obj := mkObj (o_steps o) (o_raises o) (o_species o) i.

(** one line; [false] = it raised *)
Definition exec1 (c : stmt) (i : interp) : interp * bool :=
  match c with
  | MkSpecies x p => (mkInterp (bind x (VSpecies p) (ns i)) (registry i ++ [p]) (heap i), true)
  | MkSim x n r => (mkInterp (bind x (VSim (List.length (heap i))) (ns i)) (registry i) (heap i ++ [mkObj n r [] 0]), true)
  | AddSpecies x xs =>
      match lookup x (ns i), species_named (ns i) xs with
      | Some (VSim o), Some ps =>
          match nth_error (heap i) o with
          | Some ob => (mkInterp (ns i) (registry i) (upd o (set_species ob (o_species ob ++ ps)) (heap i)), true)
          | None => (i, false)
          end
      | _, _ => (i, false)
      end
  | SetCallbacks c => (mkInterp (bind "callbacks" (VCallbacks c) (ns i)) (registry i) (heap i), true)
  | Raise => (i, false)
  end.
(** executing the script in the module's namespace stops at the first exception; what was bound before stays bound
    (importlib.import_module and importlib.reload keep the dictionary) *)
Fixpoint exec (s : script) (i : interp) : interp * bool :=
  match s with
  | [] => (i, true)
  | c :: t => match exec1 c i with
              | (i', true) => exec t i'
              | (i', false) => (i', false)
              end
  end.

(** [AutoReload.sim], auto_reload.py:25-34: [dir] lists the names in alphabetical order *)
Definition earlier (a b : string) : bool := match String.compare a b with Lt => true | _ => false end.
Definition pick (acc : option (string * nat)) (e : string * value) : option (string * nat) :=
  match snd e with
  | VSim o => match acc with
              | Some (y, _) => if earlier (fst e) y then Some (fst e, o) else acc
              | None => Some (fst e, o)
              end
  | _ => acc
  end.
Definition first_sim (n : namespace) : option nat := option_map snd (fold_left pick n None).
(** [AutoReload.callbacks], auto_reload.py:36-42 *)
Definition callbacks_of (n : namespace) : list nat :=
  match lookup "callbacks" n with Some (VCallbacks c) => c | _ => [] end.

(** ** What can be observed *)
(** the parameters a run works with *)
Record plan := mkPlan { p_steps : nat; p_raises : option nat; p_species : list nat; p_callbacks : list nat }.
Inductive event :=
| Start (p : plan) (itime : nat)   (** a run begins at step counter [itime] *)
| Step (k : nat)                   (** step [k] was made *)
| Finished | Stopped | Failed.

(** ** The runner *)
Inductive pc := Begin | Import | Top | Launch | Stepping (o : nat) | End | Exited | Crashed | Aborted.
Record state := mkState {
  at_ : pc;
  disk : script; mtime : nat;        (** the file *)
  last : nat;                        (** last_modified *)
  modified : bool; finished : bool;
  int : interp;
  log : list event }.
Definition init (s : script) (m : nat) : state := mkState Begin s m 0 false false fresh_interp [].
Record options := mkOpt { exit_on_error : bool; exit_on_finish : bool; several_processes : bool }.

(** check_modification, auto_reload.py:53-59 *)
Definition check (st : state) : state :=
  if last st <? mtime st
  then mkState (at_ st) (disk st) (mtime st) (mtime st) true (finished st) (int st) (log st)
  else st.
Definition goto (p : pc) (st : state) : state :=
  mkState p (disk st) (mtime st) (last st) (modified st) (finished st) (int st) (log st).
Definition say (e : event) (st : state) : state :=
  mkState (at_ st) (disk st) (mtime st) (last st) (modified st) (finished st) (int st) (log st ++ [e]).
Definition set_int (i : interp) (st : state) : state :=
  mkState (at_ st) (disk st) (mtime st) (last st) (modified st) (finished st) i (log st).
Definition set_flags (m f : bool) (st : state) : state :=
  mkState (at_ st) (disk st) (mtime st) (last st) m f (int st) (log st).

(** auto_reload.py:80-86; [in_run]: the exception passed [abort_on_mpi_error] *)
Definition on_exception (op : options) (in_run : bool) (st : state) : state :=
  if in_run && several_processes op then goto Aborted st
  else if exit_on_error op then goto Crashed st
  else goto End (set_flags true (finished st) st).
(** the loop of [run] is over, auto_reload.py:73-76 *)
Definition on_finish (op : options) (st : state) : state :=
  let st := set_flags (modified st) true (say Finished st) in
  if exit_on_finish op then goto Exited st else goto End st.

(** one atomic action of the runner *)
Definition act (op : options) (st : state) : state :=
  match at_ st with
  | Begin =>                                     (* :15-16 *)
      goto Import (mkState (at_ st) (disk st) (mtime st) (mtime st) false false (int st) (log st))
  | Import =>                                    (* :19 *)
      match exec (disk st) (int st) with
      | (i, true) => goto Top (set_int i st)
      | (i, false) => goto Crashed (set_int i st)
      end
  | Top =>                                       (* :65-68 and 44-51 *)
      if modified st then goto Launch (set_flags false false (set_int (fst (exec (disk st) (int st))) st))
      else goto Launch st
  | Launch =>                                    (* :70-72; simulation.py:880-937 *)
      if finished st then goto End st
      else match first_sim (ns (int st)) with
           | None => on_exception op false st
           | Some o =>
               match nth_error (heap (int st)) o with
               | None => on_exception op false st
               | Some ob =>
                   let sp := match o_species ob with [] => registry (int st) | l => l end in
                   let ob' := set_species ob sp in
                   let st1 := set_int (mkInterp (ns (int st)) (registry (int st)) (upd o ob' (heap (int st)))) st in
                   let st2 := say (Start (mkPlan (o_steps ob) (o_raises ob) sp (callbacks_of (ns (int st)))) (o_itime ob)) st1 in
                   if o_itime ob <? o_steps ob then goto (Stepping o) st2 else on_finish op st2
               end
           end
  | Stepping o =>                                (* simulation.py:937-1138 *)
      match nth_error (heap (int st)) o with
      | None => st
      | Some ob =>
          if match o_raises ob with Some k => k =? o_itime ob | None => false end
          then on_exception op true (say Failed st)
          else
            let st1 := say (Step (o_itime ob))
                         (set_int (mkInterp (ns (int st)) (registry (int st))
                                     (upd o (set_itime ob (S (o_itime ob))) (heap (int st)))) st) in
            if last st <? mtime st then goto End (say Stopped (check st1))
            else if S (o_itime ob) <? o_steps ob then goto (Stepping o) st1
            else on_finish op st1
      end
  | End => goto Top (check st)                   (* :88-90 *)
  | Exited | Crashed | Aborted => st
  end.

(** the user saves another version of the script *)
Definition save (s : script) (m : nat) (st : state) : state :=
  mkState (at_ st) s m (last st) (modified st) (finished st) (int st) (log st).

(** every interleaving of the runner and the user; [ok] says which saves are considered *)
Inductive reach (op : options) (ok : script -> nat -> nat -> Prop) : state -> Prop :=
| R_init s m : ok s 0 m -> reach op ok (init s m)
| R_act st : reach op ok st -> reach op ok (act op st)
| R_save st s m : reach op ok st -> ok s (mtime st) m -> reach op ok (save s m st).
Fixpoint acts (op : options) (n : nat) (st : state) : state :=
  match n with 0 => st | S k => acts op k (act op st) end.
