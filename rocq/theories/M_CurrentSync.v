(** The synchronisation of currents within a step and the per-species density output:
    simulation/simulation.py:978-1043, 1080, 1143-1188 (reset, depositions, callbacks, sync_currents,
    sync_currents_start, sync_currents_wait), core/current/deposition.py:114-122 (reset),
    callback/hdf5.py:440-530 (SaveSpeciesDensityToHDF5).

    The exchange itself is the one of M_FieldSync.v.  Here it enters as the two lists of (accumulated cell,
    cleared cell): the pairs moved inside the processes and the pairs moved by messages.  All processes are
    one state: every process calls the same functions in the same order (C44 is about that). *)
From Verif Require Import Base M_Layout M_PartSync M_FieldSync.

(** all pairs of an exchange over the neighbour relation [nbr]; with [here] those inside a process, with
    [away] those between processes (the same cells, by Theorem C11) *)
Definition exchange_pairs (Ns : list Z) (tab : list (nat * list (Z * Z * Z))) (nbr : nat -> nat -> option nat) (n : nat) : list (addr * addr) :=
  flat_map (fun i => task_pairs Ns tab nbr (fst i) (snd i)) (iterations n 4).

Section Sync.
Context {V : Type} (zero : V) (plus : V -> V -> V).
Variables (loc rem : list (addr * addr)).
(** mpi.size == 1 *)
Variable single : bool.

Notation mem := (addr -> V).
(** the currents of all patches, [current_synced], [_current_sync_handle]: the values under way with the
    cells they will be added to *)
Record state := State { cur : mem; synced : bool; pending : option (list (addr * V)) }.

(** patch/sync_fields2d.c:75-83, one pair after another *)
Definition exchange_local (l : list (addr * addr)) (m : mem) : mem :=
  fold_left (fun m ds => put (snd ds) zero (put (fst ds) (plus (m (fst ds)) (m (snd ds))) m)) l m.
(** mpi/sync_fields2d.c:397-440: the values are packed and the cells cleared *)
Definition packed (l : list (addr * addr)) (m : mem) : list (addr * V) := map (fun ds => (fst ds, m (snd ds))) l.
Definition cleared (l : list (addr * addr)) (m : mem) : mem := fold_left (fun m ds => put (snd ds) zero m) l m.
(** mpi/sync_fields2d.c:76-102: received values are added *)
Definition deliver (h : list (addr * V)) (m : mem) : mem := fold_left (fun m dv => put (fst dv) (plus (m (fst dv)) (snd dv)) m) h m.

(** simulation.py:1155-1176 *)
Definition sync_start (st : state) : state :=
  if synced st then st
  else match pending st with
       | Some _ => st
       | None =>
           let m1 := exchange_local loc (cur st) in
           if single then State m1 true None
           else State (cleared rem m1) (synced st) (Some (packed rem m1))
       end.
(** simulation.py:1178-1188 *)
Definition sync_wait (st : state) : state :=
  match pending st with
  | None => st
  | Some h => State (deliver h (cur st)) true None
  end.
(** simulation.py:1143-1153 *)
Definition sync_currents (st : state) : state := if synced st then st else sync_wait (sync_start st).

(** What a callback can do with the currents, and one deposition. *)
Inductive call := Sync | Start | Wait.
Definition do_call (st : state) (c : call) : state :=
  match c with Sync => sync_currents st | Start => sync_start st | Wait => sync_wait st end.
Definition callback (st : state) (cs : list call) : state := fold_left do_call cs st.
(** simulation.py:986-991, 1035-1038: the deposition adds to the currents, then [current_synced = False] *)
Definition deposit (st : state) (d : mem) : state := State (fun a => plus (cur st a) (d a)) false (pending st).
(** simulation.py:979-981 *)
Definition reset (st : state) : state := State (fun _ => zero) false (pending st).

Inductive event := Deposits (d : mem) | Calls (cs : list call).
Definition do_event (st : state) (e : event) : state :=
  match e with Deposits d => deposit st d | Calls cs => callback st cs end.
(** simulation.py:978-1080: the currents part of one step up to the point where the fields are advanced *)
Definition before_fields (st : state) (es : list event) : state :=
  sync_wait (sync_start (fold_left do_event es (reset st))).

(** ** callback/hdf5.py:440-484, SaveSpeciesDensityToHDF5._call *)
Variable minus : V -> V -> V.
(** division by the charge of the species *)
Variable per_charge : V -> V.
(** [prev_rho] (a copy of the charge density; the whole memory is copied here, only cells of rho inside the
    patches are used) and the densities written so far *)
Record output := Output { prev_rho : option mem; written : list mem }.
(** hdf5.py:450-484 and 516-560 with the species index [target]; [None] is the TypeError from indexing
    [prev_rho = None] *)
Definition density_call (target ispec : nat) (st : state) (o : output) : option (state * output) :=
  match target with
  | O =>
      match ispec with
      | O => let st' := sync_currents st in
             Some (st', Output (prev_rho o) (written o ++ [fun a => per_charge (cur st' a)]))
      | S _ => Some (st, o)
      end
  | S before =>
      if Nat.eqb ispec before then
        let st' := sync_currents st in Some (st', Output (Some (cur st')) (written o))
      else if Nat.eqb ispec target then
        let st' := sync_currents st in
        match prev_rho o with
        | Some prev => Some (st', Output None (written o ++ [fun a => per_charge (minus (cur st' a) (prev a))]))
        | None => None
        end
      else Some (st, o)
  end.
(** A species in the step: enabled or not, what it deposits, and what other callbacks do: at the stages before
    its deposition, and at stage current_deposition before and after the density output *)
Record turn := Turn { enabled : bool; share : mem; inner : list call; earlier : list call; later : list call }.
(** simulation.py:982-1041 *)
Fixpoint species_loop (target ispec : nat) (ts : list turn) (st : state) (o : output) : option (state * output) :=
  match ts with
  | [] => Some (st, o)
  | t :: ts' =>
      if enabled t then
        match density_call target ispec (callback (deposit (callback st (inner t)) (share t)) (earlier t)) o with
        | Some (st', o') => species_loop target (S ispec) ts' (callback st' (later t)) o'
        | None => None
        end
      else species_loop target (S ispec) ts' st o
  end.
Definition density_step (target : nat) (ts : list turn) (st : state) (o : output) : option (state * output) :=
  species_loop target 0 ts (reset st) o.
End Sync.
Arguments State {V} cur synced pending.
Arguments cur {V} s.
Arguments synced {V} s.
Arguments pending {V} s.
Arguments Deposits {V} d.
Arguments Calls {V} cs.
Arguments Output {V} prev_rho written.
Arguments prev_rho {V} o.
Arguments written {V} o.
Arguments Turn {V} enabled share inner earlier later.
Arguments enabled {V} t.
Arguments share {V} t.
Arguments inner {V} t.
Arguments earlier {V} t.
Arguments later {V} t.
