(** Model of the random generators of a run (simulation/simulation.py:703-716, 393, 620-636; core/patch/patch.py:864-907;
    core/patch/cpu.py:21-60; core/collision/collision.py:80-98, 139-151, 185-206; callback/utils.py:769, 810, 950-961;
    core/qed/optical_depth.py:60-80; simulation/simulation.py:827-855, 1083-1087; callback/restart.py:129-161).
    A generator of numpy is a seed sequence (entropy and spawn key), the number of children it has spawned and the number of
    values drawn from it; pickling (scatter, checkpoints) keeps all of them.  What a generator returns is a function of
    entropy, spawn key and position, left open.  How many values a loop draws (acceptance-rejection, particles in a cell) is
    arbitrary and part of the history. *)
From Verif Require Import Base.
Local Open Scope list_scope.
Local Open Scope nat_scope.

(** Where the entropy comes from: the seed given by the user, or the operating system, asked anew by each consumer: run, process,
    and 0 for [np.random.default_rng()] (simulation.py:707), t + 1 for the generator numba keeps for its thread t. *)
Inductive source := Seed (s : nat) | System (run rank consumer : nat).

(** numpy.random.Generator *)
Record gen := mkGen { g_source : source; g_key : list nat; g_children : nat; g_drawn : nat }.
Definition default_rng (e : source) : gen := mkGen e [] 0 0.
(** [Generator.spawn(n)]: the keys of the children end in the next n numbers of the parent *)
Definition spawn (g : gen) (n : nat) : list gen * gen :=
  (map (fun i => mkGen (g_source g) (g_key g ++ [i]) 0 0) (seq (g_children g) n),
   mkGen (g_source g) (g_key g) (g_children g + n) (g_drawn g)).

(** One value drawn: entropy, key and position in the stream. *)
Definition use := (source * list nat * nat)%type.
Definition draw (g : gen) (n : nat) : list use * gen :=
  (map (fun j => (g_source g, g_key g, j)) (seq (g_drawn g) n), mkGen (g_source g) (g_key g) (g_children g) (g_drawn g + n)).
(** A parallel loop over patches (or threads): each draws from its own generator. *)
Fixpoint draw_each (gs : list gen) (counts : list nat) : list use * list gen :=
  match gs, counts with
  | g :: gs', n :: counts' =>
      let (u, g') := draw g n in let (us, gs'') := draw_each gs' counts' in (u ++ us, g' :: gs'')
  | _, _ => ([], gs)
  end.
(** The loop over species around it: the generators go on where they were (patch.py:865-904), as those of the collisions do
    over the pairs and steps (collision.py:185-206). *)
Fixpoint draw_rounds (gs : list gen) (rounds : list (list nat)) : list use * list gen :=
  match rounds with
  | [] => ([], gs)
  | counts :: rest => let (u, gs') := draw_each gs counts in let (us, gs'') := draw_rounds gs' rest in (u ++ us, gs'')
  end.

(** A process: [sim.rand_gen], the patches it holds, [collision.gen_list] if there is a collision module, and the generators of
    the threads of numba, used by [random.rand()] in the QED kernels. *)
Record proc := mkProc { p_gen : gen; p_patches : nat; p_coll : option (list gen); p_threads : list gen }.
(** simulation.py:703-716 (_init_random_generator): with a seed, process 0 spawns one generator per process and scatters them *)
Definition rank_gen (seed : option nat) (run size rank : nat) : option gen :=
  match seed with
  | None => Some (default_rng (System run rank 0))
  | Some s => nth_error (fst (spawn (default_rng (Seed s)) size)) rank
  end.
Definition start (seed : option nat) (run size rank threads npatches : nat) : option proc :=
  match rank_gen seed run size rank with
  | Some g => Some (mkProc g npatches None (map (fun t => default_rng (System run rank (S t))) (seq 0 threads)))
  | None => None
  end.

(** What a process does with random numbers. *)
Inductive event :=
| Fill (rounds : list (list nat))          (** initialize: patch.py:864-904, one round per species with a density *)
| NewPatches (rounds : list (list nat))    (** MovingWindow: callback/utils.py:769, 810, generators spawned per species *)
| Temperature (count : nat)                (** SetTemperature: callback/utils.py:952-961, one generator for all patches in turn *)
| AddCollisions                            (** simulation.py:620-636, collision.py:98 *)
| Collide (rounds : list (list nat))       (** collision.py:185-206, one round per enabled pair *)
| Rebalance (npatches : nat)               (** simulation.py:1085-1087, 851-853: other patches, generators spawned again *)
| Resume (run : nat)                       (** a checkpoint is written and loaded in another run of the interpreter:
                                               collision.py:148-151 spawns again, numba's threads start anew *)
| Qed (counts : list nat).                 (** optical_depth.py:71-76, 120-125: [random.rand()] in each thread *)

(** collision.py:98 *)
Definition renew (p : proc) : proc := let (gs, g) := spawn (p_gen p) (p_patches p) in mkProc g (p_patches p) (Some gs) (p_threads p).
(** the generator of the same thread in another run of the interpreter *)
Definition restarted (run : nat) (g : gen) : gen :=
  match g_source g with System _ rank t => default_rng (System run rank t) | Seed s => g end.
Fixpoint window_rounds (g : gen) (rounds : list (list nat)) : list use * gen :=
  match rounds with
  | [] => ([], g)
  | counts :: rest =>
      let (gs, g') := spawn g (length counts) in
      let (us, g'') := window_rounds g' rest in (fst (draw_each gs counts) ++ us, g'')
  end.
Definition happen (p : proc) (e : event) : list use * proc :=
  match e with
  | Fill rounds => let (gs, g) := spawn (p_gen p) (p_patches p) in
                   (fst (draw_rounds gs rounds), mkProc g (p_patches p) (p_coll p) (p_threads p))
  | NewPatches rounds => let (us, g) := window_rounds (p_gen p) rounds in (us, mkProc g (p_patches p) (p_coll p) (p_threads p))
  | Temperature n => let (gs, g) := spawn (p_gen p) 1 in (fst (draw_each gs [n]), mkProc g (p_patches p) (p_coll p) (p_threads p))
  | AddCollisions => ([], renew p)
  | Collide rounds => match p_coll p with
                      | None => ([], p)
                      | Some gs => let (us, gs') := draw_rounds gs rounds in (us, mkProc (p_gen p) (p_patches p) (Some gs') (p_threads p))
                      end
  | Rebalance n => let p' := mkProc (p_gen p) n (p_coll p) (p_threads p) in ([], match p_coll p with None => p' | Some _ => renew p' end)
  | Resume run => let p' := mkProc (p_gen p) (p_patches p) (p_coll p) (map (restarted run) (p_threads p)) in
                  ([], match p_coll p with None => p' | Some _ => renew p' end)
  | Qed counts => let (us, ts) := draw_each (p_threads p) counts in (us, mkProc (p_gen p) (p_patches p) (p_coll p) ts)
  end.
Fixpoint happenings (p : proc) (es : list event) : list use * proc :=
  match es with
  | [] => ([], p)
  | e :: rest => let (us, p') := happen p e in let (us', p'') := happenings p' rest in (us ++ us', p'')
  end.
(** All values drawn by process [rank] of a run, in order. *)
Definition drawn_by (seed : option nat) (run size threads : nat) (rank npatches : nat) (es : list event) : list use :=
  match start seed run size rank threads npatches with Some p => fst (happenings p es) | None => [] end.
(** All values drawn in a run: one history per process. *)
Definition drawn_in (seed : option nat) (run threads : nat) (hist : list (nat * list event)) : list use :=
  flat_map (fun rh => drawn_by seed run (length hist) threads (fst rh) (fst (snd rh)) (snd (snd rh))) (combine (seq 0 (length hist)) hist).
