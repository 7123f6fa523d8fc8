(** Model of the references to particle arrays that the modules of a simulation keep between steps
    (src/lambdapic/simulation/simulation.py:750-855 and 937-1118, core/particles.py:121-192, core/pusher/pusher.py:36-140,
    core/sort/particle_sort.py:91-215, core/collision/collision.py:58-90, core/qed/radiation.py:46-236,
    core/qed/pair_production.py, callback/utils.py:520-840 and 1100-1150).

    Only identities are modelled, not contents: each Particles object holds its arrays (all attributes change together, so
    one identity stands for all of them).  An array has an object identity and a memory address; [ndarray.resize] keeps the
    first and changes the second.  numba typed lists hold addresses, plain Python lists hold objects.  A kernel call is
    recorded as a [use]: which module, patch and species, the identity it reached and the identity now held by the particle
    object.  One process; the number of patches changes only through the load balancer. *)
From Verif Require Import Base.
Local Open Scope list_scope.

(** particles.py: the arrays of one species in one patch, and the [extended] flag (line 68) *)
Record arr := mkArr { a_obj : nat; a_addr : nat; a_ext : bool }.

(** Species and modules that a simulation is built with: number of species, [Electron.photon] of a radiating species,
    [Photon.electron, positron] of a pair producing one, whether there are collisions. *)
Record config := mkCfg { ns : nat; photon_of : nat -> option nat; pair_of : nat -> option (nat * nat); colliding : bool }.

(** Arguments: species, then patch; [part] is patch, then species. *)
Record st := mkSt {
  np : nat; clock : nat;
  part : nat -> nat -> arr;
  r_push : nat -> nat -> nat;                    (** PusherBase.x_list, ... (typed lists) *)
  r_coll : nat -> nat -> nat;                    (** Collision.part_lists (typed lists) *)
  r_rad : nat -> nat -> nat * nat;               (** NonlinearComptonLCFA: emitter and photon arrays (typed lists) *)
  r_pair : nat -> nat -> nat * (nat * nat);      (** NonlinearPairProductionLCFA: photon, electron, positron arrays *)
  r_sort : nat -> nat -> nat;                    (** ParticleSort2D.x_list, ... (plain lists of objects) *)
  b_sort : nat -> nat -> nat;                    (** ParticleSort2D.bucket_bound_min_list, ... *)
  b_coll : nat -> nat -> nat }.                  (** Collision.bucket_bound_min_lists, ... *)

Inductive module := Sorter | Collider | Bounds | FusedPusher | Pusher | Interpolator | Depositor | Radiator | PairMaker.
Record use := mkUse { u_module : module; u_patch : nat; u_spec : nat; u_used : nat; u_live : nat }.

Section Ops.
Variable c : config.
Definition addr (s : st) (p i : nat) : nat := a_addr (part s p i).
Definition ext (s : st) (p i : nat) : bool := a_ext (part s p i).
Definition set_part (s : st) (clock' : nat) (part' : nat -> nat -> arr) : st :=
  mkSt (np s) clock' part' (r_push s) (r_coll s) (r_rad s) (r_pair s) (r_sort s) (b_sort s) (b_coll s).

(** ** operations on particle objects *)
(** A fresh identity for (patch p, species i): [clock] is larger than all identities given out before, and [size] (the
    number of patches times species, or more) are reserved. *)
Definition slot_of (p i : nat) : nat := p * ns c + i.
Definition size (s : st) : nat := S (np s) * S (ns c).
(** ParticlesBase.extend / prune, particles.py:146-192, for the patches and species selected by [which]: arrays resized in
    place, flag set *)
Definition grow (which : nat -> nat -> bool) (s : st) : st :=
  set_part s (clock s + size s)
    (fun p i => if which p i then mkArr (a_obj (part s p i)) (clock s + slot_of p i) true else part s p i).
(** ParticlesBase.initialize, particles.py:121-144: new arrays; the flag is not touched *)
Definition initialize (which : nat -> nat -> bool) (s : st) : st :=
  set_part s (clock s + size s)
    (fun p i => if which p i then mkArr (clock s + slot_of p i) (clock s + slot_of p i) (ext s p i) else part s p i).

(** ** list refreshes *)
Definition rad_live (s : st) (i p : nat) : nat * nat :=
  match photon_of c i with Some ph => (addr s p i, addr s p ph) | None => (0, 0) end.
Definition pair_live (s : st) (i p : nat) : nat * (nat * nat) :=
  match pair_of c i with Some (e, q) => (addr s p i, (addr s p e, addr s p q)) | None => (0, (0, 0)) end.
(** the species whose growth makes NonlinearComptonLCFA / NonlinearPairProductionLCFA of species i refresh *)
Definition rad_ext (s : st) (i p : nat) : bool :=
  match photon_of c i with Some ph => ext s p i || ext s p ph | None => false end.
Definition pair_ext (s : st) (i p : nat) : bool :=
  match pair_of c i with Some (e, q) => ext s p i || ext s p e || ext s p q | None => false end.
(** Simulation.update_lists, simulation.py:781-824, with Collision.update_particle_lists, collision.py:74-78.  The loops
    write each entry at most once, so they are written pointwise. *)
Definition update_lists (s : st) : st :=
  mkSt (np s) (clock s)
    (fun p i => mkArr (a_obj (part s p i)) (addr s p i) false)
    (fun i p => if ext s p i then addr s p i else r_push s i p)
    (fun i p => if ext s p i then addr s p i else r_coll s i p)
    (fun i p => if rad_ext s i p then rad_live s i p else r_rad s i p)
    (fun i p => if pair_ext s i p then pair_live s i p else r_pair s i p)
    (fun i p => if ext s p i then a_obj (part s p i) else r_sort s i p)
    (b_sort s) (b_coll s).
(** ParticleSort2D.generate_particle_lists and generate_field_lists, particle_sort.py:91-116 and 178-194 *)
Definition regenerate_sorters (s : st) : st :=
  mkSt (np s) (clock s + size s) (part s) (r_push s) (r_coll s) (r_rad s) (r_pair s)
    (fun i p => a_obj (part s p i)) (fun i p => clock s + slot_of p i) (b_coll s).
(** Simulation.update_patches, simulation.py:827-855: all lists are generated anew; the sorters come before the
    collisions, whose bucket bounds are those of the sorters (collision.py:88-89) *)
Definition update_patches (s : st) : st :=
  let s1 := regenerate_sorters
    (mkSt (np s) (clock s) (part s)
       (fun i p => addr s p i) (r_coll s) (rad_live s) (pair_live s) (r_sort s) (b_sort s) (b_coll s)) in
  update_lists
    (mkSt (np s1) (clock s1) (part s1) (r_push s1)
       (if colliding c then fun i p => addr s1 p i else r_coll s1)
       (r_rad s1) (r_pair s1) (r_sort s1) (b_sort s1)
       (if colliding c then b_sort s1 else b_coll s1)).
(** RadiationBase._update_particle_lists, radiation.py:181-186, and the same in pair_production.py:213-218 *)
Definition refresh_rad (i : nat) (s : st) : st :=
  mkSt (np s) (clock s) (part s) (r_push s) (r_coll s)
    (fun j p => if (j =? i) && rad_ext s i p then rad_live s i p else r_rad s j p)
    (r_pair s) (r_sort s) (b_sort s) (b_coll s).
Definition refresh_pair (i : nat) (s : st) : st :=
  mkSt (np s) (clock s) (part s) (r_push s) (r_coll s) (r_rad s)
    (fun j p => if (j =? i) && pair_ext s i p then pair_live s i p else r_pair s j p)
    (r_sort s) (b_sort s) (b_coll s).
(** update_particle_lists(ipatch) of the QED modules for the selected patches *)
Definition update_rad (i : nat) (which : nat -> bool) (s : st) : st :=
  mkSt (np s) (clock s) (part s) (r_push s) (r_coll s)
    (fun j p => if (j =? i) && which p then rad_live s i p else r_rad s j p)
    (r_pair s) (r_sort s) (b_sort s) (b_coll s).
Definition update_pair (i : nat) (which : nat -> bool) (s : st) : st :=
  mkSt (np s) (clock s) (part s) (r_push s) (r_coll s) (r_rad s)
    (fun j p => if (j =? i) && which p then pair_live s i p else r_pair s j p)
    (r_sort s) (b_sort s) (b_coll s).
(** ParticleSort2D._update_particle_lists, particle_sort.py:148-176 *)
Definition refresh_sorter (i : nat) (s : st) : st :=
  mkSt (np s) (clock s) (part s) (r_push s) (r_coll s) (r_rad s) (r_pair s)
    (fun j p => if (j =? i) && negb (a_obj (part s p i) =? r_sort s i p) then a_obj (part s p i) else r_sort s j p)
    (b_sort s) (b_coll s).

(** ** kernel calls: the state afterwards and the uses made *)
Definition on_patches (s : st) (f : nat -> list use) : list use := flat_map f (seq 0 (np s)).
Definition uses_push (i : nat) (s : st) : list use :=
  on_patches s (fun p => [mkUse Pusher p i (r_push s i p) (addr s p i)]).
(** kernels given [[p.particles[ispec] for p in patches]] at the call *)
Definition uses_direct (m : module) (i : nat) (s : st) : list use :=
  on_patches s (fun p => [mkUse m p i (addr s p i) (addr s p i)]).
Definition uses_sort (i : nat) (s : st) : list use :=
  on_patches s (fun p => [mkUse Sorter p i (r_sort s i p) (a_obj (part s p i))]).
(** calculate_debye_length goes over all species, collision.py:153-163 *)
Definition uses_collide (s : st) : list use :=
  on_patches s (fun p => flat_map (fun i =>
    [mkUse Collider p i (r_coll s i p) (addr s p i); mkUse Bounds p i (b_coll s i p) (b_sort s i p)]) (seq 0 (ns c))).
Definition uses_rad (i : nat) (s : st) : list use :=
  match photon_of c i with
  | Some ph => on_patches s (fun p => [mkUse Radiator p i (fst (r_rad s i p)) (addr s p i);
                                       mkUse Radiator p ph (snd (r_rad s i p)) (addr s p ph)])
  | None => []
  end.
Definition uses_pair (i : nat) (s : st) : list use :=
  match pair_of c i with
  | Some (e, q) => on_patches s (fun p => [mkUse PairMaker p i (fst (r_pair s i p)) (addr s p i);
                                           mkUse PairMaker p e (fst (snd (r_pair s i p))) (addr s p e);
                                           mkUse PairMaker p q (snd (snd (r_pair s i p))) (addr s p q)])
  | None => []
  end.

Inductive op :=
| Sort (i : nat) | Collide | Fused (i : nat) | PushPos (i : nat) | Interp (i : nat)
| RadEvent (i : nat) | PairEvent (i : nat) | PushMom (i : nat) | Deposit (i : nat)
| CreateRad (i : nat) (g : nat -> bool) | CreatePair (i : nat) (g1 g2 : nat -> bool)
| Exchange (g : nat -> nat -> bool)
| Rebalance (n : nat) (arrays : nat -> nat -> arr)
| UpdateLists
| Load (i : nat) (g : nat -> bool)
| Shift (injected : nat -> nat -> bool) (injects : bool).

Definition exec (o : op) (s : st) : st * list use :=
  match o with
  | Sort i => let s1 := refresh_sorter i s in (s1, uses_sort i s1)
  | Collide => (s, if colliding c then uses_collide s else [])
  | Fused i => (s, uses_direct FusedPusher i s)
  | PushPos i | PushMom i => (s, uses_push i s)
  | Interp i => (s, uses_direct Interpolator i s)
  | Deposit i => (s, uses_direct Depositor i s)
  | RadEvent i => (s, uses_rad i s)
  | PairEvent i => (s, uses_pair i s)
  (** simulation.py:1051-1056: [g p] says that patch p needs more photon slots *)
  | CreateRad i g =>
      match photon_of c i with
      | None => (s, [])
      | Some ph =>
          let s1 := refresh_rad i s in
          let s2 := update_rad i g (grow (fun p j => g p && (j =? ph)) s1) in
          (s2, uses_rad i s1 ++ uses_rad i s2)
      end
  (** simulation.py:1057-1060 *)
  | CreatePair i g1 g2 =>
      match pair_of c i with
      | None => (s, [])
      | Some (e, q) =>
          let s1 := refresh_pair i s in
          let s2 := grow (fun p j => g2 p && (j =? q)) (grow (fun p j => g1 p && (j =? e)) s1) in
          let s3 := update_pair i (fun p => g1 p || g2 p) s2 in
          (s3, uses_pair i s1 ++ uses_pair i s3)
      end
  (** sync_particles of patches and of the MPI manager: patch.py:705-764, mpi_manager.py:118-128 and 221-231 *)
  | Exchange g => (grow g s, [])
  (** LoadBalancer.__call__ puts other patches, with any arrays, into the list; then update_patches *)
  | Rebalance n arrays =>
      (update_patches (mkSt n (clock s) arrays (r_push s) (r_coll s) (r_rad s) (r_pair s) (r_sort s) (b_sort s) (b_coll s)),
       [])
  | UpdateLists => (update_lists s, [])
  (** LoadParticles._load_from_file, callback/utils.py:1101-1150 *)
  | Load i g => (update_lists (grow (fun p j => g p && (j =? i)) s), [])
  (** MovingWindow.__call__ when a shift takes place, callback/utils.py:574-591: [_fill_particles] initializes the selected
      arrays and calls update_lists unless injection is off or no patch is new; the sorters are regenerated *)
  | Shift injected injects =>
      (regenerate_sorters (if injects then update_lists (initialize injected s) else s), [])
  end.

Fixpoint exec_all (os : list op) (s : st) : st * list use :=
  match os with
  | [] => (s, [])
  | o :: os' => let '(s1, u1) := exec o s in let '(s2, u2) := exec_all os' s1 in (s2, u1 ++ u2)
  end.

(** ** one step of run(), simulation.py:937-1118 *)
(** what may change arrays in a callback: loading particles, moving the window *)
Inductive cb := CbLoad (i : nat) (g : nat -> bool) | CbWindow (injected : nat -> nat -> bool) (injects : bool).
Definition cb_op (x : cb) : op := match x with CbLoad i g => Load i g | CbWindow g b => Shift g b end.
Inductive place := AtStart | AtMaxwell1 | AtPushPos1 | AtInterp | AtQed | AtPushMom | AtPushPos2 | AtDeposit
                 | AtCreate | AtLaser | AtMaxwell2 | AtEnd.
(** the choices of one step: which species are enabled in each loop, which pushers are fused, what the callbacks of each
    stage do (per species in the species loop), and which arrays run out of room *)
Record choice := mkChoice {
  en_sort : nat -> bool; en_push : nat -> bool; en_create : nat -> bool; fused : nat -> bool;
  cbs : place -> nat -> list cb;
  g_rad : nat -> nat -> bool; g_ele : nat -> nat -> bool; g_pos : nat -> nat -> bool;
  g_mpi : nat -> nat -> bool; g_local : nat -> nat -> bool;
  rebalance : option (nat * (nat -> nat -> arr)) }.
Definition at_stage (h : choice) (pl : place) (i : nat) : list op := map cb_op (cbs h pl i).
Definition when_on (b : bool) (l : list op) : list op := if b then l else [].
Definition over_species (en : nat -> bool) (f : nat -> list op) : list op :=
  flat_map (fun i => when_on (en i) (f i)) (seq 0 (ns c)).
Definition is_some {A} (o : option A) : bool := match o with Some _ => true | None => false end.
Definition push_ops (h : choice) (i : nat) : list op :=
  (if fused h i then [Fused i]
   else PushPos i :: at_stage h AtPushPos1 i
        ++ Interp i :: at_stage h AtInterp i
        ++ when_on (is_some (photon_of c i)) [RadEvent i]
        ++ when_on (is_some (pair_of c i)) [PairEvent i]
        ++ at_stage h AtQed i
        ++ PushMom i :: at_stage h AtPushMom i
        ++ PushPos i :: at_stage h AtPushPos2 i
        ++ [Deposit i])
  ++ at_stage h AtDeposit i.
Definition create_ops (h : choice) (i : nat) : list op :=
  when_on (is_some (photon_of c i)) [CreateRad i (g_rad h i)]
  ++ when_on (is_some (pair_of c i)) [CreatePair i (g_ele h i) (g_pos h i)].
Definition step_ops (h : choice) : list op :=
  at_stage h AtStart 0 ++ at_stage h AtMaxwell1 0
  ++ over_species (en_sort h) (fun i => [Sort i])
  ++ [Collide]
  ++ over_species (en_push h) (push_ops h)
  ++ over_species (en_create h) (create_ops h)
  ++ [Exchange (g_mpi h); Exchange (g_local h)]
  ++ match rebalance h with Some (n, arrays) => [Rebalance n arrays] | None => [] end
  ++ [UpdateLists]
  ++ at_stage h AtCreate 0 ++ at_stage h AtLaser 0 ++ at_stage h AtMaxwell2 0 ++ at_stage h AtEnd 0.

(** Simulation.initialize: every module generates its lists from the patches, simulation.py:590-776 (the sorters before the
    collisions) *)
Definition start (n : nat) (clock0 : nat) (arrays : nat -> nat -> arr) : st :=
  update_patches (mkSt n clock0 arrays (fun _ _ => 0) (fun _ _ => 0) (fun _ _ => (0, 0)) (fun _ _ => (0, (0, 0)))
                       (fun _ _ => 0) (fun _ _ => 0) (fun _ _ => 0)).
(** a run: callbacks of stage "init", then the steps *)
Definition run (init : list cb) (hs : list choice) (s : st) : st * list use :=
  exec_all (map cb_op init ++ flat_map step_ops hs) s.
End Ops.
