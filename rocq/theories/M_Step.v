(** Model of one whole time step of a two-dimensional simulation with periodic boundaries
    (simulation/simulation.py:937-1118): the functions of the other model files called in the order of the main loop.

    Covered: the two half updates of E and B with their guard exchanges, the sorting of the particles, the reset of the
    currents, push and deposition of every species (staged or fused), the exchange of currents and of particles inside and
    between processes.  Left out: absorbing layers, collisions, QED, lasers, moving window, callbacks, disabled species and
    photons.  The patches of all processes are one state indexed by the global patch number; [rank] tells which process
    holds a patch.  The load balancer moves patches between processes without changing them (C17), so [rank] may be
    different in every step.  The currents under way between [sync_currents_start] and [sync_currents_wait] are not touched
    by the particle exchange in between, so the exchange of currents is written in one piece.
    Arithmetic is exact: positions and momenta are rationals, fields canonical rationals (so that equal values are equal
    terms).  [rsqrt] stands for 1/sqrt. *)
From Coq Require Import QArith Qcanon Permutation.
From Verif Require Import Base M_Layout M_PartSync S_PartSync M_FieldSync M_Maxwell M_Deposit M_Push.
Local Open Scope list_scope.
Local Open Scope Z_scope.

(** particles.py:63-67: the attributes besides the position and is_dead; [b_id] is the identifier *)
Record body := mkBody { b_ux : Q; b_uy : Q; b_uz : Q; b_ig : Q; b_w : Q; b_f : six Q; b_id : Z }.
Notation prt := (M_PartSync.slot (prow body)).
Definition rowof (s : prt) : prow body := M_PartSync.row _ s.
(** charge, mass, and whether the fused pusher is used (simulation.py:896-911) *)
Record species := mkSpecies { sp_q : Q; sp_m : Q; sp_unified : bool }.

(** a domain cut into patches: the grid of patches, cells per patch, guard cells, cell size, time step *)
Record domain2 := mkDomain2 { d_ax : axis; d_ay : axis; d_nx : Z; d_ny : Z; d_ng : Z; d_dx : Q; d_dy : Q; d_dt : Q }.
(** number of patches *)
Definition npatches2 (D : domain2) : nat := Z.to_nat (ax_n (d_ax D) * ax_n (d_ay D)).

(** exact arithmetic on field values *)
Definition qc_arith (eps : Qc) : arith Qc :=
  {| plus_ := Qcplus; minus_ := Qcminus; times_ := Qcmult; over_ := Qcdiv; minus1_ := Qcopp;
     csq := Q2Qc (LIGHT_SPEED * LIGHT_SPEED); eps0 := eps |}.

(** E, B and currents (jx, jy, jz, rho are fields 0..3); for every species, for every patch, the particle slots *)
Record state2 := mkState2 { t_E : memory Qc; t_B : memory Qc; t_J : memory Qc; t_parts : list (list (list prt)) }.

(** the particle arrays as the pusher sees them *)
Definition val (c : option Q) : Q := match c with Some v => v | None => 0%Q end.
Definition isnan (c : option Q) : bool := match c with Some _ => false | None => true end.
Definition load (s : prt) : M_Push.slot :=
  let r := M_PartSync.row _ s in let b := other _ r in
  M_Push.mkSlot {| p_x := val (px _ r); p_y := val (py _ r); p_z := val (pz _ r); p_ux := b_ux b; p_uy := b_uy b; p_uz := b_uz b;
                   p_ig := b_ig b; p_w := b_w b; p_dead := M_PartSync.dead _ s; p_nan := isnan (px _ r) || isnan (py _ r) |} (b_f b).
(** the pusher changes x, y, ux, uy, uz, inv_gamma and the interpolated fields in place; a NaN coordinate stays NaN *)
Definition store (s : prt) (s' : M_Push.slot) : prt :=
  let r := M_PartSync.row _ s in let b := other _ r in let p := l_p s' in
  M_PartSync.mkSlot _
    (mkRow _ (if isnan (px _ r) then None else Some (p_x p)) (if isnan (py _ r) then None else Some (p_y p)) (pz _ r)
      (mkBody (p_ux p) (p_uy p) (p_uz p) (p_ig p) (b_w b) (l_f s') (b_id b)))
    (M_PartSync.dead _ s).

Section Step.
Variable rsqrt : Q -> Q.
Variable eps : Qc.
Variable D : domain2.
Local Notation nx := (d_nx D). Local Notation ny := (d_ny D). Local Notation ng := (d_ng D).
Local Notation A := (qc_arith eps).
Local Notation n := (npatches2 D).
Local Notation NX := (nx + 2 * ng). Local Notation NY := (ny + 2 * ng).

(** patch.py:98-103, fields.py:95-115: x0 = ipatch_x * nx * dx; the arrays include the guard cells *)
Definition grid_of (p : nat) : grid2 :=
  {| g_nx := NX; g_ny := NY; g_dx := d_dx D; g_dy := d_dy D;
     g_x0 := (inject_Z (pnum p mod ax_n (d_ax D) * nx) * d_dx D)%Q; g_y0 := (inject_Z (pnum p / ax_n (d_ax D) * ny) * d_dy D)%Q |}.
(** the arrays of patch p, in C order *)
Definition array_of (m : memory Qc) (f p : nat) : list Q := map (fun o => this (m (Fld f p o))) (zseq (NX * NY)).
Definition fields_of (mE mB : memory Qc) (p : nat) : six (list Q) :=
  mkSix (array_of mE 0 p) (array_of mE 1 p) (array_of mE 2 p) (array_of mB 0 p) (array_of mB 1 p) (array_of mB 2 p).
(** the currents of patch p as the deposition sees them, and back *)
Definition currents_of (m : memory Qc) (p : nat) : arrays :=
  {| a_jx := fun o => this (m (Fld 0 p o)); a_jy := fun o => this (m (Fld 1 p o)); a_jz := fun o => this (m (Fld 2 p o)); a_rho := fun o => this (m (Fld 3 p o)) |}.
Definition put_currents (m : memory Qc) (p : nat) (C : arrays) : memory Qc := fun a =>
  match a with
  | Fld f p' o =>
      if (p' =? p)%nat && (0 <=? o) && (o <? NX * NY)
      then match f with 0%nat => Q2Qc (a_jx C o) | 1%nat => Q2Qc (a_jy C o) | 2%nat => Q2Qc (a_jz C o) | 3%nat => Q2Qc (a_rho C o) | _ => m a end
      else m a
  | _ => m a
  end.
(** cpu2d.c:9-36 reset_current_cpu_2d: the four arrays of every patch are set to zero *)
Definition reset_currents (m : memory Qc) : memory Qc := fold_left (fun m p => put_currents m p reset_current) (seq 0 n) m.

(** simulation.py:988-1038 for one species and one patch: push, then deposit; the fused pusher does both in one pass over
    the strips, adding to the same arrays *)
Definition push_patch (sp : species) (mE mB : memory Qc) (p : nat) (l : list prt) : option (list prt) :=
  match (if sp_unified sp then fused_push_2d else staged_push_2d) rsqrt (grid_of p) (fields_of mE mB p) (sp_q sp) (sp_m sp) (d_dt D) (map load l) with
  | Some l' => Some (map (fun ss => store (fst ss) (snd ss)) (combine l l'))
  | None => None
  end.
Definition deposit_patch (sp : species) (mJ : memory Qc) (p : nat) (l : list prt) : memory Qc :=
  put_currents mJ p ((if sp_unified sp then fused_deposition_2d else current_deposition_cpu_2d) (grid_of p) (d_dt D) (sp_q sp) (currents_of mJ p) (map (fun s => l_p (load s)) l)).
Fixpoint push_patches (sp : species) (mE mB : memory Qc) (mJ : memory Qc) (p : nat) (st : list (list prt)) : option (memory Qc * list (list prt)) :=
  match st with
  | [] => Some (mJ, [])
  | l :: rest =>
      match push_patch sp mE mB p l with
      | None => None
      | Some l' => match push_patches sp mE mB (deposit_patch sp mJ p l') (S p) rest with
                   | Some (mJ', rest') => Some (mJ', l' :: rest')
                   | None => None
                   end
      end
  end.
Fixpoint push_species (sps : list species) (mE mB : memory Qc) (mJ : memory Qc) (pss : list (list (list prt))) : option (memory Qc * list (list (list prt))) :=
  match sps, pss with
  | [], _ => Some (mJ, [])
  | _, [] => Some (mJ, [])
  | sp :: sps', st :: pss' =>
      match push_patches sp mE mB mJ 0 st with
      | None => None
      | Some (mJ1, st') => match push_species sps' mE mB mJ1 pss' with
                           | Some (mJ2, pss'') => Some (mJ2, st' :: pss'')
                           | None => None
                           end
      end
  end.

(** ** the exchanges, for some schedule of threads and messages; [rank] distributes the patches over processes *)
Local Notation nbr := (nbr2 (d_ax D) (d_ay D)).
(** simulation.py:949-954, 957-962 etc.: sync_guard_fields of the three components *)
Definition sync_guards (rank : nat -> nat) (m m' : memory Qc) : Prop := exists sched,
  guard_exchange [nx; ny] ng n 8 opp2 nbr rank (Q2Qc 0) Qcplus 3 (local_guard2 nx ny ng) (mpi_types2 NX NY ng) sched m = Some m'.
(** simulation.py:1041, 1080, 1143-1188 *)
Definition sync_currents2 (rank : nat -> nat) (m m' : memory Qc) : Prop := exists sched1 sched2,
  current_exchange [nx; ny] ng n 8 opp2 nbr rank (Q2Qc 0) Qcplus (local_currents2 nx ny ng) (mpi_currents2 nx ny ng) sched1 sched2 m = Some m'.
(** simulation.py:1066-1077: messages first, then the exchange inside each process, one species *)
Definition geo_of (p : nat) : axgeo * axgeo := geo2 (d_ax D) (d_ay D) nx ny 0 (d_dx D) (d_dy D) p.
Definition sync_particles2 (rank : nat -> nat) (st st'' : list (list prt)) : Prop :=
  let remote := remote_of rank nbr in let local := in_process remote nbr in
  exists fresh st' es sched,
  mpi_exchange (prow body) _ 8 opp2 (cl2 body) (sh2 body) geo_of nbr fresh remote st = Some st' /\
  Permutation es (all_writes (prow body) _ 8 opp2 (cl2 body) geo_of local (extend_all (prow body) 8 opp2 local fresh (outgoing (prow body) _ 8 (cl2 body) geo_of st') st')) /\
  exchange (prow body) _ 8 opp2 (cl2 body) (sh2 body) (out2 body) (clear2 body) false geo_of local fresh st' es sched = Some st''.
(** simulation.py:965-971: the sorters reorder the slots of every patch (C01) *)
Definition sorted2 (st st' : list (list prt)) : Prop := Forall2 (@Permutation _) st st'.

(** simulation.py:946-1108 *)
Definition half : Qc := Q2Qc ((1#2) * d_dt D).
Definition up_E (mB mJ mE : memory Qc) : memory Qc := update_efield2 A nx ny ng (Q2Qc (d_dx D)) (Q2Qc (d_dy D)) n half mB mJ mE.
Definition up_B (mE mB : memory Qc) : memory Qc := update_bfield2 A nx ny ng (Q2Qc (d_dx D)) (Q2Qc (d_dy D)) n half mE mB.
Inductive step2 (sps : list species) (rank : nat -> nat) : state2 -> state2 -> Prop :=
| step2_intro mE mB mJ ps mE1 mB1 ps1 mJ1 ps2 mJ2 ps3 mB2 mE2 :
    sync_guards rank (up_E mB mJ mE) mE1 ->
    sync_guards rank (up_B mE1 mB) mB1 ->
    Forall2 sorted2 ps ps1 ->
    push_species sps mE1 mB1 (reset_currents mJ) ps1 = Some (mJ1, ps2) ->
    sync_currents2 rank mJ1 mJ2 ->
    Forall2 (sync_particles2 rank) ps2 ps3 ->
    sync_guards rank (up_B mE1 mB1) mB2 ->
    sync_guards rank (up_E mB2 mJ2 mE1) mE2 ->
    step2 sps rank (mkState2 mE mB mJ ps) (mkState2 mE2 mB2 mJ2 ps3).
(** simulation.py:937: [k] turns of the loop; the balancer may move patches to other processes in every turn *)
Inductive steps2 (sps : list species) : nat -> state2 -> state2 -> Prop :=
| steps2_0 s : steps2 sps 0 s s
| steps2_S k rank s s1 s2 : step2 sps rank s s1 -> steps2 sps k s1 s2 -> steps2 sps (S k) s s2.
End Step.
