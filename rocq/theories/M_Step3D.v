(** Model of one whole time step of a three-dimensional simulation with periodic boundaries
    (simulation/simulation.py:937-1118): the three-dimensional functions of the other model files called in the order of
    the main loop.  Covered and left out as in M_Step, whose particle records, species and state are used here.  The staged
    pusher does not move particles in three dimensions (pusher.py:101-109, C60); it is part of the model, but statements
    about moving particles are about species pushed by the fused kernel. *)
From Coq Require Import QArith Qcanon Permutation.
From Verif Require Import Base M_Layout M_PartSync S_PartSync M_FieldSync M_Maxwell M_Deposit M_Push M_Step.
Local Open Scope list_scope.
Local Open Scope Z_scope.

(** a domain cut into patches: the grid of patches, cells per patch, guard cells, cell size, time step *)
Record domain3 := mkDomain3 { e_ax : axis; e_ay : axis; e_az : axis; e_nx : Z; e_ny : Z; e_nz : Z; e_ng : Z; e_dx : Q; e_dy : Q; e_dz : Q; e_dt : Q }.
(** number of patches *)
Definition npatches3 (D : domain3) : nat := Z.to_nat (ax_n (e_ax D) * ax_n (e_ay D) * ax_n (e_az D)).

(** the particle arrays as the pusher sees them (unified_pusher_3d.c:338, 387-388: a NaN in any coordinate) *)
Definition load3 (s : prt) : M_Push.slot :=
  let r := M_PartSync.row _ s in let b := other _ r in
  M_Push.mkSlot {| p_x := val (px _ r); p_y := val (py _ r); p_z := val (pz _ r); p_ux := b_ux b; p_uy := b_uy b; p_uz := b_uz b;
                   p_ig := b_ig b; p_w := b_w b; p_dead := M_PartSync.dead _ s; p_nan := isnan (px _ r) || isnan (py _ r) || isnan (pz _ r) |} (b_f b).
(** the pusher changes x, y, z, ux, uy, uz, inv_gamma and the interpolated fields in place; a NaN coordinate stays NaN *)
Definition store3 (s : prt) (s' : M_Push.slot) : prt :=
  let r := M_PartSync.row _ s in let b := other _ r in let p := l_p s' in
  M_PartSync.mkSlot _
    (mkRow _ (if isnan (px _ r) then None else Some (p_x p)) (if isnan (py _ r) then None else Some (p_y p)) (if isnan (pz _ r) then None else Some (p_z p))
      (mkBody (p_ux p) (p_uy p) (p_uz p) (p_ig p) (b_w b) (l_f s') (b_id b)))
    (M_PartSync.dead _ s).

Section Step.
Variable rsqrt : Q -> Q.
Variable eps : Qc.
Variable D : domain3.
Local Notation nx := (e_nx D). Local Notation ny := (e_ny D). Local Notation nz := (e_nz D). Local Notation ng := (e_ng D).
Local Notation A := (qc_arith eps).
Local Notation n := (npatches3 D).
Local Notation NX := (nx + 2 * ng). Local Notation NY := (ny + 2 * ng). Local Notation NZ := (nz + 2 * ng).

(** patch.py:98-103, 197-205, fields.py:150-175: x0 = ipatch_x * nx * dx etc.; the arrays include the guard cells *)
Definition grid_of3 (p : nat) : grid3 :=
  {| h_nx := NX; h_ny := NY; h_nz := NZ; h_dx := e_dx D; h_dy := e_dy D; h_dz := e_dz D;
     h_x0 := (inject_Z (pnum p mod ax_n (e_ax D) * nx) * e_dx D)%Q; h_y0 := (inject_Z ((pnum p / ax_n (e_ax D)) mod ax_n (e_ay D) * ny) * e_dy D)%Q;
     h_z0 := (inject_Z (pnum p / ax_n (e_ax D) / ax_n (e_ay D) * nz) * e_dz D)%Q |}.
(** the arrays of patch p, in C order *)
Definition array_of3 (m : memory Qc) (f p : nat) : list Q := map (fun o => this (m (Fld f p o))) (zseq (NX * NY * NZ)).
Definition fields_of3 (mE mB : memory Qc) (p : nat) : six (list Q) :=
  mkSix (array_of3 mE 0 p) (array_of3 mE 1 p) (array_of3 mE 2 p) (array_of3 mB 0 p) (array_of3 mB 1 p) (array_of3 mB 2 p).
(** the deposited currents are written back to patch p *)
Definition put_currents3 (m : memory Qc) (p : nat) (C : arrays) : memory Qc := fun a =>
  match a with
  | Fld f p' o =>
      if (p' =? p)%nat && (0 <=? o) && (o <? NX * NY * NZ)
      then match f with 0%nat => Q2Qc (a_jx C o) | 1%nat => Q2Qc (a_jy C o) | 2%nat => Q2Qc (a_jz C o) | 3%nat => Q2Qc (a_rho C o) | _ => m a end
      else m a
  | _ => m a
  end.
(** cpu3d.c reset_current_cpu_3d: the four arrays of every patch are set to zero *)
Definition reset_currents3 (m : memory Qc) : memory Qc := fold_left (fun m p => put_currents3 m p reset_current) (seq 0 n) m.

(** simulation.py:988-1038 for one species and one patch: push, then deposit *)
Definition push_patch3 (sp : species) (mE mB : memory Qc) (p : nat) (l : list prt) : option (list prt) :=
  match (if sp_unified sp then fused_push_3d else staged_push_3d) rsqrt (grid_of3 p) (fields_of3 mE mB p) (sp_q sp) (sp_m sp) (e_dt D) (map load3 l) with
  | Some l' => Some (map (fun ss => store3 (fst ss) (snd ss)) (combine l l'))
  | None => None
  end.
Definition deposit_patch3 (sp : species) (mJ : memory Qc) (p : nat) (l : list prt) : memory Qc :=
  put_currents3 mJ p ((if sp_unified sp then fused_deposition_3d else current_deposition_cpu_3d) (grid_of3 p) (e_dt D) (sp_q sp) (currents_of mJ p) (map (fun s => l_p (load3 s)) l)).
Fixpoint push_patches3 (sp : species) (mE mB : memory Qc) (mJ : memory Qc) (p : nat) (st : list (list prt)) : option (memory Qc * list (list prt)) :=
  match st with
  | [] => Some (mJ, [])
  | l :: rest =>
      match push_patch3 sp mE mB p l with
      | None => None
      | Some l' => match push_patches3 sp mE mB (deposit_patch3 sp mJ p l') (S p) rest with
                   | Some (mJ', rest') => Some (mJ', l' :: rest')
                   | None => None
                   end
      end
  end.
Fixpoint push_species3 (sps : list species) (mE mB : memory Qc) (mJ : memory Qc) (pss : list (list (list prt))) : option (memory Qc * list (list (list prt))) :=
  match sps, pss with
  | [], _ => Some (mJ, [])
  | _, [] => Some (mJ, [])
  | sp :: sps', st :: pss' =>
      match push_patches3 sp mE mB mJ 0 st with
      | None => None
      | Some (mJ1, st') => match push_species3 sps' mE mB mJ1 pss' with
                           | Some (mJ2, pss'') => Some (mJ2, st' :: pss'')
                           | None => None
                           end
      end
  end.

(** ** the exchanges, for some schedule of threads and messages; [rank] distributes the patches over processes *)
Local Notation nbr := (nbr3 (e_ax D) (e_ay D) (e_az D)).
Definition sync_guards3 (rank : nat -> nat) (m m' : memory Qc) : Prop := exists sched,
  guard_exchange [nx; ny; nz] ng n 26 opp3 nbr rank (Q2Qc 0) Qcplus 3 (local_guard3 nx ny nz ng) (mpi_types3 NX NY NZ ng) sched m = Some m'.
Definition sync_currents3 (rank : nat -> nat) (m m' : memory Qc) : Prop := exists sched1 sched2,
  current_exchange [nx; ny; nz] ng n 26 opp3 nbr rank (Q2Qc 0) Qcplus (local_currents3 nx ny nz ng) (mpi_currents3 nx ny nz ng) sched1 sched2 m = Some m'.
Definition geo_of3 (p : nat) : axgeo * axgeo * axgeo := geo3 (e_ax D) (e_ay D) (e_az D) nx ny nz 0 (e_dx D) (e_dy D) (e_dz D) p.
Definition sync_particles3 (rank : nat -> nat) (st st'' : list (list prt)) : Prop :=
  let remote := remote_of rank nbr in let local := in_process remote nbr in
  exists fresh st' es sched,
  mpi_exchange (prow body) _ 26 opp3 (cl3 body) (sh3 body) geo_of3 nbr fresh remote st = Some st' /\
  Permutation es (all_writes (prow body) _ 26 opp3 (cl3 body) geo_of3 local (extend_all (prow body) 26 opp3 local fresh (outgoing (prow body) _ 26 (cl3 body) geo_of3 st') st')) /\
  exchange (prow body) _ 26 opp3 (cl3 body) (sh3 body) (out3 body) (clear3 body) false geo_of3 local fresh st' es sched = Some st''.

(** simulation.py:946-1108 *)
Definition half3 : Qc := Q2Qc ((1#2) * e_dt D).
Definition up_E3 (mB mJ mE : memory Qc) : memory Qc := update_efield3 A nx ny nz ng (Q2Qc (e_dx D)) (Q2Qc (e_dy D)) (Q2Qc (e_dz D)) n half3 mB mJ mE.
Definition up_B3 (mE mB : memory Qc) : memory Qc := update_bfield3 A nx ny nz ng (Q2Qc (e_dx D)) (Q2Qc (e_dy D)) (Q2Qc (e_dz D)) n half3 mE mB.
Inductive step3d (sps : list species) (rank : nat -> nat) : state2 -> state2 -> Prop :=
| step3d_intro mE mB mJ ps mE1 mB1 ps1 mJ1 ps2 mJ2 ps3 mB2 mE2 :
    sync_guards3 rank (up_E3 mB mJ mE) mE1 ->
    sync_guards3 rank (up_B3 mE1 mB) mB1 ->
    Forall2 sorted2 ps ps1 ->
    push_species3 sps mE1 mB1 (reset_currents3 mJ) ps1 = Some (mJ1, ps2) ->
    sync_currents3 rank mJ1 mJ2 ->
    Forall2 (sync_particles3 rank) ps2 ps3 ->
    sync_guards3 rank (up_B3 mE1 mB1) mB2 ->
    sync_guards3 rank (up_E3 mB2 mJ2 mE1) mE2 ->
    step3d sps rank (mkState2 mE mB mJ ps) (mkState2 mE2 mB2 mJ2 ps3).
(** simulation.py:937: [k] turns of the loop; the balancer may move patches to other processes in every turn *)
Inductive steps3d (sps : list species) : nat -> state2 -> state2 -> Prop :=
| steps3d_0 s : steps3d sps 0 s s
| steps3d_S k rank s s1 s2 : step3d sps rank s s1 -> steps3d sps k s1 s2 -> steps3d sps (S k) s s2.
End Step.
