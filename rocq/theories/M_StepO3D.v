(** Model of one whole time step of a three-dimensional simulation whose sides may be open (simulation/simulation.py:937-1118),
    with absorbing layers (CPML) inside the open sides: M_Step3D with the three-dimensional solver of M_Cpml
    (core/boundary/cpml.py, core/maxwell/solver/solver.py) and with particles that are removed when they enter a layer
    (patch/sync_particles_3d.c, patch.py:165-230).  Covered and left out as in M_StepO, whose state is used here. *)
From Coq Require Import QArith Qcanon Permutation.
From Verif Require Import Base M_Layout M_PartSync S_PartSync M_FieldSync M_Maxwell M_Cpml M_Deposit M_Push M_Step M_Step3D M_StepO.
Local Open Scope list_scope.
Local Open Scope Z_scope.

Section Step.
Variable rsqrt : Q -> Q.
Variable eps : Qc.
Variable K : layer Qc.                     (** thickness and coefficients of the layers *)
Variable D : domain3.
Variable pmls : nat -> list pml_side.      (** the layers of every patch, as built by _init_pml (M_Cpml) *)
Local Notation nx := (e_nx D). Local Notation ny := (e_ny D). Local Notation nz := (e_nz D). Local Notation ng := (e_ng D).
Local Notation A := (qc_arith eps).
Local Notation n := (npatches3 D).
Local Notation nbr := (nbr3 (e_ax D) (e_ay D) (e_az D)).

(** bounds of a patch for particles: the absorbing layers do not belong to it *)
Definition geo_open3 (p : nat) : axgeo * axgeo * axgeo := geo3 (e_ax D) (e_ay D) (e_az D) nx ny nz (thick K) (e_dx D) (e_dy D) (e_dz D) p.
(** simulation.py:1066-1077, one species *)
Definition sync_particles_open3 (rank : nat -> nat) (st st'' : list (list prt)) : Prop :=
  let remote := remote_of rank nbr in let local := in_process remote nbr in
  exists fresh st' es sched,
  mpi_exchange (prow body) _ 26 opp3 (cl3 body) (sh3 body) geo_open3 nbr fresh remote st = Some st' /\
  Permutation es (all_writes (prow body) _ 26 opp3 (cl3 body) geo_open3 local (extend_all (prow body) 26 opp3 local fresh (outgoing (prow body) _ 26 (cl3 body) geo_open3 st') st')) /\
  exchange (prow body) _ 26 opp3 (cl3 body) (sh3 body) (out3 body) (clear3 body) false geo_open3 local fresh st' es sched = Some st''.

(** core/maxwell/solver/solver.py:195-254: one half update of a field together with the arrays of the layers *)
Definition up_Eo3 (mB mJ mE : memory Qc) (pE : pml_side -> memory Qc) : memory Qc * (pml_side -> memory Qc) :=
  solver_e3 A K nx ny nz ng (Q2Qc (e_dx D)) (Q2Qc (e_dy D)) (Q2Qc (e_dz D)) n pmls (half3 D) mB mJ (mE, pE).
Definition up_Bo3 (mE mB : memory Qc) (pB : pml_side -> memory Qc) : memory Qc * (pml_side -> memory Qc) :=
  solver_b3 A K nx ny nz ng (Q2Qc (e_dx D)) (Q2Qc (e_dy D)) (Q2Qc (e_dz D)) n pmls (half3 D) mE (mB, pB).

(** simulation.py:946-1108 *)
Inductive stepo3 (sps : list species) (rank : nat -> nat) : stateo -> stateo -> Prop :=
| stepo3_intro mE mB mJ pE pB ps mE0 pE1 mE1 mB0 pB1 mB1 ps1 mJ1 ps2 mJ2 ps3 mB1' pB2 mB2 mE1' pE2 mE2 :
    up_Eo3 mB mJ mE pE = (mE0, pE1) -> sync_guards3 D rank mE0 mE1 ->
    up_Bo3 mE1 mB pB = (mB0, pB1) -> sync_guards3 D rank mB0 mB1 ->
    Forall2 sorted2 ps ps1 ->
    push_species3 rsqrt D sps mE1 mB1 (reset_currents3 D mJ) ps1 = Some (mJ1, ps2) ->
    sync_currents3 D rank mJ1 mJ2 ->
    Forall2 (sync_particles_open3 rank) ps2 ps3 ->
    up_Bo3 mE1 mB1 pB1 = (mB1', pB2) -> sync_guards3 D rank mB1' mB2 ->
    up_Eo3 mB2 mJ2 mE1 pE1 = (mE1', pE2) -> sync_guards3 D rank mE1' mE2 ->
    stepo3 sps rank (mkStateO mE mB mJ pE pB ps) (mkStateO mE2 mB2 mJ2 pE2 pB2 ps3).
Inductive stepso3 (sps : list species) : nat -> stateo -> stateo -> Prop :=
| stepso3_0 s : stepso3 sps 0 s s
| stepso3_S k rank s s1 s2 : stepo3 sps rank s s1 -> stepso3 sps k s1 s2 -> stepso3 sps (S k) s s2.
End Step.
