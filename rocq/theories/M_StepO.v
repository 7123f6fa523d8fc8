(** Model of one whole time step of a two-dimensional simulation whose sides may be open (simulation/simulation.py:937-1118),
    with absorbing layers (CPML) inside the open sides: M_Step with the solver of M_Cpml (core/boundary/cpml.py,
    core/maxwell/solver/solver.py) and with particles that are removed when they enter a layer
    (patch/sync_particles_2d.c:196, patch.py:105-148).

    Left out, as in M_Step: collisions, QED, lasers (their effect on the decomposition is C80, C85), moving window,
    callbacks, disabled species and photons.  The coefficients of the layers (kappa, sigma, a, exp) are those of the record
    [layer] and arbitrary. *)
From Coq Require Import QArith Qcanon Permutation.
From Verif Require Import Base M_Layout M_PartSync S_PartSync M_FieldSync M_Maxwell M_Cpml M_Deposit M_Push M_Step.
Local Open Scope list_scope.
Local Open Scope Z_scope.

(** fields, currents, the auxiliary arrays psi of the layers for E and for B, particles *)
Record stateo := mkStateO { o_E : memory Qc; o_B : memory Qc; o_J : memory Qc;
  o_pE : pml_side -> memory Qc; o_pB : pml_side -> memory Qc; o_parts : list (list (list prt)) }.

Section Step.
Variable rsqrt : Q -> Q.
Variable eps : Qc.
Variable K : layer Qc.                     (** thickness and coefficients of the layers *)
Variable D : domain2.
Variable pmls : nat -> list pml_side.      (** the layers of every patch, as built by _init_pml (M_Cpml) *)
Local Notation nx := (d_nx D). Local Notation ny := (d_ny D). Local Notation ng := (d_ng D).
Local Notation A := (qc_arith eps).
Local Notation n := (npatches2 D).
Local Notation nbr := (nbr2 (d_ax D) (d_ay D)).

(** bounds of a patch for particles: the absorbing layers do not belong to it (patch.py:105-148) *)
Definition geo_open (p : nat) : axgeo * axgeo := geo2 (d_ax D) (d_ay D) nx ny (thick K) (d_dx D) (d_dy D) p.
(** simulation.py:1066-1077, one species *)
Definition sync_particles_open (rank : nat -> nat) (st st'' : list (list prt)) : Prop :=
  let remote := remote_of rank nbr in let local := in_process remote nbr in
  exists fresh st' es sched,
  mpi_exchange (prow body) _ 8 opp2 (cl2 body) (sh2 body) geo_open nbr fresh remote st = Some st' /\
  Permutation es (all_writes (prow body) _ 8 opp2 (cl2 body) geo_open local (extend_all (prow body) 8 opp2 local fresh (outgoing (prow body) _ 8 (cl2 body) geo_open st') st')) /\
  exchange (prow body) _ 8 opp2 (cl2 body) (sh2 body) (out2 body) (clear2 body) false geo_open local fresh st' es sched = Some st''.

(** core/maxwell/solver/solver.py:47-113, 143-167: one half update of a field together with the arrays of the layers *)
Definition up_Eo (mB mJ mE : memory Qc) (pE : pml_side -> memory Qc) : memory Qc * (pml_side -> memory Qc) :=
  solver_e2 A K nx ny ng (Q2Qc (d_dx D)) (Q2Qc (d_dy D)) n pmls (half D) mB mJ (mE, pE).
Definition up_Bo (mE mB : memory Qc) (pB : pml_side -> memory Qc) : memory Qc * (pml_side -> memory Qc) :=
  solver_b2 A K nx ny ng (Q2Qc (d_dx D)) (Q2Qc (d_dy D)) n pmls (half D) mE (mB, pB).

(** simulation.py:946-1108 *)
Inductive stepo (sps : list species) (rank : nat -> nat) : stateo -> stateo -> Prop :=
| stepo_intro mE mB mJ pE pB ps mE0 pE1 mE1 mB0 pB1 mB1 ps1 mJ1 ps2 mJ2 ps3 mB1' pB2 mB2 mE1' pE2 mE2 :
    up_Eo mB mJ mE pE = (mE0, pE1) -> sync_guards D rank mE0 mE1 ->
    up_Bo mE1 mB pB = (mB0, pB1) -> sync_guards D rank mB0 mB1 ->
    Forall2 sorted2 ps ps1 ->
    push_species rsqrt D sps mE1 mB1 (reset_currents D mJ) ps1 = Some (mJ1, ps2) ->
    sync_currents2 D rank mJ1 mJ2 ->
    Forall2 (sync_particles_open rank) ps2 ps3 ->
    up_Bo mE1 mB1 pB1 = (mB1', pB2) -> sync_guards D rank mB1' mB2 ->
    up_Eo mB2 mJ2 mE1 pE1 = (mE1', pE2) -> sync_guards D rank mE1' mE2 ->
    stepo sps rank (mkStateO mE mB mJ pE pB ps) (mkStateO mE2 mB2 mJ2 pE2 pB2 ps3).
Inductive stepso (sps : list species) : nat -> stateo -> stateo -> Prop :=
| stepso_0 s : stepso sps 0 s s
| stepso_S k rank s s1 s2 : stepo sps rank s s1 -> stepso sps k s1 s2 -> stepso sps (S k) s s2.
End Step.
