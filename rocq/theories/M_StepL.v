(** Model of one whole time step of a two-dimensional simulation with open sides and lasers (simulation/simulation.py:937-1118):
    M_StepO with the callbacks of the stage "_laser" (simulation.py:1100-1101), which run after the second half update of B and
    before its guard cells are exchanged, as modelled in M_Laser (callback/laser.py).

    Simplifications: those of M_StepO (collisions, QED, moving window, disabled species and photons are left out) and of M_Laser;
    the lasers run one after another over all processes, whereas every process calls its lasers in this order for its own
    patches: a laser reads and writes only the patch it is called for.  [time] is sim.time (itime * dt, simulation.py:934) and
    arbitrary. *)
From Coq Require Import QArith Qcanon Permutation.
From Verif Require Import Base M_Layout M_PartSync S_PartSync M_FieldSync M_Maxwell M_Cpml M_Deposit M_Push M_Laser M_Step M_StepO.
Local Open Scope list_scope.
Local Open Scope Z_scope.

(** the state of M_StepO and, for every laser and process, the attribute disabled (laser.py:84) *)
Record statel := mkStateL { l_o : stateo; l_off : list (nat -> bool) }.

Section Step.
Variable rsqrt : Q -> Q.
Variable eps : Qc.
Variable K : layer Qc.
Variable D : domain2.
Variable pmls : nat -> list pml_side.
Variable lasers : list (laser (V := Qc)).  (** callbacks of the stage, in their order *)
Variable nproc : nat.
Local Notation A := (qc_arith eps).

(** simulation.py:1100-1101: stage_callbacks.run('_laser') *)
Fixpoint run_lasers (rank : nat -> nat) (time : Q) (mE mJ : memory Qc) (ls : list laser) (offs : list (nat -> bool)) (mB : memory Qc) : list (nat -> bool) * memory Qc :=
  match ls, offs with
  | l :: ls', off :: offs' =>
      let '(off1, m) := laser_stage_2d A K (Q2Qc LIGHT_SPEED) (d_ax D) (d_ay D) (d_nx D) (d_ny D) (d_ng D) (Q2Qc (d_dx D)) (Q2Qc (d_dy D)) (d_dy D) pmls
                          nproc rank l time (Q2Qc (d_dt D)) mE mJ (off, mB) in
      let '(offs1, m') := run_lasers rank time mE mJ ls' offs' m in (off1 :: offs1, m')
  | _, _ => (offs, mB)
  end.

(** simulation.py:946-1108 *)
Inductive stepl (sps : list species) (rank : nat -> nat) (time : Q) : statel -> statel -> Prop :=
| stepl_intro mE mB mJ pE pB ps offs mE0 pE1 mE1 mB0 pB1 mB1 ps1 mJ1 ps2 mJ2 ps3 mB1' pB2 offs' mBl mB2 mE1' pE2 mE2 :
    up_Eo eps K D pmls mB mJ mE pE = (mE0, pE1) -> sync_guards D rank mE0 mE1 ->
    up_Bo eps K D pmls mE1 mB pB = (mB0, pB1) -> sync_guards D rank mB0 mB1 ->
    Forall2 sorted2 ps ps1 ->
    push_species rsqrt D sps mE1 mB1 (reset_currents D mJ) ps1 = Some (mJ1, ps2) ->
    sync_currents2 D rank mJ1 mJ2 ->
    Forall2 (sync_particles_open K D rank) ps2 ps3 ->
    up_Bo eps K D pmls mE1 mB1 pB1 = (mB1', pB2) ->
    run_lasers rank time mE1 mJ2 lasers offs mB1' = (offs', mBl) ->
    sync_guards D rank mBl mB2 ->
    up_Eo eps K D pmls mB2 mJ2 mE1 pE1 = (mE1', pE2) -> sync_guards D rank mE1' mE2 ->
    stepl sps rank time (mkStateL (mkStateO mE mB mJ pE pB ps) offs) (mkStateL (mkStateO mE2 mB2 mJ2 pE2 pB2 ps3) offs').
Inductive stepsl (sps : list species) : nat -> statel -> statel -> Prop :=
| stepsl_0 s : stepsl sps 0 s s
| stepsl_S k rank time s s1 s2 : stepl sps rank time s s1 -> stepsl sps k s1 s2 -> stepsl sps (S k) s s2.
End Step.
