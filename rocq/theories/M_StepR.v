(** Model of a whole time step with binary collisions and QED events (two dimensions, periodic boundaries).

    Sources: simulation/simulation.py:937-1118.  Collisions come after the sorting and before the currents are reset
    (lines 972-977); photons and pairs are created, and the emitting particles recoil, after the deposition and before the
    particles are exchanged (lines 1046-1062).  The rest of the step is [step2] of M_Step.

    Simplifications: as in M_Step; in addition a collision stage may give any momentum to any particle (which partners
    meet, the Coulomb logarithm and the random numbers are in M_Collision and M_Pairing; inv_gamma is recomputed from the
    momentum as the kernel does); a QED stage is any finite sequence of events, in any order, with any fraction (the order
    of the source is in M_Qed); photons are not part of the state: they carry no charge and do not act on the fields, so
    emission is the recoil of the emitter, and a pair is created where some photon of the patch may have moved to.
    [rsqrt] stands for 1/sqrt. *)
From Coq Require Import QArith Qabs Qcanon Permutation.
From Verif Require Import Base M_Layout M_PartSync S_PartSync M_FieldSync M_Maxwell M_Deposit M_Push M_Step.
Local Open Scope list_scope.
Local Open Scope Z_scope.

Section StepR.
Variable rsqrt : Q -> Q.
Variable eps : Qc.
Variable D : domain2.
Local Notation nx := (d_nx D). Local Notation ny := (d_ny D).

(** the momentum is replaced and inv_gamma recomputed; position, weight and the other attributes stay.
    collision/cpu.py:412-427, qed/cpu.py:327-330 *)
Definition with_u (ux uy uz : Q) (r : prow body) : prow body :=
  let b := other _ r in
  mkRow _ (px _ r) (py _ r) (pz _ r) (mkBody ux uy uz (rsqrt (1 + (ux * ux + uy * uy + uz * uz)))%Q (b_w b) (b_f b) (b_id b)).

(** collision/cpu.py:374-428: a live particle keeps its momentum or gets a new one *)
Inductive scattered : prt -> prt -> Prop :=
| sc_same s : scattered s s
| sc_new s ux uy uz : M_PartSync.dead _ s = false -> scattered s (M_PartSync.mkSlot _ (with_u ux uy uz (rowof s)) false).
Definition collided (st st' : list (list prt)) : Prop := Forall2 (Forall2 scattered) st st'.

(** slot [a] of patch [p] of species [i] *)
Definition slot_at (pss : list (list (list prt))) (i p a : nat) : option prt := nth_error (nth p (nth i pss []) []) a.
Definition set_patch (i p : nat) (l : list prt) (pss : list (list (list prt))) : list (list (list prt)) := upd i (upd p l (nth i pss [])) pss.
Definition set_slot (i p a : nat) (v : prt) (pss : list (list (list prt))) : list (list (list prt)) :=
  set_patch i p (upd a v (nth p (nth i pss []) [])) pss.

(** photon_recoil_patches, qed/cpu.py:308-330 *)
Definition recoiled (delta : Q) (r : prow body) : prow body :=
  let b := other _ r in with_u (b_ux b * (1 - delta)) (b_uy b * (1 - delta)) (b_uz b * (1 - delta)) r.
(** a photon that was in the cells of patch [p] when the step began and has moved with at most the speed of light *)
Definition photon_at (p : nat) (x y : Q) : Prop := exists x0 y0 vx vy,
  in_cells nx (d_dx D) (pnum p mod ax_n (d_ax D)) x0 /\ in_cells ny (d_dy D) (pnum p / ax_n (d_ax D)) y0 /\
  (Qabs vx <= 1)%Q /\ (Qabs vy <= 1)%Q /\ x = (x0 + LIGHT_SPEED * d_dt D * vx)%Q /\ y = (y0 + LIGHT_SPEED * d_dt D * vy)%Q.
(** create_pair_inline_2d, qed/inline.py:115-150: position and weight of the photon, the fraction [f] of its momentum; the
    z coordinate, the stored fields and the identifier of the slot [old] are not written *)
Definition newborn (f : Q) (x y ux uy uz w : Q) (old : prow body) : prow body :=
  let b := other _ old in
  with_u (f * ux) (f * uy) (f * uz) (mkRow _ (Some x) (Some y) (pz _ old) (mkBody 0 0 0 0 w (b_f b) (b_id b))).

(** [pairs] are the species into which photons turn: electron, positron *)
Variable pairs : list (nat * nat).
Inductive qed_event : list (list (list prt)) -> list (list (list prt)) -> Prop :=
| ev_recoil pss i p a s delta : slot_at pss i p a = Some s -> M_PartSync.dead _ s = false ->
    qed_event pss (set_slot i p a (M_PartSync.mkSlot _ (recoiled delta (rowof s)) false) pss)
| ev_pair pss i j p a b sa sb x y ux uy uz w delta : In (i, j) pairs -> i <> j -> photon_at p x y ->
    slot_at pss i p a = Some sa -> M_PartSync.dead _ sa = true -> slot_at pss j p b = Some sb -> M_PartSync.dead _ sb = true ->
    qed_event pss (set_slot j p b (M_PartSync.mkSlot _ (newborn (1 - delta) x y ux uy uz w (rowof sb)) false)
                  (set_slot i p a (M_PartSync.mkSlot _ (newborn delta x y ux uy uz w (rowof sa)) false) pss))
(** pair_production.py:240-262: the arrays of a species are extended by dead slots *)
| ev_room pss i p rows : qed_event pss (set_patch i p (nth p (nth i pss []) [] ++ map (fun r => M_PartSync.mkSlot _ r true) rows) pss).
Inductive qed_stage : list (list (list prt)) -> list (list (list prt)) -> Prop :=
| qed_none pss : qed_stage pss pss
| qed_more pss pss1 pss2 : qed_event pss pss1 -> qed_stage pss1 pss2 -> qed_stage pss pss2.

(** the particles of a step before and after the collisions, and before and after the QED stage *)
Record turn := mkTurn { before_collisions : list (list (list prt)); after_collisions : list (list (list prt));
                        before_qed : list (list (list prt)); after_qed : list (list (list prt)) }.
(** simulation.py:946-1108 *)
Inductive stepR (sps : list species) (rank : nat -> nat) : turn -> state2 -> state2 -> Prop :=
| stepR_intro mE mB mJ ps mE1 mB1 ps1 psc mJ1 ps2 psq mJ2 ps3 mB2 mE2 :
    sync_guards D rank (up_E eps D mB mJ mE) mE1 ->
    sync_guards D rank (up_B eps D mE1 mB) mB1 ->
    Forall2 sorted2 ps ps1 ->
    Forall2 collided ps1 psc ->
    push_species rsqrt D sps mE1 mB1 (reset_currents D mJ) psc = Some (mJ1, ps2) ->
    qed_stage ps2 psq ->
    sync_currents2 D rank mJ1 mJ2 ->
    Forall2 (sync_particles2 D rank) psq ps3 ->
    sync_guards D rank (up_B eps D mE1 mB1) mB2 ->
    sync_guards D rank (up_E eps D mB2 mJ2 mE1) mE2 ->
    stepR sps rank (mkTurn ps1 psc ps2 psq) (mkState2 mE mB mJ ps) (mkState2 mE2 mB2 mJ2 ps3).
Inductive stepsR (sps : list species) : list turn -> state2 -> state2 -> Prop :=
| stepsR_0 s : stepsR sps [] s s
| stepsR_S t ts rank s s1 s2 : stepR sps rank t s s1 -> stepsR sps ts s1 s2 -> stepsR sps (t :: ts) s s2.
End StepR.
