(** Vocabulary for the statements about whole time steps with open sides. *)
From Coq Require Import QArith Qabs Qcanon Permutation.
From Verif Require Import Base M_Layout S_Layout M_PartSync S_PartSync M_FieldSync S_FieldSync M_Maxwell S_Maxwell M_Cpml S_Cpml M_Deposit M_Push M_Step S_Step M_StepO.
Local Open Scope list_scope.
Local Open Scope Z_scope.

(** Every axis is periodic or open on both sides; the layers are those the simulation builds and fit into a patch; at least
    three guard cells, patches not thinner than the guard layer; light crosses at most one cell per step. *)
Record open_ok (K : layer Qc) (D : domain2) (pmls : nat -> list pml_side) : Prop := {
  oo_p : paired [d_ax D; d_ay D];
  oo_n : 1 <= ax_n (d_ax D) /\ 1 <= ax_n (d_ay D);
  oo_g : 3 <= d_ng D /\ d_ng D <= d_nx D /\ d_ng D <= d_ny D;
  oo_d : (0 < d_dx D)%Q /\ (0 < d_dy D)%Q;
  oo_t : (0 < d_dt D)%Q /\ (LIGHT_SPEED * d_dt D <= d_dx D)%Q /\ (LIGHT_SPEED * d_dt D <= d_dy D)%Q;
  oo_one : one_ K = Q2Qc 1;
  oo_th : 0 <= thick K;
  oo_fit : layers_fit (thick K) [d_ax D; d_ay D] [d_nx D; d_ny D];
  oo_l : layers2 (d_ax D) (d_ay D) (d_nx D) (d_ny D) (thick K) pmls }.
(** Two decompositions of one domain with the same open sides; patch sizes and guard cells may differ. *)
Definition same_open_domain (D D' : domain2) : Prop :=
  same_domain D D' /\ ax_lo (d_ax D) = ax_lo (d_ax D') /\ ax_lo (d_ay D) = ax_lo (d_ay D').

(** The auxiliary arrays of the layers of all patches show P; P s f g belongs to component f at cell g of the whole grid and
    to the layers on side s. *)
Definition aux_are (D : domain2) (pmls : nat -> list pml_side) (P : pml_side -> nat -> list Z -> Qc) (psi : pml_side -> addr -> Qc) : Prop :=
  forall s f p i j, (f < 3)%nat -> (p < npatches2 D)%nat -> 0 <= i < d_nx D -> 0 <= j < d_ny D -> In s (pmls p) ->
    psi s (pcell [d_nx D; d_ny D] f p [i; j]) = P s f [pnum p mod ax_n (d_ax D) * d_nx D + i; pnum p / ax_n (d_ax D) * d_ny D + j].

(** Two states of two decompositions hold the same fields, currents and particles, and their layers the same memory. *)
Definition same_open_state (D D' : domain2) (pmls pmls' : nat -> list pml_side) (s s' : stateo) : Prop :=
  (exists F, field_is D F (o_E s) /\ field_is D' F (o_E s')) /\
  (exists F, field_is D F (o_B s) /\ field_is D' F (o_B s')) /\
  (exists F, currents_are D F (o_J s) /\ currents_are D' F (o_J s')) /\
  (exists P, aux_are D pmls P (o_pE s) /\ aux_are D' pmls' P (o_pE s')) /\
  (exists P, aux_are D pmls P (o_pB s) /\ aux_are D' pmls' P (o_pB s')) /\
  Forall2 same_particles (o_parts s) (o_parts s').
Definition open_ready (D : domain2) (sps : list species) (s : stateo) : Prop :=
  length (o_parts s) = length sps /\ Forall (settled D) (o_parts s).
Definition open_consistent (D : domain2) (pmls : nat -> list pml_side) (s : stateo) : Prop :=
  (exists F, field_is D F (o_E s)) /\ (exists F, field_is D F (o_B s)) /\ (exists F, currents_are D F (o_J s)) /\
  (exists P, aux_are D pmls P (o_pE s)) /\ (exists P, aux_are D pmls P (o_pB s)).

(** Coordinate v along an axis of W cells lies outside the layers of th cells at its two ends (if the axis is open). *)
Definition clear_of_layers (a : axis) (th W : Z) (d v : Q) : Prop :=
  ax_lo a = Pml -> (inject_Z th * d - d / 2 <= v)%Q /\ (v <= inject_Z (W - th) * d - d / 2)%Q.
(** No particle is in a layer. *)
Definition none_in_layers (th : Z) (D : domain2) (st : list (list prt)) : Prop :=
  forall r x y, In r (particles st) -> px _ r = Some x -> py _ r = Some y ->
    clear_of_layers (d_ax D) th (ax_n (d_ax D) * d_nx D) (d_dx D) x /\ clear_of_layers (d_ay D) th (ax_n (d_ay D) * d_ny D) (d_dy D) y.

(** Identity and weight of a particle; some particles of st are gone in st', none is new or doubled. *)
Definition tag (r : prow body) : Z * Q := (b_id (other _ r), Qred (b_w (other _ r))).
Definition survivors (st st' : list (list prt)) : Prop := exists gone, Permutation (map tag (particles st)) (map tag (particles st') ++ gone).
(** Every particle of st more than one cell away from the layers of th cells is still there in st'. *)
Definition others_stay (th : Z) (D : domain2) (st st' : list (list prt)) : Prop :=
  forall r x y, In r (particles st) -> px _ r = Some x -> py _ r = Some y ->
    clear_of_layers (d_ax D) (th + 1) (ax_n (d_ax D) * d_nx D) (d_dx D) x -> clear_of_layers (d_ay D) (th + 1) (ax_n (d_ay D) * d_ny D) (d_dy D) y ->
    exists r', In r' (particles st') /\ tag r' = tag r.
