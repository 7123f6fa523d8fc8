(** Vocabulary for the statements about whole three-dimensional time steps with open sides (as S_StepO in two). *)
From Coq Require Import QArith Qabs Qcanon Permutation.
From Verif Require Import Base M_Layout S_Layout M_PartSync S_PartSync M_FieldSync S_FieldSync M_Maxwell S_Maxwell M_Cpml S_Cpml M_Deposit M_Push M_Step S_Step M_Step3D S_Step3D M_StepO S_StepO M_StepO3D.
Local Open Scope list_scope.
Local Open Scope Z_scope.

(** Every axis is periodic or open on both sides, with at least two patches along open axes; the layers are those the
    simulation builds and fit into a patch; at least three guard cells, patches not thinner than the guard layer; light
    crosses at most one cell per step. *)
Record open3_ok (K : layer Qc) (D : domain3) (pmls : nat -> list pml_side) : Prop := {
  oo3_p : paired [e_ax D; e_ay D; e_az D];
  oo3_n : 1 <= ax_n (e_ax D) /\ 1 <= ax_n (e_ay D) /\ 1 <= ax_n (e_az D);
  oo3_g : 3 <= e_ng D /\ e_ng D <= e_nx D /\ e_ng D <= e_ny D /\ e_ng D <= e_nz D;
  oo3_d : (0 < e_dx D)%Q /\ (0 < e_dy D)%Q /\ (0 < e_dz D)%Q;
  oo3_t : (0 < e_dt D)%Q /\ (LIGHT_SPEED * e_dt D <= e_dx D)%Q /\ (LIGHT_SPEED * e_dt D <= e_dy D)%Q /\ (LIGHT_SPEED * e_dt D <= e_dz D)%Q;
  oo3_one : one_ K = Q2Qc 1;
  oo3_th : 0 <= thick K;
  oo3_fit : layers_fit (thick K) [e_ax D; e_ay D; e_az D] [e_nx D; e_ny D; e_nz D];
  oo3_split : split_open [e_ax D; e_ay D; e_az D];
  oo3_l : layers3 (e_ax D) (e_ay D) (e_az D) (e_nx D) (e_ny D) (thick K) pmls }.
(** Two decompositions of one domain with the same open sides; patch sizes and guard cells may differ. *)
Definition same_open_domain3 (D D' : domain3) : Prop :=
  same_domain3 D D' /\ ax_lo (e_ax D) = ax_lo (e_ax D') /\ ax_lo (e_ay D) = ax_lo (e_ay D') /\ ax_lo (e_az D) = ax_lo (e_az D').

(** The auxiliary arrays of the layers of all patches show P; P s f g belongs to component f at cell g of the whole grid and
    to the layers on side s. *)
Definition aux3_are (D : domain3) (pmls : nat -> list pml_side) (P : pml_side -> nat -> list Z -> Qc) (psi : pml_side -> addr -> Qc) : Prop :=
  forall s f p i j k, (f < 3)%nat -> (p < npatches3 D)%nat -> 0 <= i < e_nx D -> 0 <= j < e_ny D -> 0 <= k < e_nz D -> In s (pmls p) ->
    psi s (pcell [e_nx D; e_ny D; e_nz D] f p [i; j; k]) =
    P s f [pnum p mod ax_n (e_ax D) * e_nx D + i; (pnum p / ax_n (e_ax D)) mod ax_n (e_ay D) * e_ny D + j; pnum p / ax_n (e_ax D) / ax_n (e_ay D) * e_nz D + k].

(** Two states of two decompositions hold the same fields, currents and particles, and their layers the same memory. *)
Definition same_open_state3 (D D' : domain3) (pmls pmls' : nat -> list pml_side) (s s' : stateo) : Prop :=
  (exists F, field3_is D F (o_E s) /\ field3_is D' F (o_E s')) /\
  (exists F, field3_is D F (o_B s) /\ field3_is D' F (o_B s')) /\
  (exists F, currents3_are D F (o_J s) /\ currents3_are D' F (o_J s')) /\
  (exists P, aux3_are D pmls P (o_pE s) /\ aux3_are D' pmls' P (o_pE s')) /\
  (exists P, aux3_are D pmls P (o_pB s) /\ aux3_are D' pmls' P (o_pB s')) /\
  Forall2 same_particles (o_parts s) (o_parts s').
Definition open_ready3 (D : domain3) (sps : list species) (s : stateo) : Prop :=
  length (o_parts s) = length sps /\ Forall (settled3 D) (o_parts s).
Definition open_consistent3 (D : domain3) (pmls : nat -> list pml_side) (s : stateo) : Prop :=
  (exists F, field3_is D F (o_E s)) /\ (exists F, field3_is D F (o_B s)) /\ (exists F, currents3_are D F (o_J s)) /\
  (exists P, aux3_are D pmls P (o_pE s)) /\ (exists P, aux3_are D pmls P (o_pB s)).

(** No particle is in a layer. *)
Definition none_in_layers3 (th : Z) (D : domain3) (st : list (list prt)) : Prop :=
  forall r x y z, In r (particles st) -> px _ r = Some x -> py _ r = Some y -> pz _ r = Some z ->
    clear_of_layers (e_ax D) th (ax_n (e_ax D) * e_nx D) (e_dx D) x /\ clear_of_layers (e_ay D) th (ax_n (e_ay D) * e_ny D) (e_dy D) y /\ clear_of_layers (e_az D) th (ax_n (e_az D) * e_nz D) (e_dz D) z.
(** Every particle of st more than one cell away from the layers of th cells is still there in st'. *)
Definition others_stay3 (th : Z) (D : domain3) (st st' : list (list prt)) : Prop :=
  forall r x y z, In r (particles st) -> px _ r = Some x -> py _ r = Some y -> pz _ r = Some z ->
    clear_of_layers (e_ax D) (th + 1) (ax_n (e_ax D) * e_nx D) (e_dx D) x -> clear_of_layers (e_ay D) (th + 1) (ax_n (e_ay D) * e_ny D) (e_dy D) y ->
    clear_of_layers (e_az D) (th + 1) (ax_n (e_az D) * e_nz D) (e_dz D) z ->
    exists r', In r' (particles st') /\ tag r' = tag r.
