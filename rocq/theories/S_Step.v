(** Vocabulary for the statements about whole time steps. *)
From Coq Require Import QArith Qabs Qcanon Permutation.
From Verif Require Import Base M_Layout M_PartSync S_PartSync M_FieldSync S_FieldSync S_Maxwell M_Deposit M_Push M_Step.
Local Open Scope list_scope.
Local Open Scope Z_scope.

(** The particles of all patches. *)
Definition particles (st : list (list prt)) : list (prow body) := flat_map alive st.
(** A particle with every number in lowest terms: two particles have the same canonical form iff all their attributes are
    the same numbers. *)
Definition canon6 (v : six Q) : six Q := mkSix (Qred (s_ex v)) (Qred (s_ey v)) (Qred (s_ez v)) (Qred (s_bx v)) (Qred (s_by v)) (Qred (s_bz v)).
Definition canon_body (b : body) : body := mkBody (Qred (b_ux b)) (Qred (b_uy b)) (Qred (b_uz b)) (Qred (b_ig b)) (Qred (b_w b)) (canon6 (b_f b)) (b_id b).
Definition canon (r : prow body) : prow body := mkRow _ (option_map Qred (px _ r)) (option_map Qred (py _ r)) (option_map Qred (pz _ r)) (canon_body (other _ r)).
(** The same particles, however they are distributed over patches and slots. *)
Definition same_particles (st st' : list (list prt)) : Prop := Permutation (map canon (particles st)) (map canon (particles st')).

(** rsqrt behaves like 1/sqrt as far as needed: its value depends on the number only, and velocities stay below c *)
Definition subluminal (rsqrt : Q -> Q) : Prop :=
  (forall x y, (x == y)%Q -> (rsqrt x == rsqrt y)%Q) /\ (forall u s, (1 + u * u <= s -> Qabs (u * rsqrt s) <= 1)%Q).

(** Periodic domain; at least three guard cells, patches not thinner than the guard layer; light crosses at most one cell
    per step (the Courant condition enforces it). *)
Record domain_ok (D : domain2) : Prop := {
  ok_px : ax_lo (d_ax D) = Periodic /\ ax_hi (d_ax D) = Periodic;
  ok_py : ax_lo (d_ay D) = Periodic /\ ax_hi (d_ay D) = Periodic;
  ok_n : 1 <= ax_n (d_ax D) /\ 1 <= ax_n (d_ay D);
  ok_g : 3 <= d_ng D /\ d_ng D <= d_nx D /\ d_ng D <= d_ny D;
  ok_d : (0 < d_dx D)%Q /\ (0 < d_dy D)%Q;
  ok_t : (0 < d_dt D)%Q /\ (LIGHT_SPEED * d_dt D <= d_dx D)%Q /\ (LIGHT_SPEED * d_dt D <= d_dy D)%Q }.
(** Two decompositions of one domain; patch sizes and guard cells may differ. *)
Definition same_domain (D D' : domain2) : Prop :=
  ax_n (d_ax D) * d_nx D = ax_n (d_ax D') * d_nx D' /\ ax_n (d_ay D) * d_ny D = ax_n (d_ay D') * d_ny D' /\
  d_dx D = d_dx D' /\ d_dy D = d_dy D' /\ d_dt D = d_dt D'.

(** Every particle has a position in the cells of its patch and a velocity of at most c along x and y. *)
Definition settled (D : domain2) (st : list (list prt)) : Prop :=
  length st = npatches2 D /\
  forall p r, (p < npatches2 D)%nat -> In r (alive (nth p st [])) ->
    exists x y, px _ r = Some x /\ py _ r = Some y /\
      in_cells (d_nx D) (d_dx D) (pnum p mod ax_n (d_ax D)) x /\ in_cells (d_ny D) (d_dy D) (pnum p / ax_n (d_ax D)) y /\
      (Qabs (b_ux (other _ r) * b_ig (other _ r)) <= 1)%Q /\ (Qabs (b_uy (other _ r) * b_ig (other _ r)) <= 1)%Q.

Section Fields.
Variable D : domain2.
Local Notation axes := [d_ax D; d_ay D]. Local Notation ns := [d_nx D; d_ny D].
(** The arrays of all patches show the field F of the whole grid, guard cells included; the currents jx, jy, jz and rho
    show F inside the patches. *)
Definition field_is (F : nat -> list Z -> Qc) (m : addr -> Qc) : Prop := shows (Q2Qc 0) axes ns (d_ng D) (npatches2 D) (position2 (d_ax D)) F m.
Definition currents_are (F : nat -> list Z -> Qc) (m : addr -> Qc) : Prop :=
  forall f p c, (f < 4)%nat -> (p < npatches2 D)%nat -> interior ns c ->
    m (cell ns (d_ng D) f p c) = shown (Q2Qc 0) axes ns (position2 (d_ax D)) F p f c.
End Fields.

(** Two states of two decompositions hold the same electric and magnetic fields, the same currents and charge density, and
    for every species the same particles. *)
Definition same_state (D D' : domain2) (s s' : state2) : Prop :=
  (exists F, field_is D F (t_E s) /\ field_is D' F (t_E s')) /\
  (exists F, field_is D F (t_B s) /\ field_is D' F (t_B s')) /\
  (exists F, currents_are D F (t_J s) /\ currents_are D' F (t_J s')) /\
  Forall2 same_particles (t_parts s) (t_parts s').
(** One list of patches per species. *)
Definition ready (D : domain2) (sps : list species) (s : state2) : Prop :=
  length (t_parts s) = length sps /\ Forall (settled D) (t_parts s).
(** The arrays of every patch show fields of the whole grid. *)
Definition consistent (D : domain2) (s : state2) : Prop :=
  (exists F, field_is D F (t_E s)) /\ (exists F, field_is D F (t_B s)) /\ (exists F, currents_are D F (t_J s)).
(** The same charge and mass; one may be pushed by the fused kernel and the other in stages. *)
Definition same_species (sp sp' : species) : Prop := sp_q sp = sp_q sp' /\ sp_m sp = sp_m sp'.
