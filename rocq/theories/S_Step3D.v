(** Vocabulary for the statements about whole time steps in three dimensions (as S_Step in two). *)
From Coq Require Import QArith Qabs Qcanon Permutation.
From Verif Require Import Base M_Layout M_PartSync S_PartSync M_FieldSync S_FieldSync S_Maxwell M_Deposit M_Push M_Step S_Step M_Step3D.
Local Open Scope list_scope.
Local Open Scope Z_scope.

(** Periodic domain; at least three guard cells, patches not thinner than the guard layer; light crosses at most one cell
    per step. *)
Record domain3_ok (D : domain3) : Prop := {
  ok3_px : ax_lo (e_ax D) = Periodic /\ ax_hi (e_ax D) = Periodic;
  ok3_py : ax_lo (e_ay D) = Periodic /\ ax_hi (e_ay D) = Periodic;
  ok3_pz : ax_lo (e_az D) = Periodic /\ ax_hi (e_az D) = Periodic;
  ok3_n : 1 <= ax_n (e_ax D) /\ 1 <= ax_n (e_ay D) /\ 1 <= ax_n (e_az D);
  ok3_g : 3 <= e_ng D /\ e_ng D <= e_nx D /\ e_ng D <= e_ny D /\ e_ng D <= e_nz D;
  ok3_d : (0 < e_dx D)%Q /\ (0 < e_dy D)%Q /\ (0 < e_dz D)%Q;
  ok3_t : (0 < e_dt D)%Q /\ (LIGHT_SPEED * e_dt D <= e_dx D)%Q /\ (LIGHT_SPEED * e_dt D <= e_dy D)%Q /\ (LIGHT_SPEED * e_dt D <= e_dz D)%Q }.
(** Two decompositions of one domain; patch sizes and guard cells may differ. *)
Definition same_domain3 (D D' : domain3) : Prop :=
  ax_n (e_ax D) * e_nx D = ax_n (e_ax D') * e_nx D' /\ ax_n (e_ay D) * e_ny D = ax_n (e_ay D') * e_ny D' /\ ax_n (e_az D) * e_nz D = ax_n (e_az D') * e_nz D' /\
  e_dx D = e_dx D' /\ e_dy D = e_dy D' /\ e_dz D = e_dz D' /\ e_dt D = e_dt D'.

(** Every particle has a position in the cells of its patch and a velocity of at most c along x, y and z. *)
Definition settled3 (D : domain3) (st : list (list prt)) : Prop :=
  length st = npatches3 D /\
  forall p r, (p < npatches3 D)%nat -> In r (alive (nth p st [])) ->
    exists x y z, px _ r = Some x /\ py _ r = Some y /\ pz _ r = Some z /\
      in_cells (e_nx D) (e_dx D) (pnum p mod ax_n (e_ax D)) x /\ in_cells (e_ny D) (e_dy D) ((pnum p / ax_n (e_ax D)) mod ax_n (e_ay D)) y /\
      in_cells (e_nz D) (e_dz D) (pnum p / ax_n (e_ax D) / ax_n (e_ay D)) z /\
      (Qabs (b_ux (other _ r) * b_ig (other _ r)) <= 1)%Q /\ (Qabs (b_uy (other _ r) * b_ig (other _ r)) <= 1)%Q /\ (Qabs (b_uz (other _ r) * b_ig (other _ r)) <= 1)%Q.

Section Fields.
Variable D : domain3.
Local Notation axes := [e_ax D; e_ay D; e_az D]. Local Notation ns := [e_nx D; e_ny D; e_nz D].
(** The arrays of all patches show the field F of the whole grid, guard cells included; the currents jx, jy, jz and rho
    show F inside the patches. *)
Definition field3_is (F : nat -> list Z -> Qc) (m : addr -> Qc) : Prop := shows (Q2Qc 0) axes ns (e_ng D) (npatches3 D) (position3 (e_ax D) (e_ay D)) F m.
Definition currents3_are (F : nat -> list Z -> Qc) (m : addr -> Qc) : Prop :=
  forall f p c, (f < 4)%nat -> (p < npatches3 D)%nat -> interior ns c ->
    m (cell ns (e_ng D) f p c) = shown (Q2Qc 0) axes ns (position3 (e_ax D) (e_ay D)) F p f c.
End Fields.

(** Two states of two decompositions hold the same electric and magnetic fields, the same currents and charge density, and
    for every species the same particles. *)
Definition same_state3 (D D' : domain3) (s s' : state2) : Prop :=
  (exists F, field3_is D F (t_E s) /\ field3_is D' F (t_E s')) /\
  (exists F, field3_is D F (t_B s) /\ field3_is D' F (t_B s')) /\
  (exists F, currents3_are D F (t_J s) /\ currents3_are D' F (t_J s')) /\
  Forall2 same_particles (t_parts s) (t_parts s').
(** One list of patches per species. *)
Definition ready3 (D : domain3) (sps : list species) (s : state2) : Prop :=
  length (t_parts s) = length sps /\ Forall (settled3 D) (t_parts s).
(** Every species is pushed by the fused kernel. *)
Definition all_fused (sps : list species) : Prop := Forall (fun sp => sp_unified sp = true) sps.
(** The arrays of every patch show fields of the whole grid. *)
Definition consistent3 (D : domain3) (s : state2) : Prop :=
  (exists F, field3_is D F (t_E s)) /\ (exists F, field3_is D F (t_B s)) /\ (exists F, currents3_are D F (t_J s)).
