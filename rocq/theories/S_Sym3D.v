(** Vocabulary for the symmetries of a periodic run in three dimensions (as S_Sym in two; axes are not exchanged). *)
From Coq Require Import QArith Qcanon Permutation.
From Verif Require Import Base M_Layout M_PartSync S_PartSync M_FieldSync S_Maxwell M_Deposit M_Push S_Push M_Step S_Step M_Step3D S_Step3D S_Sym.
Local Open Scope list_scope.
Local Open Scope Z_scope.

(** Reverse x, y, z, then shift by whole cells along x, y, z.  [z_conj] reverses the sign of all charges. *)
Record symmetry3 := mkSym3 { z_fx : bool; z_fy : bool; z_fz : bool; z_conj : bool; z_ax : Z; z_ay : Z; z_az : Z }.
Definition nothing3 : symmetry3 := mkSym3 false false false false 0 0 0.
(** the part of it that acts on vectors: signs of components are those of S_Sym *)
Definition flat (y : symmetry3) : symmetry := mkSym false (z_fx y) (z_fy y) (z_fz y) (z_conj y) (z_ax y) (z_ay y).
(** is the component stored half a cell further along z? *)
Definition half_Ez (f : nat) : bool := (f =? 2)%nat. Definition half_Bz (f : nat) : bool := (f =? 0)%nat || (f =? 1)%nat.
Definition Ex (D : domain3) : Z := ax_n (e_ax D) * e_nx D.
Definition Ey (D : domain3) : Z := ax_n (e_ay D) * e_ny D.
Definition Ez (D : domain3) : Z := ax_n (e_az D) * e_nz D.
(** Image of a field of the whole grid; [D] is the domain of the image. *)
Section Image.
Variables (y : symmetry3) (D : domain3).
Definition image3 (sign : nat -> bool) (hx hy hz : nat -> bool) (F : nat -> list Z -> Qc) (f : nat) (g : list Z) : Qc :=
  match g with
  | [a; b; c] => (Q2Qc (sgn (sign f)) * F f [origin_of (z_fx y) (z_ax y) (Ex D) (hx f) a; origin_of (z_fy y) (z_ay y) (Ey D) (hy f) b; origin_of (z_fz y) (z_az y) (Ez D) (hz f) c])%Qc
  | _ => 0%Qc
  end.
Definition image3_E := image3 (sign_E (flat y)) half_Ex half_Ey half_Ez.
Definition image3_B := image3 (sign_B (flat y)) half_Bx half_By half_Bz.
(** Image of a particle: the place is fixed up to whole periods. *)
Definition image3_row (r r' : prow body) : Prop :=
  let b := other _ r in let b' := other _ r' in
  carried (z_fx y) (z_ax y) (Ex D) (e_dx D) (px _ r) (px _ r') /\ carried (z_fy y) (z_ay y) (Ey D) (e_dy D) (py _ r) (py _ r') /\ carried (z_fz y) (z_az y) (Ez D) (e_dz D) (pz _ r) (pz _ r') /\
  (b_ux b' == sgn (z_fx y) * b_ux b)%Q /\ (b_uy b' == sgn (z_fy y) * b_uy b)%Q /\ (b_uz b' == sgn (z_fz y) * b_uz b)%Q /\
  (b_ig b' == b_ig b)%Q /\ (b_w b' == b_w b)%Q /\ same6 (b_f b') (image6 (flat y) (b_f b)) /\ b_id b' = b_id b.
(** The particles of one species are the images of the others, in any order and any distribution over patches. *)
Definition image3_particles (st st' : list (list prt)) : Prop := exists l, Permutation (particles st') l /\ Forall2 image3_row (particles st) l.
End Image.
(** The domain of the image: patches and guard cells may be chosen anew. *)
Definition image3_domain (D D' : domain3) : Prop :=
  Ex D' = Ex D /\ Ey D' = Ey D /\ Ez D' = Ez D /\ e_dx D' = e_dx D /\ e_dy D' = e_dy D /\ e_dz D' = e_dz D /\ e_dt D' = e_dt D.
(** [s'] holds the image of the fields, currents and particles of [s]. *)
Definition image3_state (y : symmetry3) (D D' : domain3) (s s' : state2) : Prop :=
  (exists F, field3_is D F (t_E s) /\ field3_is D' (image3_E y D' F) (t_E s')) /\
  (exists F, field3_is D F (t_B s) /\ field3_is D' (image3_B y D' F) (t_B s')) /\
  (exists F, currents3_are D F (t_J s) /\ currents3_are D' (image3_E y D' F) (t_J s')) /\
  Forall2 (image3_particles y D') (t_parts s) (t_parts s').
