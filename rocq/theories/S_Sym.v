(** Vocabulary for the symmetries of a periodic run. *)
From Coq Require Import QArith Qcanon Permutation.
From Verif Require Import Base M_Layout M_PartSync S_PartSync M_FieldSync S_Maxwell M_Deposit M_Push S_Push M_Step S_Step.
Local Open Scope list_scope.
Local Open Scope Z_scope.

(** A symmetry of the plane and of the charges.  In this order: exchange the axes x and y; reverse x, y, z; shift by whole
    cells along x and y.  [y_conj] reverses the sign of all charges. *)
Record symmetry := mkSym { y_swap : bool; y_fx : bool; y_fy : bool; y_fz : bool; y_conj : bool; y_ax : Z; y_ay : Z }.
Definition nothing : symmetry := mkSym false false false false false 0 0.

(** minus one if [b] *)
Definition sgn (b : bool) : Q := if b then -(1)%Q else 1%Q.
(** which component a component of the image is made of *)
Definition comp (y : symmetry) (f : nat) : nat := if y_swap y then match f with 0%nat => 1%nat | 1%nat => 0%nat | _ => f end else f.
(** reversal of axis f; f = 3 is the charge density *)
Definition rev_ (y : symmetry) (f : nat) : bool := match f with 0%nat => y_fx y | 1%nat => y_fy y | 2%nat => y_fz y | _ => false end.
(** a rotation, or a rotation and a reflection *)
Definition improper (y : symmetry) : bool := xorb (xorb (y_swap y) (y_fx y)) (xorb (y_fy y) (y_fz y)).
(** E and the current are vectors, B is an axial vector; all change sign with the charges *)
Definition sign_E (y : symmetry) (f : nat) : bool := xorb (y_conj y) (rev_ y f).
Definition sign_B (y : symmetry) (f : nat) : bool := xorb (sign_E y f) (improper y).
(** is the component stored half a cell further along x (y)? *)
Definition half_Ex (f : nat) : bool := (f =? 0)%nat. Definition half_Ey (f : nat) : bool := (f =? 1)%nat.
Definition half_Bx (f : nat) : bool := (f =? 1)%nat || (f =? 2)%nat. Definition half_By (f : nat) : bool := (f =? 0)%nat || (f =? 2)%nat.
(** cell along one axis that is carried to cell [a] *)
Definition origin_of (rev : bool) (shift N : Z) (h : bool) (a : Z) : Z :=
  ((if rev then shift - a - (if h then 1 else 0) else a - shift) mod N).
Definition Cx (D : domain2) : Z := ax_n (d_ax D) * d_nx D.
Definition Cy (D : domain2) : Z := ax_n (d_ay D) * d_ny D.
(** Image of a field of the whole grid; [D] is the domain of the image. *)
Section Image.
Variables (y : symmetry) (D : domain2).
Definition image (sign : nat -> bool) (hx hy : nat -> bool) (F : nat -> list Z -> Qc) (f : nat) (g : list Z) : Qc :=
  match g with
  | [a; b] => let a0 := origin_of (y_fx y) (y_ax y) (Cx D) (hx f) a in let b0 := origin_of (y_fy y) (y_ay y) (Cy D) (hy f) b in
              (Q2Qc (sgn (sign f)) * F (comp y f) (if y_swap y then [b0; a0] else [a0; b0]))%Qc
  | _ => 0%Qc
  end.
Definition image_E := image (sign_E y) half_Ex half_Ey.
Definition image_B := image (sign_B y) half_Bx half_By.

(** Image of a particle: the place is fixed up to whole periods. *)
Definition carried (rev : bool) (shift N : Z) (d : Q) (x x' : option Q) : Prop :=
  match x, x' with
  | Some v, Some v' => exists k, (v' == sgn rev * v + inject_Z (shift + k * N) * d)%Q
  | None, None => True
  | _, _ => False
  end.
Definition image6 (v : six Q) : six Q :=
  let e0 := s_ex v in let e1 := s_ey v in let b0 := s_bx v in let b1 := s_by v in
  mkSix (sgn (sign_E y 0) * (if y_swap y then e1 else e0))%Q (sgn (sign_E y 1) * (if y_swap y then e0 else e1))%Q (sgn (sign_E y 2) * s_ez v)%Q
        (sgn (sign_B y 0) * (if y_swap y then b1 else b0))%Q (sgn (sign_B y 1) * (if y_swap y then b0 else b1))%Q (sgn (sign_B y 2) * s_bz v)%Q.
Definition image_row (r r' : prow body) : Prop :=
  let b := other _ r in let b' := other _ r' in
  carried (y_fx y) (y_ax y) (Cx D) (d_dx D) (if y_swap y then py _ r else px _ r) (px _ r') /\
  carried (y_fy y) (y_ay y) (Cy D) (d_dy D) (if y_swap y then px _ r else py _ r) (py _ r') /\
  (b_ux b' == sgn (y_fx y) * (if y_swap y then b_uy b else b_ux b))%Q /\ (b_uy b' == sgn (y_fy y) * (if y_swap y then b_ux b else b_uy b))%Q /\
  (b_uz b' == sgn (y_fz y) * b_uz b)%Q /\ (b_ig b' == b_ig b)%Q /\ (b_w b' == b_w b)%Q /\ same6 (b_f b') (image6 (b_f b)) /\ b_id b' = b_id b.
(** The particles of one species are the images of the others, in any order and any distribution over patches. *)
Definition image_particles (st st' : list (list prt)) : Prop := exists l, Permutation (particles st') l /\ Forall2 image_row (particles st) l.
End Image.
(** The charge is reversed if charges are. *)
Definition image_species (y : symmetry) (sp sp' : species) : Prop := (sp_q sp' == sgn (y_conj y) * sp_q sp)%Q /\ (sp_m sp' == sp_m sp)%Q.
(** The domain of the image: patches and guard cells may be chosen anew. *)
Definition image_domain (y : symmetry) (D D' : domain2) : Prop :=
  (if y_swap y then Cx D' = Cy D /\ Cy D' = Cx D /\ d_dx D' = d_dy D /\ d_dy D' = d_dx D
   else Cx D' = Cx D /\ Cy D' = Cy D /\ d_dx D' = d_dx D /\ d_dy D' = d_dy D) /\ d_dt D' = d_dt D.
(** [s'] holds the image of the fields, currents and particles of [s]. *)
Definition image_state (y : symmetry) (D D' : domain2) (s s' : state2) : Prop :=
  (exists F, field_is D F (t_E s) /\ field_is D' (image_E y D' F) (t_E s')) /\
  (exists F, field_is D F (t_B s) /\ field_is D' (image_B y D' F) (t_B s')) /\
  (exists F, currents_are D F (t_J s) /\ currents_are D' (image_E y D' F) (t_J s')) /\
  Forall2 (image_particles y D') (t_parts s) (t_parts s').
