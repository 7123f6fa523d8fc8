(** Vocabulary for C128: writes to arrays of a given size, and particles in the cells of a patch. *)
From Coq Require Import QArith Qabs.
From Verif Require Import Base M_Deposit.
Local Open Scope Z_scope.

(** nothing outside of the first [n] entries is written *)
Definition only_inside (n : Z) (A A' : arrays) : Prop :=
  forall i, i < 0 \/ n <= i -> a_jx A' i = a_jx A i /\ a_jy A' i = a_jy A i /\ a_jz A' i = a_jz A i /\ a_rho A' i = a_rho A i.

(** the position [x] lies in the [n] cells of width [dx] whose first centre is [x0]; the velocity [v] covers at most a cell in [dt] *)
Definition in_patch_cells (n : Z) (dx x0 x : Q) : Prop := (- (dx / 2) <= x - x0 /\ x - x0 <= inject_Z n * dx - dx / 2)%Q.
Definition at_most_a_cell (dx dt v : Q) : Prop := (Qabs (v * dt) <= dx)%Q.
(** a particle the staged 3D deposition meets: in the n x m x l cells of the patch, and not faster than a cell per step along each axis *)
Definition ready_3d (G : grid3) (n m l : Z) (dt : Q) (p : part) : Prop :=
  in_patch_cells n (h_dx G) (h_x0 G) (p_x p) /\ in_patch_cells m (h_dy G) (h_y0 G) (p_y p) /\ in_patch_cells l (h_dz G) (h_z0 G) (p_z p) /\
  at_most_a_cell (h_dx G) dt (vel (p_ux p) (p_ig p)) /\ at_most_a_cell (h_dy G) dt (vel (p_uy p) (p_ig p)) /\ at_most_a_cell (h_dz G) dt (vel (p_uz p) (p_ig p)).
(** a position reached within half a step from the cells of the patch *)
Definition half_a_step (n : Z) (dx x0 x : Q) : Prop := (- dx <= x - x0 /\ x - x0 <= inject_Z n * dx)%Q.
