(** Vocabulary for the statements about deposition; independent of the kernels. *)
From Coq Require Import QArith Qabs.
From Verif Require Import Base.
Local Open Scope nat_scope.
Local Open Scope Q_scope.

Definition qsum {A} (f : A -> Q) (l : list A) : Q := fold_right (fun a s => f a + s) 0 l.

(** The integers lo, lo+1, ..., lo+len-1. *)
Definition zfrom (lo : Z) (len : nat) : list Z := map (fun k => (lo + Z.of_nat k)%Z) (seq 0 len).

(** The quadratic (second-order) spline: the share a particle at distance [d] cells gives to a
    grid point. *)
Definition spline (d : Q) : Q :=
  if Qle_bool (Qabs d) (1#2) then (3#4) - d * d
  else if Qle_bool (Qabs d) (3#2) then (1#2) * (((3#2) - Qabs d) * ((3#2) - Qabs d))
  else 0.

(** Share of grid point [a] on a periodic axis of [n] points, for a particle at [X] (in units
    of the spacing): the sum over all copies of [a] in the given stretch of integers. *)
Definition share (n a : Z) (X : Q) (lo : Z) (len : nat) : Q :=
  qsum (fun i => if (i mod n =? a)%Z then spline (inject_Z i - X) else 0) (zfrom lo len).

(** The stretch contains everything within two cells of [X]. *)
Definition covers (lo : Z) (len : nat) (X : Q) : Prop :=
  inject_Z lo <= X - 2 /\ X + 2 <= inject_Z (lo + Z.of_nat len).

(** ** Particles on a grid (records from the model) *)
From Verif Require Import M_Deposit.

(** Position in units of the spacing, [half] steps away from the stored (mid-step) position. *)
Definition scaled (x u ig x0 dx dt half : Q) : Q := (x + half * (u * LIGHT_SPEED * ig) * dt - x0) / dx.

Definition alive (ps : list part) : list part :=
  filter (fun p => negb (p_dead p) && negb (p_nan p)) ps.

Definition X2 (G : grid2) (dt half : Q) (p : part) : Q :=
  scaled (p_x p) (p_ux p) (p_ig p) (g_x0 G) (g_dx G) dt half.
Definition Y2 (G : grid2) (dt half : Q) (p : part) : Q :=
  scaled (p_y p) (p_uy p) (p_ig p) (g_y0 G) (g_dy G) dt half.

(** Charge density of one particle at grid point (a, b). *)
Definition density2 (G : grid2) (dt q : Q) (lo : Z) (len : nat) (half : Q) (a b : Z) (p : part) : Q :=
  q * p_w p / (g_dx G * g_dy G)
  * share (g_nx G) a (X2 G dt half p) lo len * share (g_ny G) b (Y2 G dt half p) lo len.

(** The particle moves at most one cell during the step, along each axis. *)
Definition one_cell (u ig dt dx : Q) : Prop := Qabs (u * LIGHT_SPEED * ig * dt) <= dx.

Definition slow2 (G : grid2) (dt : Q) (p : part) : Prop :=
  one_cell (p_ux p) (p_ig p) dt (g_dx G) /\ one_cell (p_uy p) (p_ig p) dt (g_dy G).

Definition covers2 (G : grid2) (dt : Q) (lo : Z) (len : nat) (p : part) : Prop :=
  forall half, half = 1#2 \/ half = -1#2 ->
    covers lo len (X2 G dt half p) /\ covers lo len (Y2 G dt half p).

Definition grid2_ok (G : grid2) : Prop :=
  (0 < g_nx G)%Z /\ (0 < g_ny G)%Z /\ 0 < g_dx G /\ 0 < g_dy G.

(** Flat index of grid point (a, b). *)
Definition at2 (G : grid2) (a b : Z) : Z := (b + a * g_ny G)%Z.

(** The [n] grid points of an axis. *)
Definition points (n : Z) : list Z := zfrom 0 (Z.to_nat n).

Definition total2 (G : grid2) (f : Z -> Q) : Q :=
  qsum (fun a => qsum (fun b => f (at2 G a b)) (points (g_ny G))) (points (g_nx G)).

(** ** Three dimensions *)
Definition X3 (G : grid3) (dt half : Q) (p : part) : Q :=
  scaled (p_x p) (p_ux p) (p_ig p) (h_x0 G) (h_dx G) dt half.
Definition Y3 (G : grid3) (dt half : Q) (p : part) : Q :=
  scaled (p_y p) (p_uy p) (p_ig p) (h_y0 G) (h_dy G) dt half.
Definition Z3 (G : grid3) (dt half : Q) (p : part) : Q :=
  scaled (p_z p) (p_uz p) (p_ig p) (h_z0 G) (h_dz G) dt half.

Definition density3 (G : grid3) (dt q : Q) (lo : Z) (len : nat) (half : Q) (a b c : Z) (p : part) : Q :=
  q * p_w p / (h_dx G * h_dy G * h_dz G)
  * share (h_nx G) a (X3 G dt half p) lo len * share (h_ny G) b (Y3 G dt half p) lo len
  * share (h_nz G) c (Z3 G dt half p) lo len.

Definition slow3 (G : grid3) (dt : Q) (p : part) : Prop :=
  one_cell (p_ux p) (p_ig p) dt (h_dx G) /\ one_cell (p_uy p) (p_ig p) dt (h_dy G)
  /\ one_cell (p_uz p) (p_ig p) dt (h_dz G).

Definition covers3 (G : grid3) (dt : Q) (lo : Z) (len : nat) (p : part) : Prop :=
  forall half, half = 1#2 \/ half = -1#2 ->
    covers lo len (X3 G dt half p) /\ covers lo len (Y3 G dt half p) /\ covers lo len (Z3 G dt half p).

Definition grid3_ok (G : grid3) : Prop :=
  (1 < h_nx G)%Z /\ (1 < h_ny G)%Z /\ (1 < h_nz G)%Z /\ 0 < h_dx G /\ 0 < h_dy G /\ 0 < h_dz G.

Definition at3 (G : grid3) (a b c : Z) : Z := (c + b * h_nz G + a * (h_ny G * h_nz G))%Z.

Definition total3 (G : grid3) (f : Z -> Q) : Q :=
  qsum (fun a => qsum (fun b => qsum (fun c => f (at3 G a b c))
    (points (h_nz G))) (points (h_ny G))) (points (h_nx G)).

(** The old position keeps the five-cell window of an axis of [n] points between index [-n]
    and [n-1], where a negative index denotes a cell counted from the end. *)
Definition window_inside (n : Z) (X : Q) : Prop :=
  inject_Z (2 - n) <= X /\ X < inject_Z n - (5#2).

Definition inside3 (G : grid3) (dt : Q) (p : part) : Prop :=
  window_inside (h_nx G) (X3 G dt (-1#2) p) /\ window_inside (h_ny G) (Y3 G dt (-1#2) p)
  /\ window_inside (h_nz G) (Z3 G dt (-1#2) p).
