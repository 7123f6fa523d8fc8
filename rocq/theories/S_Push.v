(** Vocabulary for the statements about interpolation and the particle push. *)
From Coq Require Import QArith Qround.
From Verif Require Import Base M_Deposit S_Deposit M_Push.
Local Open Scope Q_scope.

(** Share of grid point [a] (spline weight, on an axis of [n] points where index -1 is the last point) for a particle
    at [X] cells: [share] of S_Deposit on the integers within two cells of [X]. *)
Definition weight (n a : Z) (X : Q) : Q := share n a X (Qfloor X - 2) 6.

(** Spline-weighted mean of the values of an array around (X, Y). *)
Definition mean2 (nx ny : Z) (field : list Q) (X Y : Q) : Q :=
  qsum (fun a => qsum (fun b => weight nx a X * weight ny b Y * nth (Z.to_nat (a * ny + b)) field 0) (points ny)) (points nx).
Definition mean3 (nx ny nz : Z) (field : list Q) (X Y Z : Q) : Q :=
  qsum (fun a => qsum (fun b => qsum (fun c =>
    weight nx a X * weight ny b Y * weight nz c Z * nth (Z.to_nat (a * (ny * nz) + b * nz + c)) field 0)
    (points nz)) (points ny)) (points nx).

(** All six arrays have [n] elements; all six arrays hold the values of [v] everywhere. *)
Definition sizes (n : Z) (F : six (list Q)) : Prop :=
  let ok l := Z.of_nat (length l) = n in
  ok (s_ex F) /\ ok (s_ey F) /\ ok (s_ez F) /\ ok (s_bx F) /\ ok (s_by F) /\ ok (s_bz F).
Definition uniform (F : six (list Q)) (v : six Q) : Prop :=
  let ok l q := forall x, In x l -> x == q in
  ok (s_ex F) (s_ex v) /\ ok (s_ey F) (s_ey v) /\ ok (s_ez F) (s_ez v) /\
  ok (s_bx F) (s_bx v) /\ ok (s_by F) (s_by v) /\ ok (s_bz F) (s_bz v).
Definition same6 (v w : six Q) : Prop :=
  s_ex v == s_ex w /\ s_ey v == s_ey w /\ s_ez v == s_ez w /\ s_bx v == s_bx w /\ s_by v == s_by w /\ s_bz v == s_bz w.

(** [X] cells along an axis of [n] points: the three points around [X] exist, counting from the end for negative ones. *)
Definition stencil_inside (n : Z) (X : Q) : Prop := inject_Z (1 - n) <= X /\ X + (1#2) < inject_Z (n - 1).

(** No live particle has an undefined coordinate. *)
Definition defined_when_alive (l : list slot) : Prop := forall s, In s l -> p_dead (l_p s) = false -> p_nan (l_p s) = false.

(** ** Vectors over the reals *)
From Coq Require Import Reals.
Definition Rnums : nums R := {| n_add := Rplus; n_sub := Rminus; n_mul := Rmult; n_div := Rdiv; n_1 := 1%R; n_2 := 2%R; n_rsqrt := fun x => (/ sqrt x)%R |}.
Definition norm2 (u : vec R) : R := let '(x, y, z) := u in (x * x + y * y + z * z)%R.
Definition dot (u v : vec R) : R := let '(x, y, z) := u in let '(x', y', z') := v in (x * x' + y * y' + z * z')%R.
(** the Lorentz factor of a momentum (in units of mc) *)
Definition gamma (u : vec R) : R := sqrt (1 + norm2 u).
Definition vadd (u v : vec R) : vec R := let '(x, y, z) := u in let '(a, b, c) := v in (x + a, y + b, z + c)%R.
Definition vscale (k : R) (u : vec R) : vec R := let '(x, y, z) := u in (k * x, k * y, k * z)%R.
Definition cross (u v : vec R) : vec R :=
  let '(x, y, z) := u in let '(a, b, c) := v in (y * c - z * b, z * a - x * c, x * b - y * a)%R.
