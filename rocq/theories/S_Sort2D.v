(** Specification vocabulary for the bucket sort (no reference to the algorithm). *)
From Verif Require Import Base M_Sort2D.

Section Spec.
Context {V : Type} (d : V).

(** What one slot holds: its dead flag and every attribute. *)
Definition row (s : store V) (i : nat) : bool * list V :=
  (nth i (dead s) true, map (fun c => nth i c d) (cols s)).
Definition rows (s : store V) : list (bool * list V) := map (row s) (seq 0 (length (dead s))).
Definition alive_at (s : store V) (i : nat) : Prop :=
  i < length (dead s) /\ nth i (dead s) true = false.

(** All arrays of a patch have the length of the flags array. *)
Definition rectangular (s : store V) : Prop := forall c, In c (cols s) -> length c = length (dead s).

(** Cell of the particle in slot [i], from attributes [kx] (x) and [ky] (y). *)
Definition cell_x (fx : V -> Z) (kx : nat) (s : store V) (i : nat) : Z := fx (nth i (nth kx (cols s) []) d).
Definition cell_y (fy : V -> Z) (ky : nat) (s : store V) (i : nat) : Z := fy (nth i (nth ky (cols s) []) d).
End Spec.

(** Bucket a particle of cell (ix,iy) belongs to: row-major cell number (x mirrored when
    [reverse]); out-of-grid particles belong to the last bucket, or to the nearest cell when
    [reverse]. *)
Definition home (nx ny : nat) (reverse : bool) (ix iy : Z) (b : nat) : Prop :=
  let X := Z.of_nat nx in let Y := Z.of_nat ny in
  let inside := (0 <= ix < X /\ 0 <= iy < Y)%Z in
  (inside /\ Z.of_nat b = (iy + (if reverse then X - 1 - ix else ix) * Y)%Z)
  \/ (~ inside /\ reverse = false /\ Z.of_nat b = (X * Y - 1)%Z)
  \/ (~ inside /\ reverse = true /\
      exists jx jy, jx = Z.max 0 (Z.min (X - 1) ix) /\ jy = Z.max 0 (Z.min (Y - 1) iy) /\
                    Z.of_nat b = (jy + (X - 1 - jx) * Y)%Z).
