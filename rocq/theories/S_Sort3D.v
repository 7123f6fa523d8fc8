(** Vocabulary for the 3D bucket sort; see S_Sort2D. *)
From Verif Require Import Base M_Sort2D S_Sort2D.

Definition cell_z {V} (d : V) (fz : V -> Z) (kz : nat) (s : store V) (i : nat) : Z := fz (nth i (nth kz (cols s) []) d).

(** Bucket of cell (ix,iy,iz): row-major cell number, x mirrored when [reverse]; particles outside of the grid belong to the
    last bucket, or to the nearest cell when [reverse]. *)
Definition home3 (nx ny nz : nat) (reverse : bool) (ix iy iz : Z) (b : nat) : Prop :=
  let X := Z.of_nat nx in let Y := Z.of_nat ny in let Zn := Z.of_nat nz in
  let inside := (0 <= ix < X /\ 0 <= iy < Y /\ 0 <= iz < Zn)%Z in
  (inside /\ Z.of_nat b = (iz + (iy + (if reverse then X - 1 - ix else ix) * Y) * Zn)%Z)
  \/ (~ inside /\ reverse = false /\ Z.of_nat b = (X * Y * Zn - 1)%Z)
  \/ (~ inside /\ reverse = true /\
      exists jx jy jz, jx = Z.max 0 (Z.min (X - 1) ix) /\ jy = Z.max 0 (Z.min (Y - 1) iy) /\ jz = Z.max 0 (Z.min (Zn - 1) iz) /\
                       Z.of_nat b = (jz + (jy + (X - 1 - jx) * Y) * Zn)%Z).
