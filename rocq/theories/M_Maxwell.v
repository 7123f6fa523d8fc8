(** Model of the field solver: the electric and magnetic updates of every patch (core/maxwell/cpu.py, solver.py).
    Memories hold the components x, y, z of one field as fields 0, 1, 2 of every patch (as in the guard exchange).
    Values are an arbitrary type with arithmetic operations, so that statements about rounding-free identities
    (a field) and about bitwise equality (any operations at all) use the same definitions.
    Simplification: the patches of the parallel loop are updated one after another; they have separate arrays. *)
From Verif Require Import Base M_Layout M_PartSync M_FieldSync.
Local Open Scope Z_scope.

(** arithmetic on field values and the physical constants c**2 and epsilon_0 *)
Record arith (V : Type) := { plus_ : V -> V -> V; minus_ : V -> V -> V; times_ : V -> V -> V; over_ : V -> V -> V; minus1_ : V -> V;
                             csq : V; eps0 : V }.
Arguments plus_ {V}. Arguments minus_ {V}. Arguments times_ {V}. Arguments over_ {V}. Arguments minus1_ {V}. Arguments csq {V}. Arguments eps0 {V}.

Section Solver.
Context {V : Type} (A : arith V).
Local Notation "x +. y" := (plus_ A x y) (at level 50, left associativity).
Local Notation "x -. y" := (minus_ A x y) (at level 50, left associativity).
Local Notation "x *. y" := (times_ A x y) (at level 40, left associativity).
Local Notation "x /. y" := (over_ A x y) (at level 40, left associativity).

(** field[i, j] += v ; numpy indexing: a negative index counts from the end *)
Definition bump (f p : nat) (o : Z) (v : V) (m : memory V) : memory V := put (Fld f p o) (m (Fld f p o) +. v) m.
(** field[i, j] -= v *)
Definition drop (f p : nat) (o : Z) (v : V) (m : memory V) : memory V := put (Fld f p o) (m (Fld f p o) -. v) m.

Section Two.
Variables (nx ny ng : Z) (dx dy : V).
Definition at2d (i j : Z) : Z := index [nx + 2 * ng; ny + 2 * ng] [i; j].
(** maxwell/cpu.py:9-23: update_efield_2d *)
Definition update_efield_2d (dt : V) (mB mJ : memory V) (mE : memory V) (p : nat) : memory V :=
  let bfactor := dt *. csq A in
  let jfactor := dt /. eps0 A in
  let bx i j := mB (Fld 0 p (at2d i j)) in let by_ i j := mB (Fld 1 p (at2d i j)) in let bz i j := mB (Fld 2 p (at2d i j)) in
  let jx i j := mJ (Fld 0 p (at2d i j)) in let jy i j := mJ (Fld 1 p (at2d i j)) in let jz i j := mJ (Fld 2 p (at2d i j)) in
  fold_left (fun m i => fold_left (fun m j =>
    let m := bump 0 p (at2d i j) (bfactor *. ((bz i j -. bz i (j - 1)) /. dy) -. jfactor *. jx i j) m in
    let m := bump 1 p (at2d i j) (bfactor *. (minus1_ A (bz i j -. bz (i - 1) j) /. dx) -. jfactor *. jy i j) m in
    bump 2 p (at2d i j) (bfactor *. ((by_ i j -. by_ (i - 1) j) /. dx -. (bx i j -. bx i (j - 1)) /. dy) -. jfactor *. jz i j) m)
    (zseq ny) m) (zseq nx) mE.
(** maxwell/cpu.py:25-35: update_bfield_2d *)
Definition update_bfield_2d (dt : V) (mE : memory V) (mB : memory V) (p : nat) : memory V :=
  let ex i j := mE (Fld 0 p (at2d i j)) in let ey i j := mE (Fld 1 p (at2d i j)) in let ez i j := mE (Fld 2 p (at2d i j)) in
  fold_left (fun m i => fold_left (fun m j =>
    let m := drop 0 p (at2d i j) (dt *. ((ez i (j + 1) -. ez i j) /. dy)) m in
    let m := drop 1 p (at2d i j) (dt *. (minus1_ A (ez (i + 1) j -. ez i j) /. dx)) m in
    drop 2 p (at2d i j) (dt *. ((ey (i + 1) j -. ey i j) /. dx -. (ex i (j + 1) -. ex i j) /. dy)) m)
    (zseq ny) m) (zseq nx) mB.
(** maxwell/cpu.py:37-79, solver.py:143-152, 169-177: all patches (none of them has an absorbing layer) *)
Definition update_efield2 (n : nat) (dt : V) (mB mJ mE : memory V) : memory V := fold_left (update_efield_2d dt mB mJ) (seq 0 n) mE.
Definition update_bfield2 (n : nat) (dt : V) (mE mB : memory V) : memory V := fold_left (update_bfield_2d dt mE) (seq 0 n) mB.
End Two.

Section Three.
Variables (nx ny nz ng : Z) (dx dy dz : V).
Definition at3d (i j k : Z) : Z := index [nx + 2 * ng; ny + 2 * ng; nz + 2 * ng] [i; j; k].
(** maxwell/cpu.py:82-97: update_efield_3d *)
Definition update_efield_3d (dt : V) (mB mJ : memory V) (mE : memory V) (p : nat) : memory V :=
  let bfactor := dt *. csq A in
  let jfactor := dt /. eps0 A in
  let bx i j k := mB (Fld 0 p (at3d i j k)) in let by_ i j k := mB (Fld 1 p (at3d i j k)) in let bz i j k := mB (Fld 2 p (at3d i j k)) in
  let jx i j k := mJ (Fld 0 p (at3d i j k)) in let jy i j k := mJ (Fld 1 p (at3d i j k)) in let jz i j k := mJ (Fld 2 p (at3d i j k)) in
  fold_left (fun m i => fold_left (fun m j => fold_left (fun m k =>
    let m := bump 0 p (at3d i j k) (bfactor *. ((bz i j k -. bz i (j - 1) k) /. dy -. (by_ i j k -. by_ i j (k - 1)) /. dz) -. jfactor *. jx i j k) m in
    let m := bump 1 p (at3d i j k) (bfactor *. ((bx i j k -. bx i j (k - 1)) /. dz -. (bz i j k -. bz (i - 1) j k) /. dx) -. jfactor *. jy i j k) m in
    bump 2 p (at3d i j k) (bfactor *. ((by_ i j k -. by_ (i - 1) j k) /. dx -. (bx i j k -. bx i (j - 1) k) /. dy) -. jfactor *. jz i j k) m)
    (zseq nz) m) (zseq ny) m) (zseq nx) mE.
(** maxwell/cpu.py:100-112: update_bfield_3d *)
Definition update_bfield_3d (dt : V) (mE : memory V) (mB : memory V) (p : nat) : memory V :=
  let ex i j k := mE (Fld 0 p (at3d i j k)) in let ey i j k := mE (Fld 1 p (at3d i j k)) in let ez i j k := mE (Fld 2 p (at3d i j k)) in
  fold_left (fun m i => fold_left (fun m j => fold_left (fun m k =>
    let m := drop 0 p (at3d i j k) (dt *. ((ez i (j + 1) k -. ez i j k) /. dy -. (ey i j (k + 1) -. ey i j k) /. dz)) m in
    let m := drop 1 p (at3d i j k) (dt *. ((ex i j (k + 1) -. ex i j k) /. dz -. (ez (i + 1) j k -. ez i j k) /. dx)) m in
    drop 2 p (at3d i j k) (dt *. ((ey (i + 1) j k -. ey i j k) /. dx -. (ex i (j + 1) k -. ex i j k) /. dy)) m)
    (zseq nz) m) (zseq ny) m) (zseq nx) mB.
(** maxwell/cpu.py:115-158, solver.py:201-211, 229-238 *)
Definition update_efield3 (n : nat) (dt : V) (mB mJ mE : memory V) : memory V := fold_left (update_efield_3d dt mB mJ) (seq 0 n) mE.
Definition update_bfield3 (n : nat) (dt : V) (mE mB : memory V) : memory V := fold_left (update_bfield_3d dt mE) (seq 0 n) mB.
End Three.
End Solver.
