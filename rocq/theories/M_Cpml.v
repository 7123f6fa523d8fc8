(** Model of the field solver with absorbing layers (core/boundary/cpml.py, core/maxwell/solver/solver.py).
    Values are an arbitrary type as in M_Maxwell; the exponential is an arbitrary function on it.
    Simplifications: the loops over the cells of a layer run in row-major order (the source nests them per axis and runs
    some of them in parallel; every iteration touches its own cell of the updated arrays); patches are updated one after
    another; the auxiliary arrays of the layer on side s of patch p are fields of patch p in a memory of their own. *)
From Verif Require Import Base M_Layout M_PartSync M_FieldSync M_Maxwell.
Local Open Scope Z_scope.

(** numbers used by the layers, and their parameters: thickness, kappa_max, a_max, sigma_maxval (cpml.py:23-67) *)
Record layer (V : Type) := { one_ : V; half_ : V; ofZ_ : Z -> V; exp_ : V -> V; thick : Z; kmax : V; amax : V; smax : V }.
Arguments one_ {V}. Arguments half_ {V}. Arguments ofZ_ {V}. Arguments exp_ {V}. Arguments thick {V}. Arguments kmax {V}. Arguments amax {V}. Arguments smax {V}.

Definition side_eqb (s t : pml_side) : bool :=
  match s, t with PXmin, PXmin | PXmax, PXmax | PYmin, PYmin | PYmax, PYmax | PZmin, PZmin | PZmax, PZmax => true | _, _ => false end.
(** the axis of a layer: PMLX, PMLY, PMLZ (cpml.py:135, 168, 205), and whether it is a class ..min *)
Definition axis_of (s : pml_side) : nat := match s with PXmin | PXmax => 0 | PYmin | PYmax => 1 | PZmin | PZmax => 2 end.
Definition is_min (s : pml_side) : bool := match s with PXmin | PYmin | PZmin => true | _ => false end.

Section Layer.
Context {V : Type} (A : arith V) (K : layer V).
Local Notation "x +. y" := (plus_ A x y) (at level 50, left associativity).
Local Notation "x -. y" := (minus_ A x y) (at level 50, left associativity).
Local Notation "x *. y" := (times_ A x y) (at level 40, left associativity).
Local Notation "x /. y" := (over_ A x y) (at level 40, left associativity).

(** [e] = true: electric field, efield_start/efield_end; false: magnetic field, bfield_start/bfield_end;
    n = cells of the patch along the axis (cpml.py:233-340) *)
Definition l_start (e : bool) (s : pml_side) (n : Z) : Z :=
  if is_min s then 0 else if e then n - thick K else n - thick K - 1.
Definition l_stop (e : bool) (s : pml_side) (n : Z) : Z :=
  if is_min s then thick K else if e then n else n - 1.
(** [pos] of element i of the slice; the ..max classes reverse the array (cpml.py:236, 243, 255, 262) *)
Definition pos_ (e : bool) (s : pml_side) (n i : Z) : V :=
  let k := i - l_start e s n in
  let k := if is_min s then k else thick K - 1 - k in
  one_ K -. (if e then ofZ_ K k else ofZ_ K k +. half_ K) /. ofZ_ K (thick K).
(** cpml.py:119-125: init_coefficents, cpml_m = 3, cpml_ma = 1 *)
Definition pos3 (e : bool) (s : pml_side) (n i : Z) : V := let x := pos_ e s n i in x *. x *. x.
Definition kappa_in (e : bool) (s : pml_side) (n i : Z) : V := one_ K +. (kmax K -. one_ K) *. pos3 e s n i.
Definition sigma_in (e : bool) (s : pml_side) (n i : Z) : V := smax K *. pos3 e s n i.
Definition a_in (e : bool) (s : pml_side) (n i : Z) : V := amax K *. (one_ K -. pos_ e s n i).
Definition in_range (e : bool) (s : pml_side) (n i : Z) : bool := (l_start e s n <=? i) && (i <? l_stop e s n).
(** kappa_ex, kappa_ey, kappa_ez (kappa_bx ..) of a layer: ones except in its slice (cpml.py:84-108) *)
Definition kappa_arr (e : bool) (s : pml_side) (a : nat) (n i : Z) : V :=
  if (axis_of s =? a)%nat && in_range e s n i then kappa_in e s n i else one_ K.
(** solver.py:80-113: generate_kappa_lists: starts from the first layer of the patch, every layer sets the array of its axis *)
Definition kappa_list (e : bool) (l : list pml_side) (a : nat) (n : Z) : Z -> V :=
  match l with
  | [] => fun _ => one_ K
  | s0 :: _ => fold_left (fun k s => if (axis_of s =? a)%nat then kappa_arr e s a n else k) l (kappa_arr e s0 a n)
  end.

(** the coefficients of the recursion at a position: cpml.py:535-539 and the same lines of the other nine kernels *)
Definition bcoeff (e : bool) (s : pml_side) (n i : Z) (dt : V) : V :=
  exp_ K (minus1_ A (sigma_in e s n i /. kappa_in e s n i +. a_in e s n i) *. dt).
Definition ccoeff (e : bool) (s : pml_side) (n i : Z) (dt d : V) : V :=
  (bcoeff e s n i dt -. one_ K) *. sigma_in e s n i /. kappa_in e s n i /. (sigma_in e s n i +. kappa_in e s n i *. a_in e s n i) /. d.
(** cpml.py:530-730: which difference (component) drives the auxiliary array of component f of a layer across axis a, and
    whether the component gains (true) or loses (false) fac * psi *)
Definition psi_e (a f : nat) : option (nat * bool) :=
  match a, f with
  | 0, 1 => Some (2, false) | 0, 2 => Some (1, true)
  | 1, 0 => Some (2, true) | 1, 2 => Some (0, false)
  | 2, 0 => Some (1, false) | 2, 1 => Some (0, true)
  | _, _ => None
  end%nat.
Definition psi_b (a f : nat) : option (nat * bool) :=
  match a, f with
  | 0, 1 => Some (2, true) | 0, 2 => Some (1, false)
  | 1, 0 => Some (2, false) | 1, 2 => Some (0, true)
  | 2, 0 => Some (1, true) | 2, 1 => Some (0, false)
  | _, _ => None
  end%nat.
Definition psi_of (e : bool) : nat -> nat -> option (nat * bool) := if e then psi_e else psi_b.

Definition unit_ (dim a : nat) (x : Z) : list Z := map (fun i => if (i =? a)%nat then x else 0) (seq 0 dim).
Section Patch.
Variables (ns : list Z) (ng : Z) (ds : list V).
Definition size_ (a : nat) : Z := nth a ns 0.
Definition cell_ (f p : nat) (c : list Z) : addr := Fld f p (index (extents ns ng) c).
(** element of an auxiliary array, which has no guard cells: np.zeros(self.dimensions) (cpml.py:138-141) *)
Definition pcell (f p : nat) (c : list Z) : addr := Fld f p (index ns c).
Definition coord (a : nat) (c : list Z) : Z := nth a c 0.
(** backward difference for the electric field, forward difference for the magnetic field *)
Definition diff_ (e : bool) (a : nat) (mO : memory V) (o p : nat) (c : list Z) : V :=
  if e then mO (cell_ o p c) -. mO (cell_ o p (add c (unit_ (List.length ns) a (-1))))
  else mO (cell_ o p (add c (unit_ (List.length ns) a 1))) -. mO (cell_ o p c).
Definition new_psi (e : bool) (s : pml_side) (dt : V) (mO : memory V) (o p : nat) (c : list Z) (v : V) : V :=
  let a := axis_of s in let n := size_ a in let i := coord a c in
  bcoeff e s n i dt *. v +. ccoeff e s n i dt (nth a ds (one_ K)) *. diff_ e a mO o p c.
Definition fac_ (e : bool) (dt : V) : V := if e then dt *. csq A else dt.
(** one cell of a layer: both auxiliary arrays, then both components *)
Definition advance_cell (e : bool) (s : pml_side) (dt : V) (mO : memory V) (p : nat) (st : memory V * memory V) (c : list Z) : memory V * memory V :=
  let '(m, q) := st in
  let q' := fold_left (fun q f => match psi_of e (axis_of s) f with
                                  | Some (o, _) => put (pcell f p c) (new_psi e s dt mO o p c (q (pcell f p c))) q
                                  | None => q end) [0%nat; 1%nat; 2%nat] q in
  let m' := fold_left (fun m f => match psi_of e (axis_of s) f with
                                  | Some (_, true) => put (cell_ f p c) (m (cell_ f p c) +. fac_ e dt *. q' (pcell f p c)) m
                                  | Some (_, false) => put (cell_ f p c) (m (cell_ f p c) -. fac_ e dt *. q' (pcell f p c)) m
                                  | None => m end) [0%nat; 1%nat; 2%nat] m in
  (m', q').
Definition in_layer_ (e : bool) (s : pml_side) (c : list Z) : bool := in_range e s (size_ (axis_of s)) (coord (axis_of s) c).
(** advance_e_currents / advance_b_currents of the layer on side s of patch p; psi: the auxiliary arrays by side *)
Definition advance (e : bool) (dt : V) (mO : memory V) (p : nat) (st : memory V * (pml_side -> memory V)) (s : pml_side) : memory V * (pml_side -> memory V) :=
  let '(m, psi) := st in
  let '(m', q) := fold_left (advance_cell e s dt mO p) (filter (in_layer_ e s) (block ns)) (m, psi s) in
  (m', fun t => if side_eqb t s then q else psi t).
End Patch.

(** cpml.py:342-360 *)
Section Two.
Variables (nx ny ng : Z) (dx dy : V).
Definition update_efield_cpml_2d (kx ky : Z -> V) (dt : V) (mB mJ mE : memory V) (p : nat) : memory V :=
  let bfactor := dt *. csq A in
  let jfactor := dt /. eps0 A in
  let at_ i j := at2d nx ny ng i j in
  let bx i j := mB (Fld 0 p (at_ i j)) in let by_ i j := mB (Fld 1 p (at_ i j)) in let bz i j := mB (Fld 2 p (at_ i j)) in
  let jx i j := mJ (Fld 0 p (at_ i j)) in let jy i j := mJ (Fld 1 p (at_ i j)) in let jz i j := mJ (Fld 2 p (at_ i j)) in
  fold_left (fun m i => fold_left (fun m j =>
    let m := bump A 0 p (at_ i j) (bfactor /. ky j *. ((bz i j -. bz i (j - 1)) /. dy) -. jfactor *. jx i j) m in
    let m := bump A 1 p (at_ i j) (bfactor /. kx i *. (minus1_ A (bz i j -. bz (i - 1) j) /. dx) -. jfactor *. jy i j) m in
    bump A 2 p (at_ i j) (bfactor /. kx i *. ((by_ i j -. by_ (i - 1) j) /. dx) -. bfactor /. ky j *. ((bx i j -. bx i (j - 1)) /. dy) -. jfactor *. jz i j) m)
    (zseq ny) m) (zseq nx) mE.
(** cpml.py:362-378 *)
Definition update_bfield_cpml_2d (kx ky : Z -> V) (dt : V) (mE mB : memory V) (p : nat) : memory V :=
  let at_ i j := at2d nx ny ng i j in
  let ex i j := mE (Fld 0 p (at_ i j)) in let ey i j := mE (Fld 1 p (at_ i j)) in let ez i j := mE (Fld 2 p (at_ i j)) in
  fold_left (fun m i => fold_left (fun m j =>
    let m := drop A 0 p (at_ i j) (dt /. ky j *. ((ez i (j + 1) -. ez i j) /. dy)) m in
    let m := drop A 1 p (at_ i j) (dt /. kx i *. (minus1_ A (ez (i + 1) j -. ez i j) /. dx)) m in
    drop A 2 p (at_ i j) (dt /. kx i *. ((ey (i + 1) j -. ey i j) /. dx) -. dt /. ky j *. ((ex i (j + 1) -. ex i j) /. dy)) m)
    (zseq ny) m) (zseq nx) mB.
(** solver.py:47-113, 143-167: the patches without layers, the patches with layers, then every layer of every patch;
    pmls p = pml_boundary of patch p *)
Definition has_pml (pmls : nat -> list pml_side) (p : nat) : bool := match pmls p with [] => false | _ => true end.
Definition solver_e2 (n : nat) (pmls : nat -> list pml_side) (dt : V) (mB mJ : memory V) (st : memory V * (pml_side -> memory V)) : memory V * (pml_side -> memory V) :=
  let '(mE, psi) := st in
  let m1 := fold_left (update_efield_2d A nx ny ng dx dy dt mB mJ) (filter (fun p => negb (has_pml pmls p)) (seq 0 n)) mE in
  let m2 := fold_left (fun m p => update_efield_cpml_2d (kappa_list true (pmls p) 0 nx) (kappa_list true (pmls p) 1 ny) dt mB mJ m p) (filter (has_pml pmls) (seq 0 n)) m1 in
  fold_left (fun st p => fold_left (advance [nx; ny] ng [dx; dy] true dt mB p) (pmls p) st) (filter (has_pml pmls) (seq 0 n)) (m2, psi).
(** solver.py:169-192 *)
Definition solver_b2 (n : nat) (pmls : nat -> list pml_side) (dt : V) (mE : memory V) (st : memory V * (pml_side -> memory V)) : memory V * (pml_side -> memory V) :=
  let '(mB, psi) := st in
  let m1 := fold_left (update_bfield_2d A nx ny ng dx dy dt mE) (filter (fun p => negb (has_pml pmls p)) (seq 0 n)) mB in
  let m2 := fold_left (fun m p => update_bfield_cpml_2d (kappa_list false (pmls p) 0 nx) (kappa_list false (pmls p) 1 ny) dt mE m p) (filter (has_pml pmls) (seq 0 n)) m1 in
  fold_left (fun st p => fold_left (advance [nx; ny] ng [dx; dy] false dt mE p) (pmls p) st) (filter (has_pml pmls) (seq 0 n)) (m2, psi).
End Two.

Section Three.
Variables (nx ny nz ng : Z) (dx dy dz : V).
(** cpml.py:430-452 *)
Definition update_efield_cpml_3d (kx ky kz : Z -> V) (dt : V) (mB mJ mE : memory V) (p : nat) : memory V :=
  let bfactor := dt *. csq A in
  let jfactor := dt /. eps0 A in
  let at_ i j k := at3d nx ny nz ng i j k in
  let bx i j k := mB (Fld 0 p (at_ i j k)) in let by_ i j k := mB (Fld 1 p (at_ i j k)) in let bz i j k := mB (Fld 2 p (at_ i j k)) in
  let jx i j k := mJ (Fld 0 p (at_ i j k)) in let jy i j k := mJ (Fld 1 p (at_ i j k)) in let jz i j k := mJ (Fld 2 p (at_ i j k)) in
  fold_left (fun m i => fold_left (fun m j => fold_left (fun m k =>
    let m := bump A 0 p (at_ i j k) (bfactor /. ky j *. (bz i j k -. bz i (j - 1) k) /. dy -. bfactor /. kz k *. (by_ i j k -. by_ i j (k - 1)) /. dz -. jfactor *. jx i j k) m in
    let m := bump A 1 p (at_ i j k) (bfactor /. kz k *. (bx i j k -. bx i j (k - 1)) /. dz -. bfactor /. kx i *. (bz i j k -. bz (i - 1) j k) /. dx -. jfactor *. jy i j k) m in
    bump A 2 p (at_ i j k) (bfactor /. kx i *. (by_ i j k -. by_ (i - 1) j k) /. dx -. bfactor /. ky j *. (bx i j k -. bx i (j - 1) k) /. dy -. jfactor *. jz i j k) m)
    (zseq nz) m) (zseq ny) m) (zseq nx) mE.
(** cpml.py:454-474 *)
Definition update_bfield_cpml_3d (kx ky kz : Z -> V) (dt : V) (mE mB : memory V) (p : nat) : memory V :=
  let at_ i j k := at3d nx ny nz ng i j k in
  let ex i j k := mE (Fld 0 p (at_ i j k)) in let ey i j k := mE (Fld 1 p (at_ i j k)) in let ez i j k := mE (Fld 2 p (at_ i j k)) in
  fold_left (fun m i => fold_left (fun m j => fold_left (fun m k =>
    let m := drop A 0 p (at_ i j k) (dt /. ky j *. (ez i (j + 1) k -. ez i j k) /. dy -. dt /. kz k *. (ey i j (k + 1) -. ey i j k) /. dz) m in
    let m := drop A 1 p (at_ i j k) (dt /. kz k *. (ex i j (k + 1) -. ex i j k) /. dz -. dt /. kx i *. (ez (i + 1) j k -. ez i j k) /. dx) m in
    drop A 2 p (at_ i j k) (dt /. kx i *. (ey (i + 1) j k -. ey i j k) /. dx -. dt /. ky j *. (ex i (j + 1) k -. ex i j k) /. dy) m)
    (zseq nz) m) (zseq ny) m) (zseq nx) mB.
(** solver.py:201-227 *)
Definition solver_e3 (n : nat) (pmls : nat -> list pml_side) (dt : V) (mB mJ : memory V) (st : memory V * (pml_side -> memory V)) : memory V * (pml_side -> memory V) :=
  let '(mE, psi) := st in
  let m1 := fold_left (update_efield_3d A nx ny nz ng dx dy dz dt mB mJ) (filter (fun p => negb (has_pml pmls p)) (seq 0 n)) mE in
  let m2 := fold_left (fun m p => update_efield_cpml_3d (kappa_list true (pmls p) 0 nx) (kappa_list true (pmls p) 1 ny) (kappa_list true (pmls p) 2 nz) dt mB mJ m p)
              (filter (has_pml pmls) (seq 0 n)) m1 in
  fold_left (fun st p => fold_left (advance [nx; ny; nz] ng [dx; dy; dz] true dt mB p) (pmls p) st) (filter (has_pml pmls) (seq 0 n)) (m2, psi).
(** solver.py:229-254 *)
Definition solver_b3 (n : nat) (pmls : nat -> list pml_side) (dt : V) (mE : memory V) (st : memory V * (pml_side -> memory V)) : memory V * (pml_side -> memory V) :=
  let '(mB, psi) := st in
  let m1 := fold_left (update_bfield_3d A nx ny nz ng dx dy dz dt mE) (filter (fun p => negb (has_pml pmls p)) (seq 0 n)) mB in
  let m2 := fold_left (fun m p => update_bfield_cpml_3d (kappa_list false (pmls p) 0 nx) (kappa_list false (pmls p) 1 ny) (kappa_list false (pmls p) 2 nz) dt mE m p)
              (filter (has_pml pmls) (seq 0 n)) m1 in
  fold_left (fun st p => fold_left (advance [nx; ny; nz] ng [dx; dy; dz] false dt mE p) (pmls p) st) (filter (has_pml pmls) (seq 0 n)) (m2, psi).
End Three.
End Layer.
