(** Model of field interpolation and of the particle push, staged and fused.

    Sources: src/lambdapic/core/interpolation/cpu2d.c and cpu3d.c (staged interpolation),
    core/pusher/boris.py, core/pusher/cpu.py, core/pusher/pusher.py (staged push),
    core/pusher/unified/unified_pusher_2d.c and unified_pusher_3d.c (fused push),
    simulation/simulation.py:984-1034 (order of the stages).

    Numbers are rationals (exact arithmetic); [1.0 / sqrt(.)] is a parameter [rsqrt].  The momentum push is
    written over any type of numbers so that it is also available over the reals.  A field array is read
    through [rd], which fails outside the allocation ([None]: out-of-bounds read).  Particle arrays are lists
    of records; NaN coordinates are the flag [p_nan] of M_Deposit. *)
From Coq Require Import QArith Qround.
From Verif Require Import Base M_Deposit.
Local Open Scope Q_scope.

(** * Momentum push *)
Section Boris.
Context {V : Type}.
(** numbers: arithmetic, the constants 1 and 2, and 1/sqrt *)
Record nums := { n_add : V -> V -> V; n_sub : V -> V -> V; n_mul : V -> V -> V; n_div : V -> V -> V; n_1 : V; n_2 : V; n_rsqrt : V -> V }.
Variable N : nums.
Local Notation "x +. y" := (n_add N x y) (at level 50, left associativity).
Local Notation "x -. y" := (n_sub N x y) (at level 50, left associativity).
Local Notation "x *. y" := (n_mul N x y) (at level 40, left associativity).
Local Notation "x /. y" := (n_div N x y) (at level 40, left associativity).
Definition vec : Type := (V * V * V)%type.
(** 1 + x*x + y*y + z*z, as written in both languages ([x**2] of boris.py is [x*x]) *)
Definition one_plus_sq (v : vec) : V := let '(x, y, z) := v in n_1 N +. x *. x +. y *. y +. z *. z.
(** boris.py:6-38 [boris_inline] and unified_pusher_2d.c:16-50, unified_pusher_3d.c:16-50 [boris] once the two factors
    are computed: the same operations in the same order *)
Definition boris_core (efactor bfactor : V) (u E B : vec) : vec * V :=
  let '(ux, uy, uz) := u in let '(Ex, Ey, Ez) := E in let '(Bx, By, Bz) := B in
  let ux_minus := ux +. efactor *. Ex in
  let uy_minus := uy +. efactor *. Ey in
  let uz_minus := uz +. efactor *. Ez in
  let inv_gamma_minus := n_rsqrt N (one_plus_sq (ux_minus, uy_minus, uz_minus)) in
  let Tx := bfactor *. Bx *. inv_gamma_minus in
  let Ty := bfactor *. By *. inv_gamma_minus in
  let Tz := bfactor *. Bz *. inv_gamma_minus in
  let ux_prime := ux_minus +. uy_minus *. Tz -. uz_minus *. Ty in
  let uy_prime := uy_minus +. uz_minus *. Tx -. ux_minus *. Tz in
  let uz_prime := uz_minus +. ux_minus *. Ty -. uy_minus *. Tx in
  let Tfactor := n_2 N /. one_plus_sq (Tx, Ty, Tz) in
  let Sx := Tfactor *. Tx in
  let Sy := Tfactor *. Ty in
  let Sz := Tfactor *. Tz in
  let ux_plus := ux_minus +. uy_prime *. Sz -. uz_prime *. Sy in
  let uy_plus := uy_minus +. uz_prime *. Sx -. ux_prime *. Sz in
  let uz_plus := uz_minus +. ux_prime *. Sy -. uy_prime *. Sx in
  let new := (ux_plus +. efactor *. Ex, uy_plus +. efactor *. Ey, uz_plus +. efactor *. Ez) in
  (new, n_rsqrt N (one_plus_sq new)).
(** boris.py:8-9: efactor = q*dt/(2*m*c), bfactor = q*dt/(2*m); unified_pusher_2d.c:246-247 the same *)
Definition boris_inline (c q m dt : V) (u E B : vec) : vec * V :=
  boris_core (q *. dt /. (n_2 N *. m *. c)) (q *. dt /. (n_2 N *. m)) u E B.
End Boris.
Arguments nums : clear implicits.
Arguments vec : clear implicits.

(** rational numbers *)
Section Rational.
Variable rsqrt : Q -> Q.
Definition Qnums : nums Q := {| n_add := Qplus; n_sub := Qminus; n_mul := Qmult; n_div := Qdiv; n_1 := 1; n_2 := 2; n_rsqrt := rsqrt |}.

(** * Interpolation *)

(** a read of the array at a flat index; outside the allocation it fails *)
Definition rd (field : list Q) (o : Z) : option Q := if (o <? 0)%Z then None else nth_error field (Z.to_nat o).
Definition obind {A B} (x : option A) (f : A -> option B) : option B := match x with Some a => f a | None => None end.

(** cpu2d.c:7-12, cpu3d.c:7-12, unified_pusher_2d.c:63-68, unified_pusher_3d.c:65-70 [get_gx] *)
Definition get_gx (delta : Q) : Q * Q * Q :=
  let delta2 := delta * delta in
  ((1#2) * ((1#4) + delta2 + delta), (3#4) - delta2, (1#2) * ((1#4) + delta2 - delta)).
(** fac[0]*a + fac[1]*b + fac[2]*c *)
Definition comb3 (fac : Q * Q * Q) (a b c : option Q) : option Q :=
  let '(f0, f1, f2) := fac in
  obind a (fun a => obind b (fun b => obind c (fun c => Some (f0 * a + f1 * b + f2 * c)))).

(** cutils.h:18-21 [INDEX2], 23-26 [INDEX3] *)
Definition INDEX2 (nx ny i j : Z) : Z :=
  ((if 0 <=? j then j else j + ny) + (if 0 <=? i then i else i + nx) * ny)%Z.
Definition INDEX3 (nx ny nz i j k : Z) : Z :=
  ((if 0 <=? k then k else k + nz) + (if 0 <=? j then j else j + ny) * nz + (if 0 <=? i then i else i + nx) * ny * nz)%Z.

(** cpu2d.c:18-30 [interp_field], unified_pusher_2d.c:71-83 [interp_field_safe] *)
Definition interp_field_2d (nx ny : Z) (field : list Q) (fac1 fac2 : Q * Q * Q) (ix iy : Z) : option Q :=
  let row j := comb3 fac1 (rd field (INDEX2 nx ny (ix - 1) j)) (rd field (INDEX2 nx ny ix j)) (rd field (INDEX2 nx ny (ix + 1) j)) in
  comb3 fac2 (row (iy - 1)%Z) (row iy) (row (iy + 1)%Z).
(** unified_pusher_2d.c:85-94 [interp_field_fast]: no wrapping of negative indices *)
Definition interp_field_fast_2d (ny : Z) (field : list Q) (fac1 fac2 : Q * Q * Q) (ix iy : Z) : option Q :=
  let row j := comb3 fac1 (rd field ((ix - 1) * ny + j)%Z) (rd field (ix * ny + j)%Z) (rd field ((ix + 1) * ny + j)%Z) in
  comb3 fac2 (row (iy - 1)%Z) (row iy) (row (iy + 1)%Z).
(** cpu3d.c:14-51 [interp_field], unified_pusher_3d.c:73-110 [interp_field_safe_3d] *)
Definition interp_field_3d (nx ny nz : Z) (field : list Q) (facx facy facz : Q * Q * Q) (ix iy iz : Z) : option Q :=
  let row j k := comb3 facx (rd field (INDEX3 nx ny nz (ix - 1) j k)) (rd field (INDEX3 nx ny nz ix j k)) (rd field (INDEX3 nx ny nz (ix + 1) j k)) in
  let plane k := comb3 facy (row (iy - 1)%Z k) (row iy k) (row (iy + 1)%Z k) in
  comb3 facz (plane (iz - 1)%Z) (plane iz) (plane (iz + 1)%Z).
(** unified_pusher_3d.c:112-150 [interp_field_fast_3d] *)
Definition interp_field_fast_3d (ny nz : Z) (field : list Q) (facx facy facz : Q * Q * Q) (ix iy iz : Z) : option Q :=
  let row j k := comb3 facx (rd field ((ix - 1) * (ny * nz) + j * nz + k)%Z) (rd field (ix * (ny * nz) + j * nz + k)%Z) (rd field ((ix + 1) * (ny * nz) + j * nz + k)%Z) in
  let plane k := comb3 facy (row (iy - 1)%Z k) (row iy k) (row (iy + 1)%Z k) in
  comb3 facz (plane (iz - 1)%Z) (plane iz) (plane (iz + 1)%Z).

(** the six arrays of a patch and the six values of a particle, in the order ex ey ez bx by bz *)
Record six (A : Type) := mkSix { s_ex : A; s_ey : A; s_ez : A; s_bx : A; s_by : A; s_bz : A }.
Arguments mkSix {A}. Arguments s_ex {A}. Arguments s_ey {A}. Arguments s_ez {A}. Arguments s_bx {A}. Arguments s_by {A}. Arguments s_bz {A}.
Definition all6 {A} (r : six (option A)) : option (six A) :=
  obind (s_ex r) (fun a => obind (s_ey r) (fun b => obind (s_ez r) (fun c =>
  obind (s_bx r) (fun d => obind (s_by r) (fun e => obind (s_bz r) (fun f => Some (mkSix a b c d e f))))))).

(** cpu2d.c:47-69 / unified_pusher_2d.c:140-156 (the wrapped path), from the position in cells *)
Definition interp_at_2d (nx ny : Z) (F : six (list Q)) (x_over_dx y_over_dy : Q) : option (six Q) :=
  let ix1 := Qfloor (x_over_dx + (1#2)) in let gx := get_gx (inject_Z ix1 - x_over_dx) in
  let ix2 := Qfloor x_over_dx in let hx := get_gx (inject_Z ix2 - x_over_dx + (1#2)) in
  let iy1 := Qfloor (y_over_dy + (1#2)) in let gy := get_gx (inject_Z iy1 - y_over_dy) in
  let iy2 := Qfloor y_over_dy in let hy := get_gx (inject_Z iy2 - y_over_dy + (1#2)) in
  all6 (mkSix
    (interp_field_2d nx ny (s_ex F) hx gy ix2 iy1) (interp_field_2d nx ny (s_ey F) gx hy ix1 iy2) (interp_field_2d nx ny (s_ez F) gx gy ix1 iy1)
    (interp_field_2d nx ny (s_bx F) gx hy ix1 iy2) (interp_field_2d nx ny (s_by F) hx gy ix2 iy1) (interp_field_2d nx ny (s_bz F) hx hy ix2 iy2)).
(** unified_pusher_2d.c:117-121: the test for the fast path; [(int)] truncates *)
Definition use_fast_2d (nx ny : Z) (x_over_dx y_over_dy : Q) : bool :=
  let ok n i := ((0 <? i) && (i <? n - 1))%Z in
  ok nx (ctrunc x_over_dx) && ok nx (ctrunc (x_over_dx + (1#2))) && ok ny (ctrunc y_over_dy) && ok ny (ctrunc (y_over_dy + (1#2))).
(** unified_pusher_2d.c:111-157 [interpolation_2d] *)
Definition interp_fused_at_2d (nx ny : Z) (F : six (list Q)) (x_over_dx y_over_dy : Q) : option (six Q) :=
  if use_fast_2d nx ny x_over_dx y_over_dy then
    let ix1 := ctrunc (x_over_dx + (1#2)) in let gx := get_gx (inject_Z ix1 - x_over_dx) in
    let ix2 := ctrunc x_over_dx in let hx := get_gx (inject_Z ix2 - x_over_dx + (1#2)) in
    let iy1 := ctrunc (y_over_dy + (1#2)) in let gy := get_gx (inject_Z iy1 - y_over_dy) in
    let iy2 := ctrunc y_over_dy in let hy := get_gx (inject_Z iy2 - y_over_dy + (1#2)) in
    all6 (mkSix
      (interp_field_fast_2d ny (s_ex F) hx gy ix2 iy1) (interp_field_fast_2d ny (s_ey F) gx hy ix1 iy2) (interp_field_fast_2d ny (s_ez F) gx gy ix1 iy1)
      (interp_field_fast_2d ny (s_bx F) gx hy ix1 iy2) (interp_field_fast_2d ny (s_by F) hx gy ix2 iy1) (interp_field_fast_2d ny (s_bz F) hx hy ix2 iy2))
  else interp_at_2d nx ny F x_over_dx y_over_dy.
(** cpu2d.c:44-45: division; unified_pusher_2d.c:109-110: multiplication by the precomputed inverse (252-253) *)
Definition interpolation_2d (G : grid2) (F : six (list Q)) (x y : Q) : option (six Q) :=
  interp_at_2d (g_nx G) (g_ny G) F ((x - g_x0 G) / g_dx G) ((y - g_y0 G) / g_dy G).
Definition interpolation_fused_2d (G : grid2) (F : six (list Q)) (x y : Q) : option (six Q) :=
  interp_fused_at_2d (g_nx G) (g_ny G) F ((x - g_x0 G) * (1 / g_dx G)) ((y - g_y0 G) * (1 / g_dy G)).

(** cpu3d.c:72-97 / unified_pusher_3d.c:202-221 *)
Definition interp_at_3d (nx ny nz : Z) (F : six (list Q)) (x_over_dx y_over_dy z_over_dz : Q) : option (six Q) :=
  let ix1 := Qfloor (x_over_dx + (1#2)) in let gx := get_gx (inject_Z ix1 - x_over_dx) in
  let ix2 := Qfloor x_over_dx in let hx := get_gx (inject_Z ix2 - x_over_dx + (1#2)) in
  let iy1 := Qfloor (y_over_dy + (1#2)) in let gy := get_gx (inject_Z iy1 - y_over_dy) in
  let iy2 := Qfloor y_over_dy in let hy := get_gx (inject_Z iy2 - y_over_dy + (1#2)) in
  let iz1 := Qfloor (z_over_dz + (1#2)) in let gz := get_gx (inject_Z iz1 - z_over_dz) in
  let iz2 := Qfloor z_over_dz in let hz := get_gx (inject_Z iz2 - z_over_dz + (1#2)) in
  let I := interp_field_3d nx ny nz in
  all6 (mkSix (I (s_ex F) hx gy gz ix2 iy1 iz1) (I (s_ey F) gx hy gz ix1 iy2 iz1) (I (s_ez F) gx gy hz ix1 iy1 iz2)
              (I (s_bx F) gx hy hz ix1 iy2 iz2) (I (s_by F) hx gy hz ix2 iy1 iz2) (I (s_bz F) hx hy gz ix2 iy2 iz1)).
(** unified_pusher_3d.c:183-185 *)
Definition use_fast_3d (nx ny nz : Z) (x_over_dx y_over_dy z_over_dz : Q) : bool :=
  let ok n i := ((0 <? i) && (i <? n - 1))%Z in
  ok nx (ctrunc x_over_dx) && ok nx (ctrunc (x_over_dx + (1#2))) && ok ny (ctrunc y_over_dy) && ok ny (ctrunc (y_over_dy + (1#2)))
  && ok nz (ctrunc z_over_dz) && ok nz (ctrunc (z_over_dz + (1#2))).
(** unified_pusher_3d.c:175-221 *)
Definition interp_fused_at_3d (nx ny nz : Z) (F : six (list Q)) (x_over_dx y_over_dy z_over_dz : Q) : option (six Q) :=
  if use_fast_3d nx ny nz x_over_dx y_over_dy z_over_dz then
    let ix1 := ctrunc (x_over_dx + (1#2)) in let gx := get_gx (inject_Z ix1 - x_over_dx) in
    let ix2 := ctrunc x_over_dx in let hx := get_gx (inject_Z ix2 - x_over_dx + (1#2)) in
    let iy1 := ctrunc (y_over_dy + (1#2)) in let gy := get_gx (inject_Z iy1 - y_over_dy) in
    let iy2 := ctrunc y_over_dy in let hy := get_gx (inject_Z iy2 - y_over_dy + (1#2)) in
    let iz1 := ctrunc (z_over_dz + (1#2)) in let gz := get_gx (inject_Z iz1 - z_over_dz) in
    let iz2 := ctrunc z_over_dz in let hz := get_gx (inject_Z iz2 - z_over_dz + (1#2)) in
    let I := interp_field_fast_3d ny nz in
    all6 (mkSix (I (s_ex F) hx gy gz ix2 iy1 iz1) (I (s_ey F) gx hy gz ix1 iy2 iz1) (I (s_ez F) gx gy hz ix1 iy1 iz2)
                (I (s_bx F) gx hy hz ix1 iy2 iz2) (I (s_by F) hx gy hz ix2 iy1 iz2) (I (s_bz F) hx hy gz ix2 iy2 iz1))
  else interp_at_3d nx ny nz F x_over_dx y_over_dy z_over_dz.
Definition interpolation_3d (G : grid3) (F : six (list Q)) (x y z : Q) : option (six Q) :=
  interp_at_3d (h_nx G) (h_ny G) (h_nz G) F ((x - h_x0 G) / h_dx G) ((y - h_y0 G) / h_dy G) ((z - h_z0 G) / h_dz G).
Definition interpolation_fused_3d (G : grid3) (F : six (list Q)) (x y z : Q) : option (six Q) :=
  interp_fused_at_3d (h_nx G) (h_ny G) (h_nz G) F ((x - h_x0 G) * (1 / h_dx G)) ((y - h_y0 G) * (1 / h_dy G)) ((z - h_z0 G) * (1 / h_dz G)).

(** * Particle loops *)

(** a particle with the six interpolated values kept beside it (ex_part ... bz_part) *)
Record slot := mkSlot { l_p : part; l_f : six Q }.
(** is_dead[ip] or a NaN coordinate *)
Definition skipped (s : slot) : bool := p_dead (l_p s) || p_nan (l_p s).

(** cpu.py:57-69 [push_position_2d]; unified_pusher_2d.c:52-60. A NaN coordinate stays NaN, so the flag is kept. *)
Definition push_position_2d (cdt : Q) (p : part) : part :=
  {| p_x := p_x p + cdt * p_ig p * p_ux p; p_y := p_y p + cdt * p_ig p * p_uy p; p_z := p_z p;
     p_ux := p_ux p; p_uy := p_uy p; p_uz := p_uz p; p_ig := p_ig p; p_w := p_w p; p_dead := p_dead p; p_nan := p_nan p |}.
(** unified_pusher_3d.c:52-62 *)
Definition push_position_3d (cdt : Q) (p : part) : part :=
  {| p_x := p_x p + cdt * p_ig p * p_ux p; p_y := p_y p + cdt * p_ig p * p_uy p; p_z := p_z p + cdt * p_ig p * p_uz p;
     p_ux := p_ux p; p_uy := p_uy p; p_uz := p_uz p; p_ig := p_ig p; p_w := p_w p; p_dead := p_dead p; p_nan := p_nan p |}.
(** new momentum and inverse gamma from the interpolated fields *)
Definition push_momentum (q m dt : Q) (s : slot) : slot :=
  let p := l_p s in let f := l_f s in
  let '((ux, uy, uz), ig) := boris_inline Qnums LIGHT_SPEED q m dt (p_ux p, p_uy p, p_uz p) (s_ex f, s_ey f, s_ez f) (s_bx f, s_by f, s_bz f) in
  mkSlot {| p_x := p_x p; p_y := p_y p; p_z := p_z p; p_ux := ux; p_uy := uy; p_uz := uz; p_ig := ig; p_w := p_w p; p_dead := p_dead p; p_nan := p_nan p |} f.

(** a loop over the particle array that may fail (out-of-bounds read) *)
Fixpoint loop {A} (f : A -> option A) (l : list A) : option (list A) :=
  match l with [] => Some [] | s :: l' => obind (f s) (fun s' => obind (loop f l') (fun r => Some (s' :: r))) end.
(** cpu.py:57-69: skips dead particles only (a NaN coordinate stays NaN; its other fields are untouched) *)
Definition stage_position (move : Q -> part -> part) (cdt : Q) (l : list slot) : list slot :=
  map (fun s => if p_dead (l_p s) then s else mkSlot (move cdt (l_p s)) (l_f s)) l.
(** cpu2d.c:109-122, cpu3d.c:141-155: skips dead and NaN *)
Definition stage_interpolation (interp : part -> option (six Q)) (l : list slot) : option (list slot) :=
  loop (fun s => if skipped s then Some s else obind (interp (l_p s)) (fun f => Some (mkSlot (l_p s) f))) l.
(** boris.py:43-51: skips dead particles only *)
Definition stage_momentum (q m dt : Q) (l : list slot) : list slot :=
  map (fun s => if p_dead (l_p s) then s else push_momentum q m dt s) l.

(** simulation.py:998-1034 (staged, without QED and callbacks) up to the deposition; pusher.py:101-109: in three dimensions
    [push_position] does nothing.  [half] is 0.5*dt *)
Definition staged_push_2d (G : grid2) (F : six (list Q)) (q m dt : Q) (l : list slot) : option (list slot) :=
  let cdt := LIGHT_SPEED * ((1#2) * dt) in
  let l := stage_position push_position_2d cdt l in
  obind (stage_interpolation (fun p => interpolation_2d G F (p_x p) (p_y p)) l) (fun l =>
  Some (stage_position push_position_2d cdt (stage_momentum q m dt l))).
Definition staged_push_3d (G : grid3) (F : six (list Q)) (q m dt : Q) (l : list slot) : option (list slot) :=
  obind (stage_interpolation (fun p => interpolation_3d G F (p_x p) (p_y p) (p_z p)) l) (fun l =>
  Some (stage_momentum q m dt l)).

(** unified_pusher_2d.c:262-357 for one strip of particles.  Clean strip (no dead or NaN particle): position and
    interpolation for all, then momentum and position for all.  Otherwise one loop with the checks. *)
Definition fused_strip (move : Q -> part -> part) (interp : part -> option (six Q)) (q m dt : Q) (l : list slot) : option (list slot) :=
  let cdt_half := LIGHT_SPEED * (1#2) * dt in
  let first s := let p := move cdt_half (l_p s) in obind (interp p) (fun f => Some (mkSlot p f)) in
  let second s := let s' := push_momentum q m dt s in mkSlot (move cdt_half (l_p s')) (l_f s') in
  if forallb (fun s => negb (skipped s)) l then
    obind (loop first l) (fun l => Some (map second l))
  else loop (fun s => if skipped s then Some s else obind (first s) (fun s => Some (second s))) l.
(** unified_pusher_2d.c:14, 262-264: strips of 256 particles; n bounds the number of strips *)
Definition STRIP_SIZE : nat := 256.
Fixpoint fused_strips (strip : list slot -> option (list slot)) (n : nat) (l : list slot) : option (list slot) :=
  match n, l with
  | _, [] => Some []
  | O, _ => None
  | S n', _ => obind (strip (firstn STRIP_SIZE l)) (fun a => obind (fused_strips strip n' (skipn STRIP_SIZE l)) (fun b => Some (a ++ b)))
  end.
Definition fused_push_2d (G : grid2) (F : six (list Q)) (q m dt : Q) (l : list slot) : option (list slot) :=
  fused_strips (fused_strip push_position_2d (fun p => interpolation_fused_2d G F (p_x p) (p_y p)) q m dt) (length l) l.
(** unified_pusher_3d.c:333-426 *)
Definition fused_push_3d (G : grid3) (F : six (list Q)) (q m dt : Q) (l : list slot) : option (list slot) :=
  fused_strips (fused_strip push_position_3d (fun p => interpolation_fused_3d G F (p_x p) (p_y p) (p_z p)) q m dt) (length l) l.

(** photon.py:5-10 *)
Definition update_photon_gamma (l : list part) : list part :=
  map (fun p => if p_dead p then p else
    {| p_x := p_x p; p_y := p_y p; p_z := p_z p; p_ux := p_ux p; p_uy := p_uy p; p_uz := p_uz p;
       p_ig := rsqrt (p_ux p * p_ux p + p_uy p * p_uy p + p_uz p * p_uz p); p_w := p_w p; p_dead := p_dead p; p_nan := p_nan p |}) l.
End Rational.
Arguments mkSix {A}. Arguments s_ex {A}. Arguments s_ey {A}. Arguments s_ez {A}. Arguments s_bx {A}. Arguments s_by {A}. Arguments s_bz {A}.
