(** Model of charge and current deposition.

    Source: /repo/src/lambdapic/core/current/current_deposit.h (2D, and the 3D kernel of the
    fused push), core/current/cpu2d.c, core/current/cpu3d.c (3D kernel of the staged push).

    Simplifications, for the whole file:
    - doubles are exact rationals; [one_third] (cutils.h:18) and [one_twelfth] are the exact
      fractions;
    - a local buffer that is indexed inside its bounds is a function of the index;
    - the arrays [rho], [jx], [jy], [jz] are functions of the flat index; each loop iteration
      adds to the four arrays at one index, and these additions are collected in a list of
      increments first ([ev]) and then applied in the same order;
    - the 64-bit/32-bit integer distinction and overflow are not modelled. *)
From Coq Require Import QArith Qround.
From Verif Require Import Base.
Local Open Scope nat_scope.
Local Open Scope Q_scope.

(** cutils.h:17 *)
Definition LIGHT_SPEED : Q := 299792458 # 1.

(** A C comparison used as a number. *)
Definition b2q (b : bool) : Q := if b then 1 else 0.

(** current_deposit.h:7-23 [calculate_S] (also cpu3d.c:16-32): shape factors on the 5-cell
    window, moved by [shift] cells. *)
Definition calculate_S (delta : Q) (shift : Z) : list Q :=
  let delta2 := delta * delta in
  let delta_minus := (1#2) * (delta2 + delta + (1#4)) in
  let delta_mid := (3#4) - delta2 in
  let delta_positive := (1#2) * (delta2 - delta + (1#4)) in
  let minus := b2q (shift =? -1)%Z in
  let mid := b2q (shift =? 0)%Z in
  let positive := b2q (shift =? 1)%Z in
  [ minus * delta_minus;
    minus * delta_mid + mid * delta_minus;
    minus * delta_positive + mid * delta_mid + positive * delta_minus;
    mid * delta_positive + positive * delta_mid;
    positive * delta_positive ].

(** current_deposit.h:28-35 [calculate_S0] *)
Definition calculate_S0 (delta : Q) : list Q :=
  let delta2 := delta * delta in
  [ 0; (1#2) * (delta2 + delta + (1#4)); (3#4) - delta2;
    (1#2) * (delta2 - delta + (1#4)); 0 ].

(** The C cast [(int)] of a double truncates towards zero. *)
Definition ctrunc (q : Q) : Z := Z.quot (Qnum q) (Zpos (Qden q)).

(** current_deposit.h:41-49 [PRECOMPUTE_WRAP_INDICES] and 417-423: the two [while] loops bring
    an index into [0, n) by adding or subtracting [n], i.e. compute the remainder ([n > 0];
    for [n <= 0] the C loops do not terminate). *)
Definition wrap_index (n i : Z) : Z := (i mod n)%Z.

(** Reading [S[i]] of a 5-element local array. *)
Definition at5 (l : list Q) (i : nat) : Q := nth i l 0.

(** current_deposit.h:92-102: [S1] with the short form when no cell is crossed. *)
Definition shape1 (delta : Q) (dcell : Z) : list Q :=
  if (dcell =? 0)%Z then calculate_S0 delta else calculate_S delta dcell.

(** current_deposit.h:99-102: DS[i] = S1[i] - S0[i]. *)
Definition diff5 (S1 S0 : list Q) : list Q :=
  map (fun i => at5 S1 i - at5 S0 i) (seq 0 5).

(** current_deposit.h:113-116: loop bounds, as the list of visited window positions. *)
Definition loop_range (dcell : Z) : list nat :=
  let i_start := if (dcell <? 0)%Z then 0%nat else 1%nat in
  let i_end := if (0 <? dcell)%Z then 5%nat else 4%nat in
  seq i_start (i_end - i_start).

(** [buff[k] = v]. *)
Definition fset {A} (k : nat) (v : A) (f : nat -> A) : nat -> A :=
  fun j => if (j =? k)%nat then v else f j.

(** ** Two dimensions *)

(** One increment of the four arrays: window position and the four added values. *)
Record ev := { e_i : nat; e_j : nat; e_k : nat; e_jx : Q; e_jy : Q; e_jz : Q; e_rho : Q }.

Section Cells2.
  Variables S0x S0y S1x S1y DSx DSy : list Q.
  Variables charge_density factor_dx factor_dy factor_dt_vz : Q.

  (** current_deposit.h:130-143 / 168-181: inner loop over [j]; state [jx_buff], [jy_buff]. *)
  Fixpoint row2 (i : nat) (js : list nat) (jx_buff : nat -> Q) (jy_buff : Q)
    : (nat -> Q) * list ev :=
    match js with
    | [] => (jx_buff, [])
    | j :: rest =>
        let a := at5 S0x i + (1#2) * at5 DSx i in
        let b := at5 S0y j + (1#2) * at5 DSy j in
        let wy := at5 DSy j * a in
        let wz := a * b + (1#12) * at5 DSx i * at5 DSy j in
        let jx_buff' := fset j (jx_buff j - factor_dx * at5 DSx i * b) jx_buff in
        let jy_buff' := jy_buff - factor_dy * wy in
        let e := {| e_i := i; e_j := j; e_k := 0%nat;
                    e_jx := jx_buff' j; e_jy := jy_buff';
                    e_jz := factor_dt_vz * wz;
                    e_rho := charge_density * at5 S1x i * at5 S1y j |} in
        let r := row2 i rest jx_buff' jy_buff' in
        (fst r, e :: snd r)
    end.

  (** current_deposit.h:124-144 / 162-182: outer loop over [i]. *)
  Fixpoint rows2 (is_ js : list nat) (jx_buff : nat -> Q) : list ev :=
    match is_ with
    | [] => []
    | i :: rest =>
        let r := row2 i js jx_buff 0 in
        snd r ++ rows2 rest js (fst r)
    end.
End Cells2.

(** The four arrays, by flat index. *)
Record arrays := { a_jx : Z -> Q; a_jy : Z -> Q; a_jz : Z -> Q; a_rho : Z -> Q }.

Definition fadd (k : Z) (v : Q) (f : Z -> Q) : Z -> Q :=
  fun i => if (i =? k)%Z then f i + v else f i.

Definition add_ev (idx : ev -> Z) (A : arrays) (e : ev) : arrays :=
  {| a_jx := fadd (idx e) (e_jx e) (a_jx A);
     a_jy := fadd (idx e) (e_jy e) (a_jy A);
     a_jz := fadd (idx e) (e_jz e) (a_jz A);
     a_rho := fadd (idx e) (e_rho e) (a_rho A) |}.

(** Particle state read by the kernels.  [p_nan] says whether a coordinate is NaN. *)
Record part := { p_x : Q; p_y : Q; p_z : Q; p_ux : Q; p_uy : Q; p_uz : Q; p_ig : Q;
                 p_w : Q; p_dead : bool; p_nan : bool }.

Record grid2 := { g_nx : Z; g_ny : Z; g_dx : Q; g_dy : Q; g_x0 : Q; g_y0 : Q }.

Definition vel (u ig : Q) : Q := u * LIGHT_SPEED * ig.

(** current_deposit.h:73 and 207 *)
Definition all_nonneg (l : list Q) : bool := forallb (fun q => Qle_bool 0 q) l.

(** current_deposit.h:71-83: nearest cell. *)
Definition nearest (nonneg : bool) (x_over_dx : Q) : Z :=
  if nonneg then ctrunc (x_over_dx + (1#2)) else Qfloor (x_over_dx + (1#2)).

(** current_deposit.h:51-145 [current_deposit_2d] *)
Definition current_deposit_2d (G : grid2) (dt q : Q) (A : arrays) (p : part) : arrays :=
  let vx := vel (p_ux p) (p_ig p) in
  let vy := vel (p_uy p) (p_ig p) in
  let vz := vel (p_uz p) (p_ig p) in
  let x_old := p_x p - vx * (1#2) * dt - g_x0 G in
  let y_old := p_y p - vy * (1#2) * dt - g_y0 G in
  let x_adv := p_x p + vx * (1#2) * dt - g_x0 G in
  let y_adv := p_y p + vy * (1#2) * dt - g_y0 G in
  let x_over_dx0 := x_old / g_dx G in
  let y_over_dy0 := y_old / g_dy G in
  let x_over_dx1 := x_adv / g_dx G in
  let y_over_dy1 := y_adv / g_dy G in
  let nn := all_nonneg [x_old; x_adv; y_old; y_adv] in
  let ix0 := nearest nn x_over_dx0 in
  let iy0 := nearest nn y_over_dy0 in
  let ix1 := nearest nn x_over_dx1 in
  let iy1 := nearest nn y_over_dy1 in
  let S0x := calculate_S0 (inject_Z ix0 - x_over_dx0) in
  let S0y := calculate_S0 (inject_Z iy0 - y_over_dy0) in
  let dcell_x := (ix1 - ix0)%Z in
  let dcell_y := (iy1 - iy0)%Z in
  let S1x := shape1 (inject_Z ix1 - x_over_dx1) dcell_x in
  let S1y := shape1 (inject_Z iy1 - y_over_dy1) dcell_y in
  let DSx := diff5 S1x S0x in
  let DSy := diff5 S1y S0y in
  let charge_density := q * p_w p / (g_dx G * g_dy G) in
  let factor := charge_density / dt in
  let factor_dx := factor * g_dx G in
  let factor_dy := factor * g_dy G in
  let factor_dt_vz := factor * dt * vz in
  let ixs i := wrap_index (g_nx G) (ix0 + (Z.of_nat i - 2)) in
  let iys j := wrap_index (g_ny G) (iy0 + (Z.of_nat j - 2)) in
  fold_left (add_ev (fun e => iys (e_j e) + ixs (e_i e) * g_ny G)%Z)
    (rows2 S0x S0y S1x S1y DSx DSy charge_density factor_dx factor_dy factor_dt_vz
           (loop_range dcell_x) (loop_range dcell_y) (fun _ => 0)) A.

(** current_deposit.h:185-268 [current_deposit_2d_fast], with the three precomputed quotients
    of unified_pusher_2d.c:249-251 as arguments; 255-267: constant bounds 1..4 when no cell is
    crossed. *)
Definition current_deposit_2d_fast (G : grid2) (dt : Q)
    (q_over_dx_dy q_over_dy_dt q_over_dx_dt : Q) (A : arrays) (p : part) : arrays :=
  let vx := vel (p_ux p) (p_ig p) in
  let vy := vel (p_uy p) (p_ig p) in
  let vz := vel (p_uz p) (p_ig p) in
  let x_old := p_x p - vx * (1#2) * dt - g_x0 G in
  let y_old := p_y p - vy * (1#2) * dt - g_y0 G in
  let x_adv := p_x p + vx * (1#2) * dt - g_x0 G in
  let y_adv := p_y p + vy * (1#2) * dt - g_y0 G in
  let x_over_dx0 := x_old / g_dx G in
  let y_over_dy0 := y_old / g_dy G in
  let x_over_dx1 := x_adv / g_dx G in
  let y_over_dy1 := y_adv / g_dy G in
  let nn := all_nonneg [x_old; x_adv; y_old; y_adv] in
  let ix0 := nearest nn x_over_dx0 in
  let iy0 := nearest nn y_over_dy0 in
  let ix1 := nearest nn x_over_dx1 in
  let iy1 := nearest nn y_over_dy1 in
  let S0x := calculate_S0 (inject_Z ix0 - x_over_dx0) in
  let S0y := calculate_S0 (inject_Z iy0 - y_over_dy0) in
  let dcell_x := (ix1 - ix0)%Z in
  let dcell_y := (iy1 - iy0)%Z in
  let S1x := shape1 (inject_Z ix1 - x_over_dx1) dcell_x in
  let S1y := shape1 (inject_Z iy1 - y_over_dy1) dcell_y in
  let DSx := diff5 S1x S0x in
  let DSy := diff5 S1y S0y in
  let charge_density := q_over_dx_dy * p_w p in
  let factor_dx := q_over_dy_dt * p_w p in
  let factor_dy := q_over_dx_dt * p_w p in
  let factor_dt_vz := charge_density * vz in
  let ixs i := wrap_index (g_nx G) (ix0 + (Z.of_nat i - 2)) in
  let iys j := wrap_index (g_ny G) (iy0 + (Z.of_nat j - 2)) in
  let cells is_ js :=
    rows2 S0x S0y S1x S1y DSx DSy charge_density factor_dx factor_dy factor_dt_vz
          is_ js (fun _ => 0) in
  fold_left (add_ev (fun e => iys (e_j e) + ixs (e_i e) * g_ny G)%Z)
    (if ((dcell_x =? 0) && (dcell_y =? 0))%Z%bool
     then cells (seq 1 3) (seq 1 3)
     else cells (loop_range dcell_x) (loop_range dcell_y)) A.

(** cpu2d.c:9-15 [reset_current_2d] *)
Definition reset_current : arrays :=
  {| a_jx := fun _ => 0; a_jy := fun _ => 0; a_jz := fun _ => 0; a_rho := fun _ => 0 |}.

(** cpu2d.c:169-181 (cpu3d.c:169-181): loop over the particle array of one patch, skipping
    dead particles and NaN coordinates. *)
Definition deposit_all (kernel : arrays -> part -> arrays) (A : arrays) (ps : list part)
  : arrays :=
  fold_left (fun A p => if p_dead p then A else if p_nan p then A else kernel A p) ps A.

Definition current_deposition_cpu_2d (G : grid2) (dt q : Q) : arrays -> list part -> arrays :=
  deposit_all (current_deposit_2d G dt q).

(** unified_pusher_2d.c:249-251 and the calls at 304-310, 349-355. *)
Definition fused_deposition_2d (G : grid2) (dt q : Q) : arrays -> list part -> arrays :=
  deposit_all (current_deposit_2d_fast G dt
                 (q / (g_dx G * g_dy G)) (q / (g_dy G * dt)) (q / (g_dx G * dt))).

(** ** Three dimensions *)

Section Cells3.
  Variables S0x S0y S0z S1x S1y S1z DSx DSy DSz : list Q.
  Variables charge_density factor_dx factor_dy factor_dz : Q.

  (** The three transport weights of one window position.  current_deposit.h:293-321 groups
      them as [DS * (a S0 + c DS)]; cpu3d.c:101-103 writes them out. *)
  Definition weights_fast (i j k : nat) : Q * Q * Q :=
    let a_x := at5 S0x i + (1#2) * at5 DSx i in
    let c_x := (1#2) * at5 S0x i + (1#3) * at5 DSx i in
    let a_y := at5 S0y j + (1#2) * at5 DSy j in
    let c_y := (1#2) * at5 S0y j + (1#3) * at5 DSy j in
    let term_jz_ij := a_x * at5 S0y j + c_x * at5 DSy j in
    let term_jx := a_y * at5 S0z k + c_y * at5 DSz k in
    let term_jy := a_x * at5 S0z k + c_x * at5 DSz k in
    (factor_dx * at5 DSx i * term_jx,
     factor_dy * at5 DSy j * term_jy,
     factor_dz * at5 DSz k * term_jz_ij).

  Definition weights_staged (i j k : nat) : Q * Q * Q :=
    let wx := at5 DSx i * (at5 S0y j * at5 S0z k + (1#2) * at5 DSy j * at5 S0z k
                           + (1#2) * at5 S0y j * at5 DSz k + (1#3) * at5 DSy j * at5 DSz k) in
    let wy := at5 DSy j * (at5 S0x i * at5 S0z k + (1#2) * at5 DSx i * at5 S0z k
                           + (1#2) * at5 S0x i * at5 DSz k + (1#3) * at5 DSx i * at5 DSz k) in
    let wz := at5 DSz k * (at5 S0x i * at5 S0y j + (1#2) * at5 DSx i * at5 S0y j
                           + (1#2) * at5 S0x i * at5 DSy j + (1#3) * at5 DSx i * at5 DSy j) in
    (factor_dx * wx, factor_dy * wy, factor_dz * wz).

  Variable weights : nat -> nat -> nat -> Q * Q * Q.

  (** current_deposit.h:311-328, cpu3d.c:98-113: loop over [k]; state [jx_buff[k][j]],
      [jy_buff[k]], [jz_buff]. *)
  Fixpoint line3 (i j : nat) (ks : list nat) (jx_buff : nat -> nat -> Q) (jy_buff : nat -> Q)
      (jz_buff : Q) : (nat -> nat -> Q) * (nat -> Q) * list ev :=
    match ks with
    | [] => (jx_buff, jy_buff, [])
    | k :: rest =>
        let '(wx, wy, wz) := weights i j k in
        let jx_buff' := fset k (fset j (jx_buff k j - wx) (jx_buff k)) jx_buff in
        let jy_buff' := fset k (jy_buff k - wy) jy_buff in
        let jz_buff' := jz_buff - wz in
        let e := {| e_i := i; e_j := j; e_k := k;
                    e_jx := jx_buff' k j; e_jy := jy_buff' k; e_jz := jz_buff';
                    e_rho := charge_density * at5 S1x i * at5 S1y j * at5 S1z k |} in
        let '(bx, by_, es) := line3 i j rest jx_buff' jy_buff' jz_buff' in
        (bx, by_, e :: es)
    end.

  (** current_deposit.h:299-329, cpu3d.c:94-114: loop over [j]; [jz_buff] restarts at 0. *)
  Fixpoint plane3 (i : nat) (js ks : list nat) (jx_buff : nat -> nat -> Q) (jy_buff : nat -> Q)
    : (nat -> nat -> Q) * list ev :=
    match js with
    | [] => (jx_buff, [])
    | j :: rest =>
        let '(bx, by_, es) := line3 i j ks jx_buff jy_buff 0 in
        let '(bx', es') := plane3 i rest ks bx by_ in
        (bx', es ++ es')
    end.

  (** current_deposit.h:288-330, cpu3d.c:90-115: loop over [i]; [jy_buff] restarts at 0. *)
  Fixpoint cells3 (is_ js ks : list nat) (jx_buff : nat -> nat -> Q) : list ev :=
    match is_ with
    | [] => []
    | i :: rest =>
        let '(bx, es) := plane3 i js ks jx_buff (fun _ => 0) in
        es ++ cells3 rest js ks bx
    end.
End Cells3.

Record grid3 := { h_nx : Z; h_ny : Z; h_nz : Z; h_dx : Q; h_dy : Q; h_dz : Q;
                  h_x0 : Q; h_y0 : Q; h_z0 : Q }.

(** current_deposit.h:289-291: single wrap of a window position around a wrapped base. *)
Definition wrap_once (n i : Z) : Z :=
  if (i <? 0)%Z then (i + n)%Z else if (n <=? i)%Z then (i - n)%Z else i.

(** cutils.h:23-26 [INDEX3]: only negative indices are wrapped, once. *)
Definition wrap_negative (n i : Z) : Z := if (0 <=? i)%Z then i else (i + n)%Z.

(** current_deposit.h:333-440 [current_deposit_3d_fast] *)
Definition current_deposit_3d_fast (G : grid3) (dt : Q)
    (q_over_dx_dy_dz q_over_dy_dz_dt q_over_dx_dz_dt q_over_dx_dy_dt : Q)
    (A : arrays) (p : part) : arrays :=
  let vx := vel (p_ux p) (p_ig p) in
  let vy := vel (p_uy p) (p_ig p) in
  let vz := vel (p_uz p) (p_ig p) in
  let x_old := p_x p - vx * (1#2) * dt - h_x0 G in
  let x_adv := p_x p + vx * (1#2) * dt - h_x0 G in
  let y_old := p_y p - vy * (1#2) * dt - h_y0 G in
  let y_adv := p_y p + vy * (1#2) * dt - h_y0 G in
  let z_old := p_z p - vz * (1#2) * dt - h_z0 G in
  let z_adv := p_z p + vz * (1#2) * dt - h_z0 G in
  let x_over_dx0 := x_old / h_dx G in
  let y_over_dy0 := y_old / h_dy G in
  let z_over_dz0 := z_old / h_dz G in
  let x_over_dx1 := x_adv / h_dx G in
  let y_over_dy1 := y_adv / h_dy G in
  let z_over_dz1 := z_adv / h_dz G in
  let nn := all_nonneg [x_old; x_adv; y_old; y_adv; z_old; z_adv] in
  let ix0 := nearest nn x_over_dx0 in
  let iy0 := nearest nn y_over_dy0 in
  let iz0 := nearest nn z_over_dz0 in
  let ix1 := nearest nn x_over_dx1 in
  let iy1 := nearest nn y_over_dy1 in
  let iz1 := nearest nn z_over_dz1 in
  let S0x := calculate_S0 (inject_Z ix0 - x_over_dx0) in
  let S0y := calculate_S0 (inject_Z iy0 - y_over_dy0) in
  let S0z := calculate_S0 (inject_Z iz0 - z_over_dz0) in
  let dcell_x := (ix1 - ix0)%Z in
  let dcell_y := (iy1 - iy0)%Z in
  let dcell_z := (iz1 - iz0)%Z in
  let S1x := shape1 (inject_Z ix1 - x_over_dx1) dcell_x in
  let S1y := shape1 (inject_Z iy1 - y_over_dy1) dcell_y in
  let S1z := shape1 (inject_Z iz1 - z_over_dz1) dcell_z in
  let DSx := diff5 S1x S0x in
  let DSy := diff5 S1y S0y in
  let DSz := diff5 S1z S0z in
  let charge_density := q_over_dx_dy_dz * p_w p in
  let factor_dx := q_over_dy_dz_dt * p_w p in
  let factor_dy := q_over_dx_dz_dt * p_w p in
  let factor_dz := q_over_dx_dy_dt * p_w p in
  let ix0w := wrap_index (h_nx G) ix0 in
  let iy0w := wrap_index (h_ny G) iy0 in
  let iz0w := wrap_index (h_nz G) iz0 in
  let ixs i := wrap_once (h_nx G) (ix0w + (Z.of_nat i - 2)) in
  let iys j := wrap_once (h_ny G) (iy0w + (Z.of_nat j - 2)) in
  let izs k := wrap_once (h_nz G) (iz0w + (Z.of_nat k - 2)) in
  let cells is_ js ks :=
    cells3 S1x S1y S1z charge_density
      (weights_fast S0x S0y S0z DSx DSy DSz factor_dx factor_dy factor_dz)
      is_ js ks (fun _ _ => 0) in
  fold_left
    (add_ev (fun e => izs (e_k e) + iys (e_j e) * h_nz G + ixs (e_i e) * (h_ny G * h_nz G))%Z)
    (if ((dcell_x =? 0) && (dcell_y =? 0) && (dcell_z =? 0))%Z%bool
     then cells (seq 1 3) (seq 1 3) (seq 1 3)
     else cells (loop_range dcell_x) (loop_range dcell_y) (loop_range dcell_z)) A.

(** cpu3d.c:90-98: loop bounds [fmin(1, 1+dcell)] (inclusive) to [fmax(4, 4+dcell)]
    (exclusive).  Simplification: positions outside the 5-cell window (|dcell| > 1, where the C
    code reads outside of its local arrays) are read as zero. *)
Definition loop_range_staged (dcell : Z) : list nat :=
  let lo := Z.min 1 (1 + dcell) in
  let hi := Z.max 4 (4 + dcell) in
  seq (Z.to_nat lo) (Z.to_nat hi - Z.to_nat lo).

(** cpu3d.c:34-117 [current_deposit_3d] *)
Definition current_deposit_3d (G : grid3) (dt q : Q) (A : arrays) (p : part) : arrays :=
  let vx := vel (p_ux p) (p_ig p) in
  let vy := vel (p_uy p) (p_ig p) in
  let vz := vel (p_uz p) (p_ig p) in
  let x_old := p_x p - vx * (1#2) * dt - h_x0 G in
  let x_adv := p_x p + vx * (1#2) * dt - h_x0 G in
  let y_old := p_y p - vy * (1#2) * dt - h_y0 G in
  let y_adv := p_y p + vy * (1#2) * dt - h_y0 G in
  let z_old := p_z p - vz * (1#2) * dt - h_z0 G in
  let z_adv := p_z p + vz * (1#2) * dt - h_z0 G in
  let x_over_dx0 := x_old / h_dx G in
  let y_over_dy0 := y_old / h_dy G in
  let z_over_dz0 := z_old / h_dz G in
  let x_over_dx1 := x_adv / h_dx G in
  let y_over_dy1 := y_adv / h_dy G in
  let z_over_dz1 := z_adv / h_dz G in
  let ix0 := Qfloor (x_over_dx0 + (1#2)) in
  let iy0 := Qfloor (y_over_dy0 + (1#2)) in
  let iz0 := Qfloor (z_over_dz0 + (1#2)) in
  let ix1 := Qfloor (x_over_dx1 + (1#2)) in
  let iy1 := Qfloor (y_over_dy1 + (1#2)) in
  let iz1 := Qfloor (z_over_dz1 + (1#2)) in
  let S0x := calculate_S (inject_Z ix0 - x_over_dx0) 0 in
  let S0y := calculate_S (inject_Z iy0 - y_over_dy0) 0 in
  let S0z := calculate_S (inject_Z iz0 - z_over_dz0) 0 in
  let dcell_x := (ix1 - ix0)%Z in
  let dcell_y := (iy1 - iy0)%Z in
  let dcell_z := (iz1 - iz0)%Z in
  let S1x := calculate_S (inject_Z ix1 - x_over_dx1) dcell_x in
  let S1y := calculate_S (inject_Z iy1 - y_over_dy1) dcell_y in
  let S1z := calculate_S (inject_Z iz1 - z_over_dz1) dcell_z in
  let DSx := diff5 S1x S0x in
  let DSy := diff5 S1y S0y in
  let DSz := diff5 S1z S0z in
  let charge_density := q * p_w p / (h_dx G * h_dy G * h_dz G) in
  let factor := charge_density / dt in
  let ixs i := wrap_negative (h_nx G) (ix0 + (Z.of_nat i - 2)) in
  let iys j := wrap_negative (h_ny G) (iy0 + (Z.of_nat j - 2)) in
  let izs k := wrap_negative (h_nz G) (iz0 + (Z.of_nat k - 2)) in
  fold_left
    (add_ev (fun e => izs (e_k e) + iys (e_j e) * h_nz G + ixs (e_i e) * h_ny G * h_nz G)%Z)
    (cells3 S1x S1y S1z charge_density
      (weights_staged S0x S0y S0z DSx DSy DSz (factor * h_dx G) (factor * h_dy G)
                      (factor * h_dz G))
      (loop_range_staged dcell_x) (loop_range_staged dcell_y) (loop_range_staged dcell_z)
      (fun _ _ => 0)) A.

Definition current_deposition_cpu_3d (G : grid3) (dt q : Q) : arrays -> list part -> arrays :=
  deposit_all (current_deposit_3d G dt q).

(** unified_pusher_3d.c:318-321 and the calls at 375-381, 420-426. *)
Definition fused_deposition_3d (G : grid3) (dt q : Q) : arrays -> list part -> arrays :=
  deposit_all (current_deposit_3d_fast G dt
    (q / (h_dx G * h_dy G * h_dz G)) (q / (h_dy G * h_dz G * dt))
    (q / (h_dx G * h_dz G * dt)) (q / (h_dx G * h_dy G * dt))).
