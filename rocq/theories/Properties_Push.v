(** C26 (interpolation), C27 (momentum push), C24 (fused and staged push in two dimensions) and C60 (in three).
    Vocabulary: S_Push, S_Deposit. *)
From Coq Require Import QArith Qround Lqa Reals Lra.
From Verif Require Import Base M_Deposit S_Deposit M_Push S_Push P_Deposit5 P_Boris P_Interp P_Push.
Local Open Scope Q_scope.

(** ** C26 *)

(** Each component at a particle is the mean of the grid values around it with the spline weights of charge
    deposition, taken at the Yee position of that component: electric fields half a cell further along their own
    axis, magnetic fields half a cell further along the others.  No read is outside the array. *)
Theorem C26_spline_mean_2d : forall nx ny F X Y,
  sizes (nx * ny) F -> stencil_inside nx X -> stencil_inside ny Y ->
  let h := 1#2 in
  exists v, interp_at_2d nx ny F X Y = Some v /\ same6 v (mkSix
    (mean2 nx ny (s_ex F) (X - h) Y) (mean2 nx ny (s_ey F) X (Y - h)) (mean2 nx ny (s_ez F) X Y)
    (mean2 nx ny (s_bx F) X (Y - h)) (mean2 nx ny (s_by F) (X - h) Y) (mean2 nx ny (s_bz F) (X - h) (Y - h))).
Proof. intros nx ny F X Y S SX SY h. exact (interp_mean_2d nx ny F X Y S SX SY). Qed.

Theorem C26_spline_mean_3d : forall nx ny nz F X Y Z,
  sizes (nx * ny * nz) F -> stencil_inside nx X -> stencil_inside ny Y -> stencil_inside nz Z ->
  let h := 1#2 in
  exists v, interp_at_3d nx ny nz F X Y Z = Some v /\ same6 v (mkSix
    (mean3 nx ny nz (s_ex F) (X - h) Y Z) (mean3 nx ny nz (s_ey F) X (Y - h) Z) (mean3 nx ny nz (s_ez F) X Y (Z - h))
    (mean3 nx ny nz (s_bx F) X (Y - h) (Z - h)) (mean3 nx ny nz (s_by F) (X - h) Y (Z - h)) (mean3 nx ny nz (s_bz F) (X - h) (Y - h) Z)).
Proof. exact interp_mean_3d. Qed.

(** The weights of an axis add up to one. *)
Theorem C26_weights_sum : forall n X, (0 < n)%Z -> qsum (fun a => weight n a X) (points n) == 1.
Proof. exact weight_one. Qed.

(** Constant arrays give their constants at every position whose stencil exists. *)
Theorem C26_constant_2d : forall nx ny F X Y v,
  sizes (nx * ny) F -> stencil_inside nx X -> stencil_inside ny Y -> uniform F v ->
  exists w, interp_at_2d nx ny F X Y = Some w /\ same6 w v.
Proof. exact interp_const_2d. Qed.

Theorem C26_constant_3d : forall nx ny nz F X Y Z v,
  sizes (nx * ny * nz) F -> stencil_inside nx X -> stencil_inside ny Y -> stencil_inside nz Z -> uniform F v ->
  exists w, interp_at_3d nx ny nz F X Y Z = Some w /\ same6 w v.
Proof. exact interp_const_3d. Qed.

(** The fused push interpolates exactly like the staged one, on every input. *)
Theorem C26_fused_is_staged_2d : forall G F x y, interpolation_fused_2d G F x y = interpolation_2d G F x y.
Proof. exact fused_interp_2d. Qed.

Theorem C26_fused_is_staged_3d : forall G F x y z, interpolation_fused_3d G F x y z = interpolation_3d G F x y z.
Proof. exact fused_interp_3d. Qed.

(** Where the fast path is selected all its reads are inside the arrays. *)
Theorem C26_fast_inside_2d : forall nx ny F X Y,
  sizes (nx * ny) F -> use_fast_2d nx ny X Y = true -> interp_fused_at_2d nx ny F X Y <> None.
Proof. exact fast_reads_2d. Qed.

Theorem C26_fast_inside_3d : forall nx ny nz F X Y Z,
  sizes (nx * ny * nz) F -> use_fast_3d nx ny nz X Y Z = true -> interp_fused_at_3d nx ny nz F X Y Z <> None.
Proof. exact fast_reads_3d. Qed.

Definition ramp : list Q := map (fun k => inject_Z (Z.of_nat k)) (seq 0 20).
Example C26_example :
  sizes (4 * 5) (mkSix ramp ramp ramp ramp ramp ramp) /\ stencil_inside 4 (5#4) /\ stencil_inside 5 (8#5) /\
  use_fast_2d 4 5 (5#4) (8#5) = true /\
  option_map (fun v => (Qred (s_ex v), Qred (s_ez v))) (interp_at_2d 4 5 (mkSix ramp ramp ramp ramp ramp ramp) (5#4) (8#5)) = Some (107#20, 157#20).
Proof. repeat split; vm_compute; congruence. Qed.

(** ** C27: numbers are the reals, momenta are in units of mc *)

(** The pushed momentum solves m c du/dt = q (E + v x B) with the mean of old and new momentum, and the Lorentz factor
    after the first half of the electric kick. *)
Theorem C27_lorentz_equation : forall c q m dt u E B, (m <> 0)%R -> (c <> 0)%R ->
  let new := fst (boris_inline Rnums c q m dt u E B) in
  let g := gamma (vadd u (vscale (q * dt / (2 * m * c)) E)) in
  vadd new (vscale (-1) u)
  = vadd (vscale (q * dt / (m * c)) E) (vscale (q * dt / m) (cross (vscale (/ (2 * g)) (vadd new u)) B)).
Proof. intros c q m dt u E B M C. exact (push_lorentz c q m dt u E B M C). Qed.

(** Without electric field the momentum keeps its magnitude and its component along the magnetic field. *)
Theorem C27_rotation : forall c q m dt u B,
  let new := fst (boris_inline Rnums c q m dt u (0, 0, 0)%R B) in
  norm2 new = norm2 u /\ dot new B = dot u B.
Proof. intros c q m dt u B. split; [apply push_norm|apply push_parallel]. Qed.

(** The stored inverse Lorentz factor is that of the stored momentum, and lies in (0, 1]. *)
Theorem C27_stored_gamma : forall c q m dt u E B,
  let new := boris_inline Rnums c q m dt u E B in
  snd new = (/ gamma (fst new))%R /\ (0 < snd new <= 1)%R.
Proof.
  intros c q m dt u E B. cbv zeta. rewrite (push_gamma c q m dt u E B).
  set (n := fst _). pose proof (gamma_pos n) as P. pose proof (gamma_ge1 n) as G.
  split; [reflexivity|]. split; [now apply Rinv_0_lt_compat|].
  rewrite <- Rinv_1. apply Rinv_le_contravar; [apply Rlt_0_1|exact G].
Qed.

(** Pushing with the opposite time step undoes the push. *)
Theorem C27_reversible : forall c q m dt u E B,
  fst (boris_inline Rnums c q m (- dt)%R (fst (boris_inline Rnums c q m dt u E B)) E B) = u.
Proof. exact push_back. Qed.

(** a quarter turn, clockwise around the field for a positive charge *)
Example C27_example : fst (boris_inline Rnums 1 1 1 2 (3 / 4, 0, 0) (0, 0, 0) (0, 0, 5 / 4))%R = (0, - (3 / 4), 0)%R.
Proof.
  assert (sqrt (1 + norm2 (3 / 4, 0, 0)) = 5 / 4)%R as G by (apply sqrt_lem_1; cbn [norm2]; lra).
  destruct (push_parts 1 1 1 2 (3 / 4, 0, 0)%R (0, 0, 0)%R (0, 0, 5 / 4)%R) as (w & -> & -> & _).
  rewrite !vadd_zero. unfold tvec. rewrite G. unfold rot. apply vec_eq; field.
Qed.

(** ** C24 *)

(** Two dimensions: one fused step gives the same particles (all fields of every record, and the same failure if a
    read is out of bounds) and the same deposited charge and current as the staged step. *)
Theorem C24_same_step_2d : forall rsqrt G F q m dt A l,
  ~ dt == 0 -> ~ g_dx G == 0 -> ~ g_dy G == 0 -> defined_when_alive l ->
  fused_push_2d rsqrt G F q m dt l = staged_push_2d rsqrt G F q m dt l /\
  forall l', staged_push_2d rsqrt G F q m dt l = Some l' ->
  let U := fused_deposition_2d G dt q A (map l_p l') in
  let T := current_deposition_cpu_2d G dt q A (map l_p l') in
  forall z, a_jx U z == a_jx T z /\ a_jy U z == a_jy T z /\ a_jz U z == a_jz T z /\ a_rho U z == a_rho T z.
Proof.
  intros rsqrt G F q m dt A l DT DX DY D. split; [exact (push_same_2d rsqrt G F q m dt l D)|].
  intros l' _. refine (fused_same G dt q (map l_p l') DT DX DY A A _). intro z. repeat split; reflexivity.
Qed.

(** ** C60: three dimensions *)

(** The staged push of the model never changes a position in three dimensions. *)
Theorem C60_staged_3d_never_moves_refuted : forall rsqrt G F q m dt l l',
  staged_push_3d rsqrt G F q m dt l = Some l' ->
  map (fun s => (p_x (l_p s), p_y (l_p s), p_z (l_p s))) l' = map (fun s => (p_x (l_p s), p_y (l_p s), p_z (l_p s))) l.
Proof. exact staged_3d_still. Qed.

(** So it differs from the fused push for every moving neutral particle that the fused push handles without failure
    (the same holds for charged ones; neutral ones keep their momentum, which keeps the statement short). *)
Theorem C60_fused_3d_differs_refuted : forall rsqrt G F m dt s,
  (forall x, 0 < rsqrt x) -> ~ dt == 0 -> skipped s = false -> 0 < p_ig (l_p s) -> ~ p_ux (l_p s) == 0 ->
  fused_push_3d rsqrt G F 0 m dt [s] <> None ->
  fused_push_3d rsqrt G F 0 m dt [s] <> staged_push_3d rsqrt G F 0 m dt [s].
Proof. exact move_3d_differs. Qed.

(** The fused push moves every live particle with the mean of its old and new velocity. *)
Theorem C60_fused_3d_moves_partial : forall rsqrt G F q m dt s r,
  skipped s = false -> fused_push_3d rsqrt G F q m dt [s] = Some r ->
  exists s', r = [s'] /\
  p_x (l_p s') == p_x (l_p s) + LIGHT_SPEED * (1#2) * dt * (p_ig (l_p s) * p_ux (l_p s) + p_ig (l_p s') * p_ux (l_p s')).
Proof. exact fused_3d_one. Qed.

Definition G3 : grid3 := {| h_nx := 4; h_ny := 4; h_nz := 4; h_dx := 1; h_dy := 1; h_dz := 1; h_x0 := 0; h_y0 := 0; h_z0 := 0 |}.
Definition zeros : six (list Q) := let l := repeat 0 64 in mkSix l l l l l l.
Definition mover : slot :=
  mkSlot {| p_x := 1; p_y := 1; p_z := 1; p_ux := 1; p_uy := 0; p_uz := 0; p_ig := 1; p_w := 1; p_dead := false; p_nan := false |} (mkSix 0 0 0 0 0 0).
Example C60_example : fused_push_3d (fun _ => 1) G3 zeros 0 1 (1 # 1498962290) [mover] <> staged_push_3d (fun _ => 1) G3 zeros 0 1 (1 # 1498962290) [mover].
Proof.
  apply C60_fused_3d_differs_refuted; [intros _; reflexivity|discriminate|reflexivity|reflexivity|discriminate|].
  apply fused_3d_defined; [reflexivity|repeat split; vm_compute; reflexivity|..]; split; vm_compute; congruence.
Qed.

(** the hypotheses of C24_same_step_2d are met by an array with a live, a dead and a dead undefined particle, and the
    push succeeds *)
Example C24_example :
  let G := {| g_nx := 4; g_ny := 5; g_dx := 1; g_dy := 1; g_x0 := 0; g_y0 := 0 |} in
  let P d u := mkSlot {| p_x := 1; p_y := 1; p_z := 0; p_ux := 0; p_uy := 0; p_uz := 0; p_ig := 1; p_w := 1; p_dead := d; p_nan := u |} (mkSix 0 0 0 0 0 0) in
  let l := [P false false; P true false; P true true] in
  defined_when_alive l /\
  option_map (map (fun s => Qred (p_uy (l_p s)))) (staged_push_2d (fun _ => 0) G (mkSix ramp ramp ramp ramp ramp ramp) 1 1 299792458 l) = Some [11#2; 0; 0].
Proof.
  cbv zeta. split; [|vm_compute; reflexivity].
  intros s [<-|[<-|[<-|[]]]]; vm_compute; congruence.
Qed.

Print Assumptions C26_spline_mean_2d. Print Assumptions C26_spline_mean_3d. Print Assumptions C26_fast_inside_3d.
Print Assumptions C27_lorentz_equation. Print Assumptions C27_rotation. Print Assumptions C27_stored_gamma. Print Assumptions C27_reversible.
Print Assumptions C24_same_step_2d. Print Assumptions C60_staged_3d_never_moves_refuted. Print Assumptions C60_fused_3d_differs_refuted.
