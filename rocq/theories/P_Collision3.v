(** The direction after a collision; concrete head-on collisions. *)
From Coq Require Import Reals Lra.
From Verif Require Import Base M_Push S_Push P_Boris M_Collision S_Collision P_Collision.
Local Open Scope R_scope.
Local Notation vec := (vec R).

Lemma sqrt_is x y : 0 <= y -> y * y = x -> sqrt x = y.
Proof. intros Y E. rewrite <- E. now apply sqrt_square. Qed.

(** the old and the new momentum enclose the scattering angle *)
Lemma rotate_dot p_v p p_perp co si phi :
  p_perp = (let '(x, y, _) := p_v in sqrt (x * x + y * y)) -> / 10000000000 * p < p_perp -> 0 <= p ->
  dot p_v (rotate_momentum p_v p p_perp co si phi) = co * norm2 p_v.
Proof.
  destruct p_v as [[x y] z]. intros PP L P. unfold rotate_momentum. cbv zeta. destruct (Rlt_dec _ p_perp) as [_|N]; [|contradiction].
  assert (p_perp * p_perp = x * x + y * y) as SQ.
  { rewrite PP. apply sqrt_sqrt. pose proof (Rle_0_sqr x) as A. pose proof (Rle_0_sqr y) as B. unfold Rsqr in A, B. lra. }
  assert (0 < p_perp) as PO. { assert (0 <= / 10000000000 * p) by (apply Rmult_le_pos; lra). lra. }
  cbn [dot norm2]. set (A := si * cos phi). set (B := si * sin phi).
  transitivity (z * A * ((x * x + y * y) / p_perp - p_perp) + co * (x * x + y * y + z * z)); [field; lra|].
  rewrite <- SQ. field. lra.
Qed.
(** when it moves along +z or -z: only along +z *)
Lemma rotate_dot_axis z p co si phi : p = Rabs z ->
  dot (0, 0, z) (rotate_momentum (0, 0, z) p 0 co si phi) = (if Rle_dec 0 z then 1 else -1) * (co * norm2 (0, 0, z)).
Proof.
  intros ->. unfold rotate_momentum. cbv zeta. pose proof (Rabs_pos z) as A. destruct (Rlt_dec _ 0) as [L|_].
  - exfalso. assert (0 <= / 10000000000 * Rabs z) by (apply Rmult_le_pos; lra). lra.
  - cbn [dot norm2]. destruct (Rle_dec 0 z) as [Z|Z].
    + rewrite Rabs_pos_eq by exact Z. ring.
    + rewrite Rabs_left by lra. ring.
Qed.

Lemma no_angle U : 0 <= U < 1 -> scattering_angle 0 U = (1, 0).
Proof.
  intros UU. unfold scattering_angle. destruct (Rlt_dec 0 4) as [_|N]; [|lra].
  assert (sin2X2 0 U = 0) as ->. { unfold sin2X2. cbv zeta. unfold Rdiv. rewrite Rmult_assoc. ring. }
  f_equal; [ring|]. rewrite Rmult_0_l, sqrt_0. ring.
Qed.
Lemma path_neutral c e d vol dt lam : d_q1 d * d_q2 d = 0 -> path_s c e d vol dt lam = 0.
Proof. intro Q. unfold path_s. rewrite Q. unfold Rdiv. ring. Qed.

(** without interaction the centre-of-mass momentum stays *)
Lemma neutral_keeps c e d vol dt lam U phi :
  d_q1 d * d_q2 d = 0 -> 0 <= U < 1 ->
  / 10000000000 * d_p1_com d < d_p_perp d \/ (exists z, d_p1_com_v d = (0, 0, z) /\ d_p1_com d = z) ->
  coulomb_scattering c e d vol dt lam U phi = d_p1_com_v d.
Proof.
  intros Q UU H. unfold coulomb_scattering. destruct (Req_EM_T _ 0) as [_|_]; [reflexivity|].
  rewrite path_neutral by exact Q. rewrite no_angle by exact UU. destruct H as [L|(z & E & P)].
  - destruct (d_p1_com_v d) as [[x y] z]. unfold rotate_momentum. cbv zeta. destruct (Rlt_dec _ _) as [_|N]; [|contradiction].
    unfold Rdiv. apply vec_eq; ring.
  - rewrite E, P. unfold rotate_momentum. cbv zeta. destruct (Rlt_dec _ _) as [L|_]; unfold Rdiv; apply vec_eq; ring.
Qed.

(** ** Two equal particles head on: mass 1, c = 1 *)
Section HeadOn.
Variables (x y z g w q : R).
Hypothesis G : 0 < g.
Let d := collision_data 1 (x, y, z) (/ g) w 1 q (- x, - y, - z) (/ g) w 1 q.
Lemma head_on : 
  d_v_com d = (0, 0, 0) /\ d_gamma_com d = 1 /\ d_v_com_square d = 0 /\ d_p1_com_v d = (x, y, z) /\
  d_p1_com d = sqrt (norm2 (x, y, z)) /\ d_p_perp d = sqrt (x * x + y * y) /\ d_gamma1_com d = g /\ d_gamma2_com d = g.
Proof using G.
  assert (forall t, (t * 1 * 1 + - t * 1 * 1) / (1 / / g * 1 + 1 / / g * 1) = 0) as V by (intro t; field; lra).
  unfold d, collision_data. cbv zeta. rewrite !V.
  cbn [d_v_com d_gamma_com d_v_com_square d_p1_com_v d_p1_com d_p_perp d_gamma1_com d_gamma2_com norm2].
  replace (1 - (0 ^ 2 + 0 ^ 2 + 0 ^ 2) / 1 ^ 2) with 1 by field. rewrite sqrt_1.
  assert (forall t k, t * 1 * 1 + k * 0 = t) as T by (intros; ring). 
  rewrite !T. repeat split; try field; try lra; f_equal; ring.
Qed.
End HeadOn.

(** scattering in the centre-of-mass frame of such a pair *)
Lemma head_on_kernel x y z g w q lam deb vol dt rnd :
  0 < g -> 0 < w -> x * x + y * y + z * z <> 0 -> snd rnd < 1 ->
  let a := {| c_u := (x, y, z); c_ig := / g; c_w := w |} in let b := {| c_u := (- x, - y, - z); c_ig := / g; c_w := w |} in
  let d := collision_data 1 (x, y, z) (/ g) (w * 1) 1 q (- x, - y, - z) (/ g) (w * 1) 1 q in
  0 < lam ->
  fst (collision_kernel 1 1 1 1 q 1 q lam deb 1 1 vol dt rnd a b) = store 1 (coulomb_scattering 1 1 d vol (dt * 1) lam (fst (fst rnd)) (snd (fst rnd))) 1 w.
Proof.
  intros G W N U a b d L. destruct (head_on x y z g (w * 1) q G) as (H1 & H2 & H3 & H4 & H5 & H6 & H7 & H8). fold d in H1, H2, H3, H4, H5, H6, H7, H8.
  destruct rnd as [[U1 phi] U2]. cbn [fst snd] in *. unfold collision_kernel. cbn [c_u c_ig c_w a b]. fold d.
  destruct (Req_EM_T (d_p1_com d) 0) as [Z|_].
  { exfalso. apply N. rewrite H5 in Z. apply sqrt_eq_0 in Z; [exact Z|]. cbn [norm2].
    pose proof (Rle_0_sqr x) as A. pose proof (Rle_0_sqr y) as B. pose proof (Rle_0_sqr z) as D. unfold Rsqr in A, B, D. lra. }
  destruct (Rlt_dec 0 lam) as [_|X]; [|contradiction].
  destruct (coulomb_scattering 1 1 d vol (dt * 1) lam U1 phi) as [[qx qy] qz]. cbn [fst].
  destruct (Rlt_dec U2 _) as [_|X].
  - f_equal. unfold boost_to_lab. rewrite H1, H2, H3. apply vec_eq; ring.
  - exfalso. apply X. rewrite Rmax_left by lra. replace (w * 1 / (w * 1)) with 1 by (field; lra). exact U.
Qed.

(** Two neutral particles (q = 0) meet along z: the one that moves along -z bounces back. *)
Lemma neutral_bounce :
  let a := {| c_u := (0, 0, - (3 / 4)); c_ig := 4 / 5; c_w := 2 |} in let b := {| c_u := (0, 0, 3 / 4); c_ig := 4 / 5; c_w := 2 |} in
  consistent a /\ consistent b /\
  c_u (fst (collision_kernel 1 1 1 1 0 1 0 10 0 1 1 1 1 (1 / 2, 0, 1 / 2) a b)) = (0, 0, 3 / 4).
Proof.
  cbv zeta. unfold consistent, gamma. cbn [c_u c_ig norm2].
  rewrite (sqrt_is _ (5 / 4)) by lra. rewrite (sqrt_is _ (5 / 4)) by lra. split; [lra|]. split; [lra|].
  pose proof (head_on_kernel 0 0 (- (3 / 4)) (5 / 4) 2 0 10 0 1 1 (1 / 2, 0, 1 / 2) ltac:(lra) ltac:(lra) ltac:(lra) ltac:(cbn; lra) ltac:(lra)) as H.
  cbv zeta in H. replace (- 0) with 0 in H by ring. replace (- - (3 / 4)) with (3 / 4) in H by ring. replace (/ (5 / 4)) with (4 / 5) in H by field.
  rewrite H. clear H. cbn [fst snd].
  pose proof (head_on 0 0 (- (3 / 4)) (5 / 4) (2 * 1) 0 ltac:(lra)) as (H1 & H2 & H3 & H4 & H5 & H6 & H7 & H8).
  replace (- 0) with 0 in H1, H2, H3, H4, H5, H6, H7, H8 by ring. replace (- - (3 / 4)) with (3 / 4) in H1, H2, H3, H4, H5, H6, H7, H8 by ring.
  replace (/ (5 / 4)) with (4 / 5) in H1, H2, H3, H4, H5, H6, H7, H8 by field.
  set (d := collision_data _ _ _ _ _ _ _ _ _ _ _) in *.
  assert (d_q1 d * d_q2 d = 0) as Q by (unfold d, collision_data; cbn [d_q1 d_q2]; ring).
  unfold coulomb_scattering. cbn [norm2] in H5. rewrite (sqrt_is _ (3 / 4)) in H5 by lra. rewrite (sqrt_is _ 0) in H6 by lra.
  rewrite H4, H5, H6. destruct (Req_EM_T (3 / 4) 0); [lra|]. rewrite path_neutral by exact Q. rewrite no_angle by lra.
  unfold rotate_momentum. cbv zeta. destruct (Rlt_dec _ 0); [lra|]. unfold store. cbv zeta. cbn [c_u]. apply vec_eq; field.
Qed.

(** Two charged particles meet along x in a small cell: with the random number 0 they scatter by pi. *)
Lemma charged_reflect :
  let a := {| c_u := (3 / 4, 0, 0); c_ig := 4 / 5; c_w := 2 |} in let b := {| c_u := (- (3 / 4), 0, 0); c_ig := 4 / 5; c_w := 2 |} in
  consistent a /\ consistent b /\
  c_u (fst (collision_kernel 1 1 1 1 1 1 1 10 0 1 1 (/ 100) 1 (0, 0, 1 / 2) a b)) = (- (3 / 4), 0, 0).
Proof.
  cbv zeta. unfold consistent, gamma. cbn [c_u c_ig norm2].
  rewrite (sqrt_is _ (5 / 4)) by lra. rewrite (sqrt_is _ (5 / 4)) by lra. split; [lra|]. split; [lra|].
  pose proof (head_on_kernel (3 / 4) 0 0 (5 / 4) 2 1 10 0 (/ 100) 1 (0, 0, 1 / 2) ltac:(lra) ltac:(lra) ltac:(lra) ltac:(cbn; lra) ltac:(lra)) as H.
  cbv zeta in H. replace (- 0) with 0 in H by ring. replace (/ (5 / 4)) with (4 / 5) in H by field.
  rewrite H. clear H. cbn [fst snd].
  pose proof (head_on (3 / 4) 0 0 (5 / 4) (2 * 1) 1 ltac:(lra)) as (H1 & H2 & H3 & H4 & H5 & H6 & H7 & H8).
  replace (- 0) with 0 in H1, H2, H3, H4, H5, H6, H7, H8 by ring.
  replace (/ (5 / 4)) with (4 / 5) in H1, H2, H3, H4, H5, H6, H7, H8 by field.
  set (d := collision_data _ _ _ _ _ _ _ _ _ _ _) in *.
  assert (4 <= path_s 1 1 d (/ 100) (1 * 1) 10) as S.
  { unfold path_s. rewrite H2, H5, H7, H8.
    assert (d_q1 d = 1 /\ d_q2 d = 1 /\ d_m1 d = 1 /\ d_m2 d = 1 /\ d_gamma1 d = 5 / 4 /\ d_gamma2 d = 5 / 4 /\ d_w1 d = 2 /\ d_w2 d = 2) as (-> & -> & -> & -> & -> & -> & -> & ->).
    { unfold d, collision_data. cbv zeta. cbn [d_q1 d_q2 d_m1 d_m2 d_gamma1 d_gamma2 d_w1 d_w2]. repeat split; field. }
    cbn [norm2]. rewrite (sqrt_is _ (3 / 4)) by lra. rewrite Rmax_left by lra.
    pose proof PI_4 as P4. pose proof PI_RGT_0 as P0.
    apply (Rmult_le_reg_r PI); [exact P0|].
    match goal with |- _ <= ?e * PI => replace (e * PI) with (2 * 100 * 10 / (4 * (25 / 16)) * (3 / 4) / (5 / 2) * (25 / 9 + 1) ^ 2) by (field; lra) end.
    lra. }
  unfold coulomb_scattering. cbn [norm2] in H5. rewrite (sqrt_is _ (3 / 4)) in H5 by lra. rewrite (sqrt_is _ (3 / 4)) in H6 by lra.
  rewrite H4, H5, H6. destruct (Req_EM_T (3 / 4) 0); [lra|]. unfold scattering_angle. destruct (Rlt_dec _ 4) as [L|_]; [lra|]. cbv zeta.
  replace (1 - (2 * 0 - 1) * (2 * 0 - 1)) with 0 by ring. rewrite sqrt_0.
  unfold rotate_momentum. cbv zeta. destruct (Rlt_dec _ _); unfold store; cbv zeta; cbn [c_u]; [|lra]. apply vec_eq; field.
Qed.
