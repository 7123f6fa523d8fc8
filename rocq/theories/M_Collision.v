(** Model of one binary Coulomb collision and of the collisions of a cell.

    Sources: src/lambdapic/core/collision/utils.py:15-205 and core/collision/cpu.py:253-278 (Coulomb logarithm),
    306-372 (loops over the pairs), 374-428 [collision_kernel].  Numbers are real numbers; a [vec] is the triple of
    components the source keeps in separate variables or arrays.  The three random numbers of a collision
    (uniform in [0,1), phi, uniform in [0,1)) are inputs. *)
From Coq Require Import Reals Qreals.
From Verif Require Import Base M_Push M_Pairing.
Local Open Scope R_scope.

Local Notation vec := (vec R).
Section Collision.
(** scipy.constants: speed of light, vacuum permittivity, Planck constant *)
Variables c epsilon_0 h : R.

(** the quantities of one particle that a collision uses: ux uy uz, inv_gamma, w *)
Record cpart := { c_u : vec; c_ig : R; c_w : R }.

(** utils.py:15-24, without the fields nobody reads *)
Record cdata := { d_m1 : R; d_q1 : R; d_w1 : R; d_gamma1 : R; d_m2 : R; d_q2 : R; d_w2 : R; d_gamma2 : R;
  d_v_com : vec; d_gamma_com : R; d_v_com_square : R; d_p1_com_v : vec; d_p1_com : R; d_p_perp : R;
  d_gamma1_com : R; d_gamma2_com : R }.

(** utils.py:53, 200: fac = (gamma_com-1)/v_com_square if v_com_square > 0 else 0.0 *)
Definition boost_fac (gamma_com v_com_square : R) : R :=
  if Rlt_dec 0 v_com_square then (gamma_com - 1) / v_com_square else 0.

(** utils.py:27-73 *)
Definition collision_data (u1 : vec) (inv_gamma1 w1 m1 q1 : R) (u2 : vec) (inv_gamma2 w2 m2 q2 : R) : cdata :=
  let '(ux1, uy1, uz1) := u1 in let '(ux2, uy2, uz2) := u2 in
  let px1 := ux1 * m1 * c in let py1 := uy1 * m1 * c in let pz1 := uz1 * m1 * c in let gamma1 := 1 / inv_gamma1 in
  let px2 := ux2 * m2 * c in let py2 := uy2 * m2 * c in let pz2 := uz2 * m2 * c in let gamma2 := 1 / inv_gamma2 in
  let vx1 := ux1 * inv_gamma1 * c in let vy1 := uy1 * inv_gamma1 * c in let vz1 := uz1 * inv_gamma1 * c in
  let vx2 := ux2 * inv_gamma2 * c in let vy2 := uy2 * inv_gamma2 * c in let vz2 := uz2 * inv_gamma2 * c in
  let vx_com := (px1 + px2) / (gamma1 * m1 + gamma2 * m2) in
  let vy_com := (py1 + py2) / (gamma1 * m1 + gamma2 * m2) in
  let vz_com := (pz1 + pz2) / (gamma1 * m1 + gamma2 * m2) in
  let v_com_square := vx_com ^ 2 + vy_com ^ 2 + vz_com ^ 2 in
  let gamma_com := 1 / sqrt (1 - v_com_square / c ^ 2) in
  let fac := boost_fac gamma_com v_com_square in
  let px1_com := px1 + (fac * (vx1 * vx_com + vy1 * vy_com + vz1 * vz_com) - gamma_com) * m1 * gamma1 * vx_com in
  let py1_com := py1 + (fac * (vx1 * vx_com + vy1 * vy_com + vz1 * vz_com) - gamma_com) * m1 * gamma1 * vy_com in
  let pz1_com := pz1 + (fac * (vx1 * vx_com + vy1 * vy_com + vz1 * vz_com) - gamma_com) * m1 * gamma1 * vz_com in
  {| d_m1 := m1; d_q1 := q1; d_w1 := w1; d_gamma1 := gamma1; d_m2 := m2; d_q2 := q2; d_w2 := w2; d_gamma2 := gamma2;
     d_v_com := (vx_com, vy_com, vz_com); d_gamma_com := gamma_com; d_v_com_square := v_com_square;
     d_p1_com_v := (px1_com, py1_com, pz1_com); d_p1_com := sqrt (px1_com ^ 2 + py1_com ^ 2 + pz1_com ^ 2);
     d_p_perp := sqrt (px1_com ^ 2 + py1_com ^ 2);
     d_gamma1_com := (1 - (vx_com * vx1 + vy_com * vy1 + vz_com * vz1) / c ^ 2) * gamma_com * gamma1;
     d_gamma2_com := (1 - (vx_com * vx2 + vy_com * vy2 + vz_com * vz2) / c ^ 2) * gamma_com * gamma2 |}.

(** utils.py:160-177; the constant 1.e-10 *)
Definition rotate_momentum (p_v : vec) (p p_perp cosX sinX phi : R) : vec :=
  let '(px, py, pz) := p_v in
  let sinXcosPhi := sinX * cos phi in let sinXsinPhi := sinX * sin phi in
  if Rlt_dec (/ 10000000000 * p) p_perp then
    ((px * pz * sinXcosPhi - py * p * sinXsinPhi) / p_perp + px * cosX,
     (py * pz * sinXcosPhi + px * p * sinXsinPhi) / p_perp + py * cosX,
     - p_perp * sinXcosPhi + pz * cosX)
  else (p * sinXcosPhi, p * sinXsinPhi, p * cosX).

(** utils.py:137-138: the normalised path length *)
Definition path_s (d : cdata) (cell_vol dt lnLambda : R) : R :=
  Rmax (d_w1 d) (d_w2 d) / cell_vol * dt * (lnLambda * (d_q1 d * d_q2 d) ^ 2) / (4 * PI * epsilon_0 ^ 2 * c ^ 4 * d_m1 d * d_gamma1 d * d_m2 d * d_gamma2 d)
  * (d_gamma_com d * d_p1_com d) / (d_m1 d * d_gamma1 d + d_m2 d * d_gamma2 d)
  * (d_m1 d * d_gamma1_com d * d_m2 d * d_gamma2_com d / d_p1_com d ^ 2 * c ^ 2 + 1) ^ 2.

(** utils.py:142-150: cosine and sine of the scattering angle *)
Definition sin2X2 (s U : R) : R :=
  let alpha := 37 / 100 * s - 5 / 1000 * s ^ 2 - 64 / 10000 * s ^ 3 in
  alpha * U / sqrt ((1 - U) + alpha * alpha * U).
Definition scattering_angle (s U : R) : R * R :=
  if Rlt_dec s 4 then
    (1 - 2 * sin2X2 s U, 2 * sqrt (sin2X2 s U * (1 - sin2X2 s U)))
  else let cosX := 2 * U - 1 in (cosX, sqrt (1 - cosX * cosX)).

(** utils.py:101-156 *)
Definition coulomb_scattering (d : cdata) (cell_vol dt lnLambda U phi : R) : vec :=
  if Req_EM_T (d_p1_com d) 0 then d_p1_com_v d
  else let '(cosX, sinX) := scattering_angle (path_s d cell_vol dt lnLambda) U in
       rotate_momentum (d_p1_com_v d) (d_p1_com d) (d_p_perp d) cosX sinX phi.

(** utils.py:180-205 *)
Definition boost_to_lab (p_com : vec) (gamma_com_particle m : R) (v_com : vec) (v_com_square gamma_com : R) : vec :=
  let '(px_com, py_com, pz_com) := p_com in let '(vx_com, vy_com, vz_com) := v_com in
  let vcom_dot_p := vx_com * px_com + vy_com * py_com + vz_com * pz_com in
  let fac := boost_fac gamma_com v_com_square in
  (px_com + vx_com * (fac * vcom_dot_p + m * gamma_com_particle * gamma_com),
   py_com + vy_com * (fac * vcom_dot_p + m * gamma_com_particle * gamma_com),
   pz_com + vz_com * (fac * vcom_dot_p + m * gamma_com_particle * gamma_com)).

(** cpu.py:253-278 *)
Definition varying_lnLambda (d : cdata) (debye_length_inv_square : R) : R :=
  let q1q2 := Rabs (d_q1 d * d_q2 d) in
  let b0 := q1q2 / (4 * PI * epsilon_0 * c ^ 2) * d_gamma_com d / (d_m1 d * d_gamma1_com d + d_m2 d * d_gamma2_com d)
            * ((d_m1 d * d_gamma1_com d * d_m2 d * d_gamma2_com d) / d_p1_com d ^ 2 * c ^ 2 + 1) in
  let bmin := Rmax (h / 2 / d_p1_com d) b0 in
  if Rlt_dec 0 debye_length_inv_square then
    let lambdaD2 := 1 / debye_length_inv_square in Rmax 2 (5 / 10 * ln (1 + lambdaD2 / bmin ^ 2))
  else 2.

(** storing the momentum and its inverse gamma (cpu.py:419-420, 427-428) *)
Definition store (p : vec) (m w : R) : cpart :=
  let '(px, py, pz) := p in
  let ux := px / m / c in let uy := py / m / c in let uz := pz / m / c in
  {| c_u := (ux, uy, uz); c_ig := 1 / sqrt (ux ^ 2 + uy ^ 2 + uz ^ 2 + 1); c_w := w |}.

(** cpu.py:374-428; [rnd]: the three random numbers *)
Definition collision_kernel (m1 q1 m2 q2 : R) (lnLambda debye_length_inv_square dt_corr w_corr cell_vol dt : R)
    (rnd : R * R * R) (a b : cpart) : cpart * cpart :=
  let '(U1, phi, U) := rnd in
  let w1_corr := c_w a * w_corr in let w2_corr := c_w b * w_corr in
  let w_max := Rmax w1_corr w2_corr in
  let d := collision_data (c_u a) (c_ig a) w1_corr m1 q1 (c_u b) (c_ig b) w2_corr m2 q2 in
  if Req_EM_T (d_p1_com d) 0 then (a, b)
  else
    let lnLambda_ := if Rlt_dec 0 lnLambda then lnLambda else varying_lnLambda d debye_length_inv_square in
    let '(qx, qy, qz) := coulomb_scattering d cell_vol (dt * dt_corr) lnLambda_ U1 phi in
    (if Rlt_dec U (w2_corr / w_max)
     then store (boost_to_lab (qx, qy, qz) (d_gamma1_com d) m1 (d_v_com d) (d_v_com_square d) (d_gamma_com d)) m1 (c_w a) else a,
     if Rlt_dec U (w1_corr / w_max)
     then store (boost_to_lab (- qx, - qy, - qz) (d_gamma2_com d) m2 (d_v_com d) (d_v_com_square d) (d_gamma_com d)) m2 (c_w b) else b).

(** cpu.py:306-323 [intra_collision_cell]: the pairs in turn, each with its weight and time corrections and random
    numbers (from the generator of the patch); [ps] is the particle array of the species *)
Record job := { j_1 : nat; j_2 : nat; j_w : R; j_dt : R; j_rnd : R * R * R }.
Definition intra_step (m q lnLambda debye cell_vol dt : R) (ps : list cpart) (j : job) : list cpart :=
  match nth_error ps (j_1 j), nth_error ps (j_2 j) with
  | Some a, Some b =>
      let '(a', b') := collision_kernel m q m q lnLambda debye (j_dt j) (j_w j) cell_vol dt (j_rnd j) a b in
      upd (j_2 j) b' (upd (j_1 j) a' ps)
  | _, _ => ps
  end.
Definition intra_collision_cell (m q lnLambda debye cell_vol dt : R) (jobs : list job) (ps : list cpart) : list cpart :=
  fold_left (intra_step m q lnLambda debye cell_vol dt) jobs ps.
(** cpu.py:353-372 [inter_collision_cell]: two species *)
Definition inter_step (m1 q1 m2 q2 lnLambda debye cell_vol dt : R) (ps : list cpart * list cpart) (j : job) : list cpart * list cpart :=
  match nth_error (fst ps) (j_1 j), nth_error (snd ps) (j_2 j) with
  | Some a, Some b =>
      let '(a', b') := collision_kernel m1 q1 m2 q2 lnLambda debye (j_dt j) (j_w j) cell_vol dt (j_rnd j) a b in
      (upd (j_1 j) a' (fst ps), upd (j_2 j) b' (snd ps))
  | _, _ => ps
  end.
Definition inter_collision_cell (m1 q1 m2 q2 lnLambda debye cell_vol dt : R) (jobs : list job) (ps : list cpart * list cpart) : list cpart * list cpart :=
  fold_left (inter_step m1 q1 m2 q2 lnLambda debye cell_vol dt) jobs ps.

(** The collisions of the cell whose particles are the slots [start], ..., [stop - 1]: the pairs of the iterator
    (M_Pairing, with the shuffle [idx]), each with the random numbers drawn for it. *)
Definition job_of (p : pair) (rnd : R * R * R) : job :=
  {| j_1 := p_1 p; j_2 := p_2 p; j_w := Q2R (p_w p); j_dt := INR (p_dt p); j_rnd := rnd |}.
Definition jobs_of (ps : list pair) (rnds : list (R * R * R)) : list job := map (fun pr => job_of (fst pr) (snd pr)) (combine ps rnds).
Definition intra_cell (m q lnLambda debye cell_vol dt : R) (dead : list bool) (start stop : nat) (idx : list nat)
    (rnds : list (R * R * R)) (ps : list cpart) : list cpart :=
  intra_collision_cell m q lnLambda debye cell_vol dt (jobs_of (intra_pairs dead start stop idx) rnds) ps.
Definition inter_cell (m1 q1 m2 q2 lnLambda debye cell_vol dt : R) (dead1 : list bool) (start1 stop1 : nat)
    (dead2 : list bool) (start2 stop2 : nat) (idx : list nat) (rnds : list (R * R * R)) (ps : list cpart * list cpart) : list cpart * list cpart :=
  inter_collision_cell m1 q1 m2 q2 lnLambda debye cell_vol dt
    (jobs_of (inter_pairs dead1 start1 stop1 dead2 start2 stop2 idx) rnds) ps.
End Collision.
