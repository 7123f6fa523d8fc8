(** Model of the profiles of laser pulses (callback/laser.py:273-555) over the real numbers.
    A profile gives Ey and Ez at the boundary as a function of time and of the coordinates y, z relative to the centre of the
    beam.  The constructor's checks (laser.py:312-327, 442-457) are hypotheses of the statements.
    Simplifications: real arithmetic; the generalised Laguerre polynomial is an arbitrary function. *)
From Coq Require Import Reals.
Local Open Scope R_scope.

(** laser.py:375-387, 537-552: the two components from amplitude, phase, polarisation angle and ellipticity *)
Definition polarised (amp phase pol ell : R) : R * R :=
  let norm := sqrt (1 + ell ^ 2) in
  let major := 1 / norm in
  let minor := ell / norm in
  (amp * (major * cos pol * sin phase - minor * sin pol * cos phase), amp * (major * sin pol * sin phase + minor * cos pol * cos phase)).

(** attributes of SimpleLaser (laser.py:329-348); [s_c]: the speed of light; angle_z is 0 *)
Record simple := mkSimple { s_E0 : R; s_omega : R; s_w0 : R; s_ctau : R; s_angle : R; s_pol : R; s_ell : R; s_cep : R; s_c : R }.
(** laser.py:366: t_rot *)
Definition s_trot (s : simple) (time y : R) : R := s_c s * time - y * sin (s_angle s).
(** laser.py:367: the comparison counts as the number 1 or 0 *)
Definition s_tprof (s : simple) (time y : R) : R := sin (s_trot s time y / (2 * s_ctau s) * PI) ^ 2 * (if Rlt_dec (s_trot s time y) (2 * s_ctau s) then 1 else 0).
(** laser.py:351-388 *)
Definition simple_fields (s : simple) (time y z : R) : R * R :=
  let ky := s_omega s / s_c s * sin (s_angle s) in
  let r_rot := sqrt ((y / cos (s_angle s)) ^ 2 + z ^ 2) in
  let amp := s_E0 s * exp (- r_rot ^ 2 / s_w0 s ^ 2) * s_tprof s time y in
  let phase := s_omega s * time + s_cep s + - (ky * y + 0 * z) in
  let '(ey, ez) := polarised amp phase (s_pol s) (s_ell s) in
  (ey * cos (s_angle s), ez * cos 0).
(** laser.py:339: tstop when none is given *)
Definition simple_tstop (s : simple) : R := 2 * s_ctau s.

(** attributes of GaussianLaser (laser.py:458-486) *)
Record gauss := mkGauss { g_E0 : R; g_l0 : R; g_w0 : R; g_ctau : R; g_x0 : R; g_pol : R; g_ell : R; g_cep : R; g_focus : R; g_c : R; g_l : R; g_p : R }.
Definition g_omega (g : gauss) : R := 2 * PI * g_c g / g_l0 g.
Definition g_k0 (g : gauss) : R := g_omega g / g_c g.
Definition g_zR (g : gauss) : R := PI * g_w0 g ^ 2 / g_l0 g.
(** laser.py:488-502: radius of the beam, curvature 1/R (0 for an infinite radius), Gouy phase *)
Definition g_params (g : gauss) (x : R) : R * R * R :=
  let z := x - g_focus g in
  (g_w0 g * sqrt (1 + (z / g_zR g) ^ 2), if Rlt_dec (1 / 10 ^ 10) (Rabs z) then / (z * (1 + (g_zR g / z) ^ 2)) else 0, atan (z / g_zR g)).
(** laser.py:504-553; [lg r w]: the factor of the Laguerre-Gaussian mode, 1 for l = p = 0; [phi]: the azimuth times l *)
Definition gauss_fields (lg : R -> R -> R) (g : gauss) (x_rel time r phi : R) : R * R :=
  let tprof := exp (- (g_c g * time - g_x0 g) ^ 2 / g_ctau g ^ 2) in
  let '(w, curv, psi) := g_params g x_rel in
  let amp := g_E0 g * (g_w0 g / w) * exp (- r ^ 2 / w ^ 2) * lg r w in
  let phase := g_omega g * time + g_cep g - g_k0 g * x_rel - g_k0 g * r ^ 2 / 2 * curv - (2 * g_p g + Rabs (g_l g) + 1) * psi - phi in
  polarised (amp * tprof) phase (g_pol g) (g_ell g).
