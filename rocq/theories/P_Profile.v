(** Laser profiles: amplitudes, polarisation, ends of the pulse. *)
From Coq Require Import Reals Lra Psatz.
From Verif Require Import M_Profile S_Profile.
Local Open Scope R_scope.

Lemma norm_pos ell : 0 < sqrt (1 + ell ^ 2).
Proof. apply sqrt_lt_R0. nra. Qed.
Lemma norm_sq ell : sqrt (1 + ell ^ 2) ^ 2 = 1 + ell ^ 2.
Proof. rewrite <- Rsqr_pow2. apply Rsqr_sqrt. nra. Qed.
Lemma sc a : sin a ^ 2 + cos a ^ 2 = 1.
Proof. rewrite <- !Rsqr_pow2. apply sin2_cos2. Qed.
(** in terms of the amplitude: (1 + ell^2) E^2 = amp^2 (sin^2 + ell^2 cos^2) *)
Lemma polarised_sq amp phase pol ell : square (polarised amp phase pol ell) = amp ^ 2 * (sin phase ^ 2 + ell ^ 2 * cos phase ^ 2) / (1 + ell ^ 2).
Proof.
  unfold square, polarised. cbv zeta. cbn [fst snd]. pose proof (norm_pos ell) as P. pose proof (norm_sq ell) as Q. set (n := sqrt (1 + ell ^ 2)) in * .
  rewrite <- Q. pose proof (sc pol) as C. 
  transitivity (amp ^ 2 * ((sin pol ^ 2 + cos pol ^ 2) * sin phase ^ 2 + ell ^ 2 * ((sin pol ^ 2 + cos pol ^ 2) * cos phase ^ 2)) / n ^ 2); [field; lra|]. rewrite C, !Rmult_1_l. reflexivity.
Qed.
Lemma polarised_bound amp phase pol ell : Rabs ell <= 1 -> square (polarised amp phase pol ell) <= amp ^ 2.
Proof.
  intro He. rewrite polarised_sq. assert (D : 0 < 1 + ell ^ 2) by nra. apply Rmult_le_reg_r with (1 + ell ^ 2); [exact D|].
  unfold Rdiv. rewrite Rmult_assoc, Rinv_l, Rmult_1_r by lra. apply Rmult_le_compat_l; [nra|]. pose proof (sc phase) as C. pose proof (pow2_ge_0 (sin phase)). pose proof (pow2_ge_0 (cos phase)). pose proof (pow2_ge_0 ell). nra.
Qed.
Lemma polarised_average amp phase pol ell : square (polarised amp phase pol ell) + square (polarised amp (phase + PI / 2) pol ell) = amp ^ 2.
Proof.
  rewrite !polarised_sq. assert (E1 : sin (phase + PI / 2) = cos phase) by (rewrite Rplus_comm, <- cos_sin; reflexivity || (rewrite cos_sin; f_equal; ring)).
  assert (E2 : cos (phase + PI / 2) = - sin phase) by (rewrite (cos_sin (phase + PI / 2)); replace (PI / 2 + (phase + PI / 2)) with (phase + PI) by field; apply neg_sin).
  rewrite E1, E2. pose proof (sc phase) as C. assert (D : 1 + ell ^ 2 <> 0) by nra. transitivity (amp ^ 2 * ((sin phase ^ 2 + cos phase ^ 2) * (1 + ell ^ 2)) / (1 + ell ^ 2)); [field; exact D|]. rewrite C. field. exact D.
Qed.
Lemma polarised_turn amp phase pol ell : polarised amp phase pol ell = turned pol (polarised amp phase 0 ell).
Proof. unfold polarised, turned. cbv zeta. cbn [fst snd]. rewrite cos_0, sin_0. f_equal; ring. Qed.
Lemma polarised_zero phase pol ell : polarised 0 phase pol ell = (0, 0).
Proof. unfold polarised. cbv zeta. f_equal; ring. Qed.

Lemma tprof_bound s t y : 0 <= s_tprof s t y <= 1.
Proof.
  unfold s_tprof. set (a := s_trot s t y / (2 * s_ctau s) * PI). pose proof (sc a) as C. pose proof (pow2_ge_0 (sin a)). pose proof (pow2_ge_0 (cos a)). destruct (Rlt_dec _ _); lra.
Qed.
Lemma exp_le1 x : x <= 0 -> 0 < exp x <= 1.
Proof. intro H. split; [apply exp_pos|]. rewrite <- exp_0. destruct (Req_dec x 0) as [->|N]; [lra|]. left. apply exp_increasing. lra. Qed.
Lemma ratio_neg a w : - a ^ 2 / w ^ 2 <= 0.
Proof.
  destruct (Req_dec w 0) as [->|N].
  - replace (0 ^ 2) with 0 by ring. unfold Rdiv. rewrite Rinv_0. lra || (rewrite Rmult_0_r; lra).
  - assert (0 < w ^ 2) by nra. unfold Rdiv. pose proof (pow2_ge_0 a). pose proof (Rinv_0_lt_compat _ H). nra.
Qed.
Lemma scaled_bound E0 e k : 0 < E0 -> 0 <= k <= 1 -> 0 <= e <= 1 -> (E0 * e * k) ^ 2 <= E0 ^ 2.
Proof. intros H Hk He. assert (0 <= e * k <= 1) by nra. replace (E0 * e * k) with (E0 * (e * k)) by ring. set (u := e * k) in * . assert (u ^ 2 <= 1) by nra. rewrite Rpow_mult_distr. pose proof (pow2_ge_0 E0). nra. Qed.
Lemma simple_bound s t y z : simple_ok s -> square (simple_fields s t y z) <= s_E0 s ^ 2.
Proof.
  intros (H0 & _ & _ & _ & _ & He & _). unfold simple_fields. cbv zeta. set (r := sqrt _). set (amp := _ * exp _ * _). set (ph := _ + - _).
  pose proof (polarised_bound amp ph (s_pol s) (s_ell s) He) as B. destruct (polarised amp ph (s_pol s) (s_ell s)) as [ey ez]. unfold square in * . cbn [fst snd] in * .
  assert (A : amp ^ 2 <= s_E0 s ^ 2) by (apply scaled_bound; [exact H0|apply tprof_bound|pose proof (exp_le1 _ (ratio_neg r (s_w0 s))); lra]).
  rewrite cos_0, Rmult_1_r. pose proof (sc (s_angle s)) as C. pose proof (pow2_ge_0 (sin (s_angle s))). pose proof (pow2_ge_0 ey). rewrite Rpow_mult_distr. nra.
Qed.
Lemma gauss_bound g x t r : gauss_ok g -> square (gauss_fields (fun _ _ => 1) g x t r 0) <= g_E0 g ^ 2.
Proof.
  intros (H0 & H1 & Hw & _ & He & _). unfold gauss_fields. cbv zeta. destruct (g_params g x) as [[w curv] psi] eqn:E. eapply Rle_trans; [apply polarised_bound; exact He|].
  assert (W : g_w0 g <= w). { unfold g_params in E. cbv zeta in E. injection E as <- _ _. rewrite <- (Rmult_1_r (g_w0 g)) at 1. apply Rmult_le_compat_l; [lra|]. rewrite <- sqrt_1 at 1. apply sqrt_le_1_alt. set (q := _ / _). pose proof (pow2_ge_0 q). lra. }
  rewrite !Rmult_1_r. set (e1 := exp (- r ^ 2 / w ^ 2)). set (e2 := exp _).
  assert (B1 : 0 < e1 <= 1) by (apply exp_le1, ratio_neg). assert (B2 : 0 < e2 <= 1) by (apply exp_le1, ratio_neg).
  assert (B0 : 0 <= g_w0 g / w <= 1). { split; [apply Rmult_le_pos; [lra|left; apply Rinv_0_lt_compat; lra]|]. apply Rmult_le_reg_r with w; [lra|]. unfold Rdiv. rewrite Rmult_assoc, Rinv_l by lra. lra. }
  replace (g_E0 g * (g_w0 g / w) * e1 * e2) with (g_E0 g * (g_w0 g / w * e1) * e2) by ring. apply scaled_bound; [exact H0|lra|]. nra.
Qed.
Definition s_amp (s : simple) (t y z : R) : R := s_E0 s * exp (- (y ^ 2 + z ^ 2) / s_w0 s ^ 2) * s_tprof s t y.
Lemma sqrt_sum y z : sqrt (y ^ 2 + z ^ 2) ^ 2 = y ^ 2 + z ^ 2.
Proof. rewrite <- Rsqr_pow2. apply Rsqr_sqrt. pose proof (pow2_ge_0 y). pose proof (pow2_ge_0 z). lra. Qed.
Lemma simple_normal s t y z : s_angle s = 0 -> simple_fields s t y z = polarised (s_amp s t y z) (s_omega s * t + s_cep s) (s_pol s) (s_ell s).
Proof.
  intro A0. unfold simple_fields, s_amp. cbv zeta. rewrite A0, sin_0, cos_0. replace (y / 1) with y by field. rewrite sqrt_sum.
  replace (s_omega s * t + s_cep s + - (s_omega s / s_c s * 0 * y + 0 * z)) with (s_omega s * t + s_cep s) by ring.
  destruct (polarised _ _ _ _) as [ey ez]. rewrite !Rmult_1_r. reflexivity.
Qed.
Lemma simple_average s t y z : s_angle s = 0 -> square (simple_fields s t y z) + square (simple_fields (s_ahead s) t y z) = s_amp s t y z ^ 2.
Proof.
  intro A0. rewrite !simple_normal by exact A0. change (s_amp (s_ahead s) t y z) with (s_amp s t y z). cbn [s_ahead s_omega s_cep s_pol s_ell].
  rewrite <- Rplus_assoc. apply polarised_average.
Qed.
Lemma gauss_is lg g x t r phi : exists amp ph, forall pol ell, gauss_fields lg (g_polarised g pol ell) x t r phi = polarised amp ph pol ell /\ gauss_fields lg (g_ahead (g_polarised g pol ell)) x t r phi = polarised amp (ph + PI / 2) pol ell.
Proof.
  destruct (g_params g x) as [[w curv] psi] eqn:E.
  exists (g_E0 g * (g_w0 g / w) * exp (- r ^ 2 / w ^ 2) * lg r w * exp (- (g_c g * t - g_x0 g) ^ 2 / g_ctau g ^ 2)), (g_omega g * t + g_cep g - g_k0 g * x - g_k0 g * r ^ 2 / 2 * curv - (2 * g_p g + Rabs (g_l g) + 1) * psi - phi).
  intros pol ell. unfold gauss_fields. cbv zeta. change (g_params (g_polarised g pol ell) x) with (g_params g x). change (g_params (g_ahead (g_polarised g pol ell)) x) with (g_params g x). rewrite E.
  split; [reflexivity|]. unfold g_k0, g_omega. cbn [g_ahead g_polarised g_E0 g_l0 g_w0 g_ctau g_x0 g_pol g_ell g_cep g_focus g_c g_l g_p]. f_equal. ring.
Qed.
Lemma tprof_start s y : s_angle s = 0 -> s_tprof s 0 y = 0.
Proof. intro A0. unfold s_tprof, s_trot. rewrite A0, sin_0. replace ((s_c s * 0 - y * 0) / (2 * s_ctau s) * PI) with 0 by (unfold Rdiv; ring). rewrite sin_0. ring. Qed.
Lemma tprof_end s t y : 2 * s_ctau s <= s_trot s t y -> s_tprof s t y = 0.
Proof. intro H. unfold s_tprof. destruct (Rlt_dec _ _); [lra|ring]. Qed.
Lemma tprof_peak s t y : 0 < s_ctau s -> Rabs (s_trot s t y) = s_ctau s -> s_tprof s t y = 1.
Proof.
  intros Hc Ht. unfold s_tprof. assert (D : s_trot s t y = s_ctau s \/ s_trot s t y = - s_ctau s) by (unfold Rabs in Ht; destruct (Rcase_abs _); lra).
  destruct (Rlt_dec _ _) as [L|L]; [|destruct D; lra]. destruct D as [->| ->].
  - replace (s_ctau s / (2 * s_ctau s) * PI) with (PI / 2) by (field; lra). rewrite sin_PI2. ring.
  - replace (- s_ctau s / (2 * s_ctau s) * PI) with (- (PI / 2)) by (field; lra). rewrite sin_neg, sin_PI2. ring.
Qed.
