(** C87, C88: profiles of laser pulses. *)
From Coq Require Import Reals Lra.
From Verif Require Import M_Profile S_Profile P_Profile.
Local Open Scope R_scope.

(** C87: the field never exceeds the amplitude asked for, for any polarisation, ellipticity, incidence and focus *)
Theorem C87_simple_bounded : forall s t y z, simple_ok s -> square (simple_fields s t y z) <= s_E0 s ^ 2.
Proof. exact simple_bound. Qed.
Theorem C87_gauss_bounded : forall g x t r, gauss_ok g -> square (gauss_fields (fun _ _ => 1) g x t r 0) <= g_E0 g ^ 2.
Proof. exact gauss_bound. Qed.
(** the polarisation angle turns the field: the fields are those of the laser polarised along y, turned by the angle *)
Theorem C87_simple_turned : forall s t y z pol ell, s_angle s = 0 -> simple_fields (s_polarised s pol ell) t y z = turned pol (simple_fields (s_polarised s 0 ell) t y z).
Proof. intros s t y z pol ell A0. rewrite !simple_normal by exact A0. apply polarised_turn. Qed.
Theorem C87_gauss_turned : forall lg g x t r phi pol ell, gauss_fields lg (g_polarised g pol ell) x t r phi = turned pol (gauss_fields lg (g_polarised g 0 ell) x t r phi).
Proof. intros lg g x t r phi pol ell. destruct (gauss_is lg g x t r phi) as (amp & ph & H). rewrite (proj1 (H pol ell)), (proj1 (H 0 ell)). apply polarised_turn. Qed.
(** the energy does not depend on the polarisation: E^2 added to its value a quarter of a cycle later is the same for all
    angles and ellipticities, linear and circular *)
Theorem C87_simple_energy : forall s t y z pol ell pol' ell', s_angle s = 0 ->
  square (simple_fields (s_polarised s pol ell) t y z) + square (simple_fields (s_ahead (s_polarised s pol ell)) t y z) =
  square (simple_fields (s_polarised s pol' ell') t y z) + square (simple_fields (s_ahead (s_polarised s pol' ell')) t y z).
Proof. intros s t y z pol ell pol' ell' A0. rewrite !simple_average by exact A0. reflexivity. Qed.
Theorem C87_gauss_energy : forall lg g x t r phi pol ell pol' ell',
  square (gauss_fields lg (g_polarised g pol ell) x t r phi) + square (gauss_fields lg (g_ahead (g_polarised g pol ell)) x t r phi) =
  square (gauss_fields lg (g_polarised g pol' ell') x t r phi) + square (gauss_fields lg (g_ahead (g_polarised g pol' ell')) x t r phi).
Proof.
  intros lg g x t r phi pol ell pol' ell'. destruct (gauss_is lg g x t r phi) as (amp & ph & H).
  rewrite (proj1 (H pol ell)), (proj2 (H pol ell)), (proj1 (H pol' ell')), (proj2 (H pol' ell')), !polarised_average. reflexivity.
Qed.
(** circular polarisation has constant strength, linear polarisation stays in its plane *)
Theorem C87_circular : forall s t y z pol ell, s_angle s = 0 -> Rabs ell = 1 ->
  square (simple_fields (s_polarised s pol ell) t y z) = square (simple_fields (s_ahead (s_polarised s pol ell)) t y z).
Proof.
  intros s t y z pol ell A0 E. rewrite !simple_normal by exact A0. cbn [s_ahead s_polarised s_omega s_cep s_pol s_ell]. rewrite !polarised_sq.
  assert (D : ell = 1 \/ ell = -1) by (unfold Rabs in E; destruct (Rcase_abs ell); lra). assert (E2 : ell ^ 2 = 1) by (destruct D as [->| ->]; ring). rewrite E2, !Rmult_1_l.
  change (s_amp (s_ahead (s_polarised s pol ell)) t y z) with (s_amp (s_polarised s pol ell) t y z). rewrite !sc. reflexivity.
Qed.
Theorem C87_linear : forall s t y z pol, s_angle s = 0 -> let e := simple_fields (s_polarised s pol 0) t y z in cos pol * snd e = sin pol * fst e.
Proof. intros s t y z pol A0 e. unfold e. rewrite simple_normal by exact A0. unfold polarised. cbv zeta. cbn [fst snd s_polarised s_pol s_ell s_omega s_cep]. unfold Rdiv. ring. Qed.
(** a pulse at normal incidence is zero when the simulation starts and from the time it is switched off *)
Theorem C87_simple_ends : forall s t y z, simple_ok s -> s_angle s = 0 -> t = 0 \/ simple_tstop s <= s_c s * t -> simple_fields s t y z = (0, 0).
Proof.
  intros s t y z _ A0 H. rewrite simple_normal by exact A0. unfold s_amp.
  assert (E : s_tprof s t y = 0). { destruct H as [->|H]; [now apply tprof_start|]. apply tprof_end. unfold s_trot, simple_tstop in * . rewrite A0, sin_0. lra. }
  rewrite E, Rmult_0_r. apply polarised_zero.
Qed.
(** the amplitude asked for is reached: on the axis, half way through the pulse *)
Theorem C87_simple_peak : forall s t, simple_ok s -> s_angle s = 0 -> s_c s * t = s_ctau s ->
  square (simple_fields s t 0 0) + square (simple_fields (s_ahead s) t 0 0) = s_E0 s ^ 2.
Proof.
  intros s t (_ & _ & _ & Hc & _) A0 H. rewrite simple_average by exact A0. unfold s_amp. rewrite (tprof_peak s t 0 Hc); [|unfold s_trot; rewrite H, Rmult_0_l, Rminus_0_r; apply Rabs_right; lra].
  replace (- (0 ^ 2 + 0 ^ 2) / s_w0 s ^ 2) with 0 by (unfold Rdiv; ring). rewrite exp_0. ring.
Qed.

(** C88: at oblique incidence a point of the boundary sees the pulse delayed by y sin(angle).  The field is not zero there
    before the pulse arrives: it has the full amplitude of the envelope one pulse duration too early *)
Definition slanted : simple := mkSimple 1 1 1 1 (PI / 6) 0 0 (PI / 2 + 1) 1.
Lemma slanted_ok : simple_ok slanted.
Proof. pose proof PI_RGT_0. unfold simple_ok, slanted. cbn. repeat split; try lra; rewrite Rabs_right; lra. Qed.
Theorem C88_before_arrival_refuted : exists s y, simple_ok s /\ s_trot s 0 y < 0 /\ fst (simple_fields s 0 y 0) <> 0.
Proof.
  exists slanted, 2. split; [exact slanted_ok|]. assert (T : s_trot slanted 0 2 = -1) by (unfold s_trot, slanted; cbn [s_c s_angle]; rewrite sin_PI6; field).
  split; [lra|]. assert (P : s_tprof slanted 0 2 = 1) by (apply tprof_peak; cbn [s_ctau slanted]; [lra|]; rewrite T; rewrite Rabs_left; lra).
  unfold simple_fields. cbv zeta. rewrite P. set (r := sqrt _). cbn [slanted s_E0 s_omega s_w0 s_angle s_pol s_ell s_cep s_c]. rewrite sin_PI6.
  replace (1 * 0 + (PI / 2 + 1) + - (1 / 1 * (1 / 2) * 2 + 0 * 0)) with (PI / 2) by field.
  unfold polarised. cbv zeta. cbn [fst]. rewrite sin_PI2, cos_PI2, cos_0, sin_0. replace (1 + 0 ^ 2) with 1 by ring. rewrite sqrt_1. pose proof (exp_pos (- r ^ 2 / 1 ^ 2)) as Q. rewrite cos_PI6.
  pose proof (sqrt_lt_R0 3 ltac:(lra)). intro E. set (w := exp _) in * . assert (w * (sqrt 3 / 2) = 0) by (rewrite <- E; field). nra.
Qed.
(** and the rest of the pulse is cut off on the other side: when the laser is switched off the envelope is still at its
    maximum there *)
Theorem C88_cut_off_refuted : exists s y t, simple_ok s /\ s_c s * t = simple_tstop s /\ 0 < s_trot s t y < 2 * s_ctau s /\ s_tprof s t y = 1.
Proof.
  exists slanted, 2, 2. split; [exact slanted_ok|]. assert (T : s_trot slanted 2 2 = 1) by (unfold s_trot, slanted; cbn [s_c s_angle]; rewrite sin_PI6; field).
  split; [unfold simple_tstop; cbn; ring|]. split; [rewrite T; cbn; lra|]. apply tprof_peak; cbn [s_ctau slanted]; [lra|]. rewrite T. apply Rabs_right. lra.
Qed.
(** non-vacuity: an accepted laser at normal incidence *)
Definition plain : simple := mkSimple 2 1 1 1 0 0 (1 / 2) 0 1.
Example ex_C87 : simple_ok plain /\ s_angle plain = 0 /\ s_c plain * 1 = s_ctau plain.
Proof. pose proof PI_RGT_0. unfold simple_ok, plain. cbn. repeat split; try lra; rewrite Rabs_right; lra. Qed.
Print Assumptions C87_simple_bounded.
Print Assumptions C87_gauss_bounded.
Print Assumptions C87_simple_turned.
Print Assumptions C87_gauss_turned.
Print Assumptions C87_simple_energy.
Print Assumptions C87_gauss_energy.
Print Assumptions C87_circular.
Print Assumptions C87_linear.
Print Assumptions C87_simple_ends.
Print Assumptions C87_simple_peak.
Print Assumptions C88_before_arrival_refuted.
Print Assumptions C88_cut_off_refuted.
