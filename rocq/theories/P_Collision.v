(** Proofs about binary collisions. *)
From Coq Require Import Reals Lra.
From Verif Require Import Base M_Push S_Push P_Boris M_Collision S_Collision.
Local Open Scope R_scope.
Local Notation vec := (vec R).

Lemma vec_ext (u v : vec) : fst (fst u) = fst (fst v) -> snd (fst u) = snd (fst v) -> snd u = snd v -> u = v.
Proof. destruct u as [[a b] c], v as [[a' b'] c']. cbn. congruence. Qed.
Ltac vring := repeat match goal with v : vec |- _ => destruct v as [[? ?] ?] end; cbn [vadd vscale dot norm2 cross]; first [ring | apply vec_eq; ring].

Lemma norm2_nonneg v : 0 <= norm2 v.
Proof. destruct v as [[x y] z]. cbn [norm2]. nra. Qed.
Lemma norm2_zero v : norm2 v = 0 -> v = (0, 0, 0).
Proof. destruct v as [[x y] z]. cbn [norm2]. intro H. apply vec_eq; nra. Qed.
Lemma cauchy u v : dot u v * dot u v <= norm2 u * norm2 v.
Proof.
  destruct u as [[x y] z], v as [[a b] d]. cbn [dot norm2].
  pose proof (Rle_0_sqr (x * b - y * a)). pose proof (Rle_0_sqr (y * d - z * b)). pose proof (Rle_0_sqr (z * a - x * d)). unfold Rsqr in *.
  lra.
Qed.

(** * Boosts *)
Lemma norm2_add_scale p v K : norm2 (vadd p (vscale K v)) = norm2 p + 2 * K * dot v p + K * K * norm2 v.
Proof. vring. Qed.
Definition bst (v : vec) (fac G m g : R) (p : vec) : vec := vadd p (vscale (fac * dot v p + m * g * G) v).

Section Boost.
Variables (c G fac : R) (v : vec).
Hypothesis C : 0 < c.
Hypothesis GV : G * G * (c * c - norm2 v) = c * c.
Hypothesis FAC : fac * norm2 v = G - 1.
Hypothesis GP : 0 < G.

Lemma slow : norm2 v < c * c.
Proof using C GV GP. destruct (Rlt_le_dec (norm2 v) (c * c)) as [H|H]; [exact H|]. exfalso. assert (0 < G * G) by nra. nra. Qed.

Lemma fac_G d : (norm2 v = 0 -> d = 0) -> fac * (G + 1) * (c * c) * d = G * G * d.
Proof using C GV FAC.
  intro D. destruct (Req_dec (norm2 v) 0) as [Z|NZ]; [rewrite (D Z); ring|].
  apply (Rmult_eq_reg_l (norm2 v)); [|exact NZ].
  replace (norm2 v * (fac * (G + 1) * (c * c) * d)) with (fac * norm2 v * (G + 1) * (c * c) * d) by ring.
  rewrite FAC. replace (norm2 v * (G * G * d)) with ((G * G * norm2 v) * d) by ring.
  replace (G * G * norm2 v) with ((G * G - 1) * (c * c)) by lra. ring.
Qed.
Lemma dot_zero p : norm2 v = 0 -> dot v p = 0.
Proof using. intro Z. rewrite (norm2_zero v Z). destruct p as [[x y] z]. cbn [dot]. ring. Qed.

(** the energy after the boost *)
Lemma bst_energy m g p : m * m * (c * c) * (g * g) = m * m * (c * c) + norm2 p ->
  (c * c) * (m * m * (c * c) + norm2 (bst v fac G m g p)) = (G * (m * (c * c) * g + dot v p)) * (G * (m * (c * c) * g + dot v p)).
Proof using C GV FAC.
  intro E. unfold bst.
  set (K := fac * dot v p + m * g * G).
  rewrite norm2_add_scale.
  pose proof (fac_G (dot v p) (dot_zero p)) as F. set (d := dot v p) in *. set (n := norm2 v) in *. set (pp := norm2 p) in *.
  assert (K * n = (G - 1) * d + m * g * G * n) as KN by (unfold K; transitivity (fac * n * d + m * g * G * n); [ring|rewrite FAC; ring]).
  replace (2 * K * d + K * K * n) with (K * (2 * d + K * n)) by ring.
  replace (pp + 2 * K * d + K * K * n) with (pp + K * (2 * d + K * n)) by ring.
  rewrite KN. replace pp with (m * m * (c * c) * (g * g) - m * m * (c * c)) by lra.
  assert (c * c * (K * (2 * d + ((G - 1) * d + m * g * G * n)))
    = G * G * d * d + c * c * (m * g * G * d * (G + 1)) + (c * c) * m * g * G * (fac * n) * d + m * g * m * g * c * c * (G * G * n)) as H.
  { unfold K. replace (G * G * d * d) with (fac * (G + 1) * (c * c) * d * d) by (rewrite F; ring). ring. }
  rewrite FAC in H. replace (G * G * n) with ((G * G - 1) * (c * c)) in H by lra.
  transitivity (c * c * (m * m * (c * c) * (g * g)) + c * c * (K * (2 * d + ((G - 1) * d + m * g * G * n)))); [ring|].
  rewrite H. ring.
Qed.

(** it is positive *)
Lemma bst_pos m g p : 0 < m -> 0 < g -> m * m * (c * c) * (g * g) = m * m * (c * c) + norm2 p -> 0 < G * (m * (c * c) * g + dot v p).
Proof using C GV GP.
  intros M GG E. apply Rmult_lt_0_compat; [exact GP|].
  pose proof slow as SL. pose proof (cauchy v p) as CS. pose proof (norm2_nonneg v) as N1. pose proof (norm2_nonneg p) as N2.
  set (a := m * (c * c) * g). assert (0 < a) as A by (unfold a; repeat apply Rmult_lt_0_compat; assumption).
  assert (norm2 v * norm2 p < a * a) as L.
  { assert (0 < m * m * (c * c)) as MM by (repeat apply Rmult_lt_0_compat; assumption).
    assert (norm2 p < m * m * (c * c) * (g * g)) as L1 by lra.
    apply Rle_lt_trans with (c * c * norm2 p); [apply Rmult_le_compat_r; lra|].
    unfold a. replace (m * (c * c) * g * (m * (c * c) * g)) with (c * c * (m * m * (c * c) * (g * g))) by ring.
    apply Rmult_lt_compat_l; [nra|exact L1]. }
  destruct (Rlt_le_dec 0 (a + dot v p)) as [H|H]; [exact H|]. exfalso.
  assert (dot v p <= - a) as B by lra. assert (a * a <= dot v p * dot v p) by nra. lra.
Qed.
End Boost.

(** * The scattering angle *)
Lemma alpha_nonneg s : 0 <= s < 4 -> 0 <= 37 / 100 * s - 5 / 1000 * s ^ 2 - 64 / 10000 * s ^ 3.
Proof. intros [A B]. replace (37 / 100 * s - 5 / 1000 * s ^ 2 - 64 / 10000 * s ^ 3) with (s * (37 / 100 - 5 / 1000 * s - 64 / 10000 * (s * s))) by ring.
  apply Rmult_le_pos; nra. Qed.

Lemma sin2_range s U : 0 <= s < 4 -> 0 <= U < 1 -> 0 <= sin2X2 s U <= 1.
Proof.
  intros SS [U0 U1]. unfold sin2X2. cbv zeta. pose proof (alpha_nonneg s SS) as A. set (al := 37 / 100 * s - _ - _) in *. clearbody al.
  set (r := 1 - U + al * al * U).
  assert (0 < r) as R0 by (unfold r; assert (0 <= al * al * U) by (apply Rmult_le_pos; nra); lra).
  pose proof (sqrt_lt_R0 r R0) as Q. split.
  - apply Rmult_le_pos; [apply Rmult_le_pos; assumption|left; now apply Rinv_0_lt_compat].
  - apply (Rmult_le_reg_r (sqrt r)); [exact Q|]. unfold Rdiv. rewrite Rmult_assoc, Rinv_l, Rmult_1_r, Rmult_1_l by lra.
    apply Rsqr_incr_0_var; [|lra]. rewrite Rsqr_sqrt by lra. unfold Rsqr, r.
    assert (0 <= al * al * (U * (1 - U))) by (apply Rmult_le_pos; nra). nra.
Qed.

Lemma angle_unit s U : 0 <= s -> 0 <= U < 1 -> let '(co, si) := scattering_angle s U in co * co + si * si = 1.
Proof.
  intros S0 UU. unfold scattering_angle. destruct (Rlt_dec s 4) as [L|L].
  - destruct (sin2_range s U (conj S0 L) UU) as [A B]. set (k := sin2X2 s U) in *.
    replace (2 * sqrt (k * (1 - k)) * (2 * sqrt (k * (1 - k)))) with (4 * (sqrt (k * (1 - k)) * sqrt (k * (1 - k)))) by ring.
    rewrite sqrt_def by (apply Rmult_le_pos; lra). ring.
  - rewrite sqrt_def; [ring|]. nra.
Qed.

Lemma rotate_norm p_v p pp co si phi :
  p = sqrt (norm2 p_v) -> pp = (let '(x, y, _) := p_v in sqrt (x * x + y * y)) -> 0 < p -> co * co + si * si = 1 ->
  norm2 (rotate_momentum p_v p pp co si phi) = norm2 p_v.
Proof.
  intros P PP P0 CS. destruct p_v as [[x y] z]. cbn [norm2] in *.
  assert (p * p = x * x + y * y + z * z) as E by (rewrite P; apply sqrt_def; nra).
  assert (pp * pp = x * x + y * y) as EP by (rewrite PP; apply sqrt_def; nra).
  pose proof (sin2_cos2 phi) as T. unfold Rsqr in T.
  unfold rotate_momentum. set (A := si * cos phi). set (B := si * sin phi).
  assert (A * A + B * B + co * co = 1) as AB.
  { unfold A, B. transitivity (si * si * (sin phi * sin phi + cos phi * cos phi) + co * co); [ring|]. rewrite T. lra. }
  clearbody A B. clear T P PP.
  destruct (Rlt_dec _ pp) as [L|L].
  - assert (0 < pp) as PP by lra. cbn [norm2].
    assert (((x * z * A - y * p * B) / pp + x * co) * ((x * z * A - y * p * B) / pp + x * co)
            + ((y * z * A + x * p * B) / pp + y * co) * ((y * z * A + x * p * B) / pp + y * co)
            = (z * z * (A * A) + p * p * (B * B)) * ((x * x + y * y) / (pp * pp)) + 2 * co * z * A * ((x * x + y * y) / pp) + (x * x + y * y) * (co * co)) as H by (field; lra).
    rewrite H. rewrite <- EP. replace (pp * pp / (pp * pp)) with 1 by (field; lra). replace (pp * pp / pp) with pp by (field; lra).
    transitivity ((z * z + pp * pp) * (A * A) + p * p * (B * B) + (pp * pp + z * z) * (co * co)); [ring|].
    rewrite E. replace (z * z + pp * pp) with (x * x + y * y + z * z) by lra. replace (pp * pp + z * z) with (x * x + y * y + z * z) by lra.
    transitivity ((x * x + y * y + z * z) * (A * A + B * B + co * co)); [ring|]. rewrite AB. lra.
  - cbn [norm2]. transitivity (p * p * (A * A + B * B + co * co)); [ring|]. rewrite AB. lra.
Qed.

(** * The two particles *)
Lemma gg u : gamma u * gamma u = 1 + norm2 u.
Proof. unfold gamma. apply sqrt_def. pose proof (norm2_nonneg u). lra. Qed.
Lemma g_shell c (m : R) (u : vec) : m * m * (c * c) * (gamma u * gamma u) = m * m * (c * c) + norm2 (vscale (m * c) u).
Proof. rewrite gg. vring. Qed.
Lemma neg_n (w : vec) : norm2 (vscale (-1) w) = norm2 w.
Proof. vring. Qed.
Lemma scale_n k (w : vec) : norm2 (vscale k w) = norm2 w * (k * k).
Proof. vring. Qed.
Lemma add_n u w : norm2 (vadd u w) = norm2 u + 2 * dot u w + norm2 w.
Proof. vring. Qed.
Lemma dot_neg v p : dot (vscale (-1) v) p = - dot v p.
Proof. vring. Qed.
Lemma dot_neg_r v p : dot v (vscale (-1) p) = - dot v p.
Proof. vring. Qed.
Lemma dot_add v a b : dot v (vadd a b) = dot v a + dot v b.
Proof. vring. Qed.
Lemma dot_self k v : dot v (vscale k v) = k * norm2 v.
Proof. vring. Qed.
Lemma add_sub a b : b = vadd (vadd a b) (vscale (-1) a).
Proof. vring. Qed.
Section Pair.
Variables c epsilon_0 h : R.
Hypothesis C : 0 < c.
Hypothesis EPS : 0 < epsilon_0.

Variables (u1 u2 : vec) (m1 m2 q1 q2 w1 w2 : R).
Hypothesis M1 : 0 < m1.
Hypothesis M2 : 0 < m2.

Let g1 := gamma u1.
Let g2 := gamma u2.
Let d := collision_data c u1 (/ g1) w1 m1 q1 u2 (/ g2) w2 m2 q2.
Let M := m1 * g1 + m2 * g2.
Let p1 := vscale (m1 * c) u1.
Let p2 := vscale (m2 * c) u2.
Let v := vscale (/ M) (vadd p1 p2).
Let G := 1 / sqrt (1 - norm2 v / c ^ 2).
Let fac := boost_fac G (norm2 v).

Lemma M_pos : 0 < M.
Proof using M1 M2. unfold M, g1, g2. pose proof (gamma_pos u1). pose proof (gamma_pos u2). nra. Qed.

Lemma data_v : d_v_com d = v.
Proof using C M1 M2.
  unfold d, collision_data. pose proof (gamma_pos u1) as P1. pose proof (gamma_pos u2) as P2. fold g1 in P1. fold g2 in P2.
  pose proof M_pos as MP. unfold v, p1, p2, M in *.
  destruct u1 as [[x1 y1] z1], u2 as [[x2 y2] z2]. cbv zeta. cbn [d_v_com vadd vscale]. apply vec_eq; field; repeat split; try lra.
Qed.
Lemma data_vv : d_v_com_square d = norm2 v.
Proof using C M1 M2.
  rewrite <- data_v. unfold d, collision_data. destruct u1 as [[x1 y1] z1], u2 as [[x2 y2] z2]. cbv zeta. cbn [d_v_com d_v_com_square norm2]. ring.
Qed.
Lemma data_G : d_gamma_com d = G.
Proof using C M1 M2.
  unfold G. rewrite <- data_vv. unfold d, collision_data. destruct u1 as [[x1 y1] z1], u2 as [[x2 y2] z2]. reflexivity.
Qed.

Lemma v_slow : norm2 v < c * c.
Proof using C M1 M2.
  pose proof M_pos as MP.
  assert (norm2 v = norm2 (vadd p1 p2) * / (M * M)) as ->.
  { unfold v. rewrite scale_n. field. lra. }
  assert (0 < M * M) as MM by nra.
  apply (Rmult_lt_reg_r (M * M)); [exact MM|]. rewrite Rmult_assoc, Rinv_l, Rmult_1_r by lra.
  pose proof (g_shell c m1 u1) as E1. pose proof (g_shell c m2 u2) as E2. fold g1 p1 in E1. fold g2 p2 in E2.
  pose proof (gamma_pos u1) as P1. pose proof (gamma_pos u2) as P2. fold g1 in P1. fold g2 in P2.
  pose proof (cauchy p1 p2) as CS. pose proof (norm2_nonneg p1) as N1. pose proof (norm2_nonneg p2) as N2.
  rewrite add_n.
  set (a := m1 * c * g1). set (b := m2 * c * g2).
  assert (0 < a) as A by (unfold a; repeat apply Rmult_lt_0_compat; assumption).
  assert (0 < b) as B by (unfold b; repeat apply Rmult_lt_0_compat; assumption).
  assert (norm2 p1 < a * a) as L1 by (unfold a; assert (0 < m1 * m1 * (c * c)) by (repeat apply Rmult_lt_0_compat; assumption); lra).
  assert (norm2 p2 < b * b) as L2 by (unfold b; assert (0 < m2 * m2 * (c * c)) by (repeat apply Rmult_lt_0_compat; assumption); lra).
  assert (dot p1 p2 <= a * b) as D.
  { destruct (Rle_lt_dec (dot p1 p2) (a * b)) as [H|H]; [exact H|]. exfalso.
    assert (0 < a * b) by nra. assert ((a * b) * (a * b) < dot p1 p2 * dot p1 p2) by nra.
    assert (norm2 p1 * norm2 p2 <= (a * a) * (b * b)) by (apply Rmult_le_compat; lra). lra. }
  replace (c * c * (M * M)) with ((a + b) * (a + b)) by (unfold a, b, M; ring). nra.
Qed.

Lemma G_pos : 0 < G.
Proof using C M1 M2.
  unfold G. pose proof v_slow as S. unfold Rdiv at 1. rewrite Rmult_1_l. apply Rinv_0_lt_compat, sqrt_lt_R0.
  assert (norm2 v / c ^ 2 < 1); [|lra]. apply (Rmult_lt_reg_r (c * c)); [nra|]. unfold Rdiv. replace (c ^ 2) with (c * c) by ring.
  rewrite Rmult_assoc, Rinv_l by nra. lra.
Qed.
Lemma G_sq : G * G * (c * c - norm2 v) = c * c.
Proof using C M1 M2.
  pose proof v_slow as S. unfold G.
  assert (0 < 1 - norm2 v / c ^ 2) as P.
  { assert (norm2 v / c ^ 2 < 1); [|lra]. apply (Rmult_lt_reg_r (c * c)); [nra|]. unfold Rdiv. replace (c ^ 2) with (c * c) by ring.
    rewrite Rmult_assoc, Rinv_l by nra. lra. }
  pose proof (sqrt_lt_R0 _ P) as Q.
  replace (1 / sqrt (1 - norm2 v / c ^ 2) * (1 / sqrt (1 - norm2 v / c ^ 2))) with (/ (sqrt (1 - norm2 v / c ^ 2) * sqrt (1 - norm2 v / c ^ 2))) by (field; lra).
  rewrite sqrt_def by lra. field. split; [nra|lra].
Qed.
Lemma fac_ok : fac * norm2 v = G - 1.
Proof using C M1 M2.
  unfold fac, boost_fac. destruct (Rlt_dec 0 (norm2 v)) as [L|L]; [field; lra|].
  pose proof (norm2_nonneg v) as N. assert (norm2 v = 0) as Z by lra. rewrite Z, Rmult_0_l.
  pose proof G_sq as S. pose proof G_pos as P. rewrite Z in S.
  assert (G * G = 1) as S1 by (apply (Rmult_eq_reg_r (c * c)); [lra|nra]).
  assert ((G - 1) * (G + 1) = 0) as S2 by (transitivity (G * G - 1); [ring|lra]). apply Rmult_integral in S2. lra.
Qed.

(** the centre-of-mass momentum and energies *)
Let q := bst (vscale (-1) v) fac G m1 g1 p1.
Let e1 := G * (m1 * (c * c) * g1 - dot v p1).
Let e2 := G * (m2 * (c * c) * g2 - dot v p2).

Lemma data_q : d_p1_com_v d = q.
Proof using C M1 M2.
  pose proof (gamma_pos u1) as P1. fold g1 in P1. pose proof data_v as V. pose proof data_vv as VV. pose proof data_G as GG.
  unfold q, bst, fac. rewrite <- VV, <- GG, <- V. clear V VV GG. unfold p1.
  unfold d, collision_data. generalize (gamma_pos u2). fold g2. intro P2. clear - P1 P2 C. clearbody g1 g2.
  destruct u1 as [[x1 y1] z1], u2 as [[x2 y2] z2]. cbv zeta. cbn [d_p1_com_v d_v_com d_gamma_com d_v_com_square vadd vscale dot].
  set (K := boost_fac _ _). set (X := (x1 * m1 * c + _) / _). set (Y := (y1 * m1 * c + _) / _). set (Z := (z1 * m1 * c + _) / _). set (H := 1 / sqrt _). clearbody K X Y Z H.
  apply vec_eq; field; lra.
Qed.
Lemma data_p : d_p1_com d = sqrt (norm2 q).
Proof using C M1 M2.
  rewrite <- data_q. unfold d, collision_data. destruct u1 as [[x1 y1] z1], u2 as [[x2 y2] z2]. cbv zeta. cbn [d_p1_com d_p1_com_v norm2].
  f_equal. ring.
Qed.
Lemma data_perp : d_p_perp d = (let '(x, y, _) := q in sqrt (x * x + y * y)).
Proof using C M1 M2.
  rewrite <- data_q. unfold d, collision_data. destruct u1 as [[x1 y1] z1], u2 as [[x2 y2] z2]. cbv zeta. cbn [d_p_perp d_p1_com_v].
  f_equal. ring.
Qed.
Lemma data_g1 : d_gamma1_com d * m1 * (c * c) = e1.
Proof using C M1 M2.
  pose proof (gamma_pos u1) as P1. fold g1 in P1. pose proof data_v as V. pose proof data_G as GG.
  unfold e1. rewrite <- V, <- GG. clear V GG. unfold p1.
  unfold d, collision_data. generalize (gamma_pos u2). fold g2. intro P2. clear - P1 P2 C. clearbody g1 g2.
  destruct u1 as [[x1 y1] z1], u2 as [[x2 y2] z2]. cbv zeta. cbn [d_gamma1_com d_v_com d_gamma_com vadd vscale dot].
  set (X := (x1 * m1 * c + _) / _). set (Y := (y1 * m1 * c + _) / _). set (Z := (z1 * m1 * c + _) / _). set (H := 1 / sqrt _). clearbody X Y Z H.
  field. split; lra.
Qed.
Lemma data_g2 : d_gamma2_com d * m2 * (c * c) = e2.
Proof using C M1 M2.
  pose proof (gamma_pos u1) as P1. fold g1 in P1. pose proof data_v as V. pose proof data_G as GG.
  unfold e2. rewrite <- V, <- GG. clear V GG. unfold p2.
  unfold d, collision_data. generalize (gamma_pos u2). fold g2. intro P2. clear - P1 P2 C. clearbody g1 g2.
  destruct u1 as [[x1 y1] z1], u2 as [[x2 y2] z2]. cbv zeta. cbn [d_gamma2_com d_v_com d_gamma_com vadd vscale dot].
  set (X := (x1 * m1 * c + _) / _). set (Y := (y1 * m1 * c + _) / _). set (Z := (z1 * m1 * c + _) / _). set (H := 1 / sqrt _). clearbody X Y Z H.
  field. split; lra.
Qed.

Lemma P_is : vadd p1 p2 = vscale M v.
Proof using M1 M2. pose proof M_pos as MP. unfold v. generalize (vadd p1 p2). intros [[x y] z]. cbn [vscale]. apply vec_eq; field; lra. Qed.

Lemma shell1 : (c * c) * (m1 * m1 * (c * c) + norm2 q) = e1 * e1.
Proof using C M1 M2.
  pose proof (bst_energy c G fac (vscale (-1) v) C) as B. rewrite !neg_n in B. specialize (B G_sq fac_ok m1 g1 p1 (g_shell c m1 u1)).
  fold q in B. rewrite B. unfold e1. rewrite dot_neg. ring.
Qed.
Lemma other : bst (vscale (-1) v) fac G m2 g2 p2 = vscale (-1) q.
Proof using C M1 M2.
  pose proof P_is as P. pose proof fac_ok as F. pose proof M_pos as MP.
  assert (p2 = vadd (vscale M v) (vscale (-1) p1)) as E2 by (rewrite <- P; apply add_sub). rewrite E2. clear E2.
  unfold q, bst. assert (M = m1 * g1 + m2 * g2) as MM by reflexivity.
  assert (m2 * g2 = M - m1 * g1) as -> by lra. clear - F. clearbody v p1 M G fac. generalize (m1 * g1). intro k.
  destruct v as [[vx vy] vz], p1 as [[x y] z]. cbn [vadd vscale dot norm2] in *.
  assert (forall t, fac * (vx * vx + vy * vy + vz * vz) * t = (G - 1) * t) as FT by (intro t; now rewrite F).
  apply vec_eq.
  - transitivity (- x + (M * vx + (fac * (vx * vx + vy * vy + vz * vz) * (M * vx))) - fac * (vx * x + vy * y + vz * z) * vx - (M - k) * G * vx); [ring|]. rewrite FT. ring.
  - transitivity (- y + (M * vy + (fac * (vx * vx + vy * vy + vz * vz) * (M * vy))) - fac * (vx * x + vy * y + vz * z) * vy - (M - k) * G * vy); [ring|]. rewrite FT. ring.
  - transitivity (- z + (M * vz + (fac * (vx * vx + vy * vy + vz * vz) * (M * vz))) - fac * (vx * x + vy * y + vz * z) * vz - (M - k) * G * vz); [ring|]. rewrite FT. ring.
Qed.
Lemma shell2 : (c * c) * (m2 * m2 * (c * c) + norm2 q) = e2 * e2.
Proof using C M1 M2.
  pose proof (bst_energy c G fac (vscale (-1) v) C) as B. rewrite !neg_n in B. specialize (B G_sq fac_ok m2 g2 p2 (g_shell c m2 u2)).
  rewrite other, neg_n in B. rewrite B. unfold e2. rewrite dot_neg. ring.
Qed.
Lemma e1_pos : 0 < e1.
Proof using C M1 M2.
  pose proof (bst_pos c G (vscale (-1) v) C) as B. rewrite !neg_n in B. specialize (B G_sq G_pos m1 g1 p1 M1 (gamma_pos u1) (g_shell c m1 u1)).
  rewrite dot_neg in B. exact B.
Qed.
Lemma e2_pos : 0 < e2.
Proof using C M1 M2.
  pose proof (bst_pos c G (vscale (-1) v) C) as B. rewrite !neg_n in B. specialize (B G_sq G_pos m2 g2 p2 M2 (gamma_pos u2) (g_shell c m2 u2)).
  rewrite dot_neg in B. exact B.
Qed.
Lemma e_sum : G * (e1 + e2) = M * (c * c).
Proof using C M1 M2.
  unfold e1, e2. pose proof P_is as P. pose proof G_sq as S.
  assert (dot v p1 + dot v p2 = M * norm2 v) as D.
  { rewrite <- dot_add, P. apply dot_self. }
  transitivity (G * G * ((m1 * g1 + m2 * g2) * (c * c) - (dot v p1 + dot v p2))); [ring|]. rewrite D. fold M.
  transitivity (M * (G * G * (c * c - norm2 v))); [ring|]. rewrite S. reflexivity.
Qed.

Lemma lab_bst g m w : boost_to_lab w g m (d_v_com d) (d_v_com_square d) (d_gamma_com d) = bst v fac G m g w.
Proof using C M1 M2.
  rewrite data_v, data_vv, data_G. unfold boost_to_lab, bst, fac. clearbody v G. destruct w as [[x y] z], v as [[vx vy] vz]. cbn [vadd vscale dot].
  apply vec_eq; ring.
Qed.
Lemma cc_pos : 0 < c * c. Proof using C. nra. Qed.
Lemma g1c : d_gamma1_com d = e1 / (m1 * (c * c)).
Proof using C M1 M2. rewrite <- data_g1. field. split; lra. Qed.
Lemma g2c : d_gamma2_com d = e2 / (m2 * (c * c)).
Proof using C M1 M2. rewrite <- data_g2. field. split; lra. Qed.

Lemma shell_g (m e : R) (w : vec) : 0 < m -> (c * c) * (m * m * (c * c) + norm2 w) = e * e ->
  m * m * (c * c) * (e / (m * (c * c)) * (e / (m * (c * c)))) = m * m * (c * c) + norm2 w.
Proof using C.
  intros Mm E. apply (Rmult_eq_reg_l (c * c)); [|pose proof cc_pos; lra]. rewrite E. field. split; lra.
Qed.

Lemma lab_energy m e w : 0 < m -> 0 < e -> (c * c) * (m * m * (c * c) + norm2 w) = e * e ->
  m * gamma (vscale (/ (m * c)) (bst v fac G m (e / (m * (c * c))) w)) * (c * c) = G * (e + dot v w).
Proof using C M1 M2.
  intros Mm E0 E. pose proof (shell_g m e w Mm E) as S.
  pose proof (bst_energy c G fac v C G_sq fac_ok m (e / (m * (c * c))) w S) as B.
  assert (0 < e / (m * (c * c))) as EP by (apply Rdiv_lt_0_compat; [exact E0|pose proof cc_pos; nra]).
  pose proof (bst_pos c G v C G_sq G_pos m (e / (m * (c * c))) w Mm EP S) as P.
  replace (m * (c * c) * (e / (m * (c * c)))) with e in B, P by (field; split; lra).
  set (n := bst v fac G m (e / (m * (c * c))) w) in *.
  unfold gamma. replace (1 + norm2 (vscale (/ (m * c)) n)) with ((G * (e + dot v w) / (m * (c * c))) * (G * (e + dot v w) / (m * (c * c)))).
  - rewrite sqrt_square; [field; split; lra|]. left. apply Rdiv_lt_0_compat; [exact P|pose proof cc_pos; nra].
  - transitivity (1 + norm2 n * / (m * c * (m * c))).
    + transitivity ((G * (e + dot v w)) * (G * (e + dot v w)) / (m * (c * c) * (m * (c * c)))); [field; split; lra|]. rewrite <- B. field. split; lra.
    + f_equal. clearbody n. destruct n as [[x y] z]. cbn [vscale norm2]. field. split; lra.
Qed.

(** back to the laboratory with any rotated momentum [r] *)
Variable r : vec.
Hypothesis R : norm2 r = norm2 q.
Let n1 := boost_to_lab r (d_gamma1_com d) m1 (d_v_com d) (d_v_com_square d) (d_gamma_com d).
Let n2 := boost_to_lab (vscale (-1) r) (d_gamma2_com d) m2 (d_v_com d) (d_v_com_square d) (d_gamma_com d).

Lemma new_momentum : vadd n1 n2 = vadd p1 p2.
Proof using C M1 M2.
  unfold n1, n2. rewrite !lab_bst, P_is. unfold bst.
  assert (m1 * d_gamma1_com d * G + m2 * d_gamma2_com d * G = M) as S.
  { rewrite g1c, g2c. apply (Rmult_eq_reg_r (c * c)); [|pose proof cc_pos; lra]. rewrite <- e_sum. field. repeat split; lra. }
  set (a := m1 * d_gamma1_com d * G) in *. set (b := m2 * d_gamma2_com d * G) in *. rewrite <- S. clear R. clearbody a b v fac.
  destruct r as [[x y] z], v as [[vx vy] vz]. cbn [vadd vscale dot]. apply vec_eq; ring.
Qed.

Lemma new_energy : m1 * gamma (vscale (/ (m1 * c)) n1) + m2 * gamma (vscale (/ (m2 * c)) n2) = M.
Proof using C M1 M2 R.
  unfold n1, n2. rewrite !lab_bst, g1c, g2c.
  apply (Rmult_eq_reg_r (c * c)); [|pose proof cc_pos; lra]. rewrite Rmult_plus_distr_r.
  rewrite lab_energy; [|exact M1|exact e1_pos|rewrite R; exact shell1].
  rewrite lab_energy; [|exact M2|exact e2_pos|rewrite neg_n, R; exact shell2].
  rewrite <- e_sum. rewrite dot_neg_r. ring.
Qed.
End Pair.
