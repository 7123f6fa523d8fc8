(** Proofs about the momentum push over the reals. *)
From Coq Require Import Reals Lra.
From Verif Require Import Base M_Push S_Push.
Local Open Scope R_scope.

(** the rotation inside the push *)
Definition rot (t v : vec R) : vec R :=
  let '(tx, ty, tz) := t in let '(x, y, z) := v in
  let px := x + y * tz - z * ty in let py := y + z * tx - x * tz in let pz := z + x * ty - y * tx in
  let f := 2 / (1 + tx * tx + ty * ty + tz * tz) in
  (x + py * (f * tz) - pz * (f * ty), y + pz * (f * tx) - px * (f * tz), z + px * (f * ty) - py * (f * tx)).

Lemma den_pos x y z : 0 < 1 + x * x + y * y + z * z.
Proof. nra. Qed.

Lemma rot_norm t v : norm2 (rot t v) = norm2 v.
Proof.
  destruct t as [[tx ty] tz], v as [[x y] z]. unfold rot, norm2.
  pose proof (den_pos tx ty tz) as D. field. lra.
Qed.
Lemma rot_inv t v : rot (vscale (-1) t) (rot t v) = v.
Proof.
  destruct t as [[tx ty] tz], v as [[x y] z]. unfold rot, vscale.
  pose proof (den_pos tx ty tz) as D.
  replace (1 + -1 * tx * (-1 * tx) + -1 * ty * (-1 * ty) + -1 * tz * (-1 * tz)) with (1 + tx * tx + ty * ty + tz * tz) by ring.
  f_equal; [f_equal|]; field; lra.
Qed.
Lemma rot_dot t v : dot (rot t v) t = dot v t.
Proof.
  destruct t as [[tx ty] tz], v as [[x y] z]. unfold rot, dot.
  pose proof (den_pos tx ty tz) as D. field. lra.
Qed.

Definition tvec (b : R) (B w : vec R) : vec R := let '(x, y, z) := B in let g := / sqrt (1 + norm2 w) in (b * x * g, b * y * g, b * z * g).

Lemma one_plus v : one_plus_sq Rnums v = 1 + norm2 v.
Proof. destruct v as [[x y] z]. unfold one_plus_sq, norm2, Rnums. cbn [n_add n_mul n_1]. ring. Qed.

Lemma core_rot e b u E B :
  boris_core Rnums e b u E B =
  let w := vadd u (vscale e E) in
  let new := vadd (rot (tvec b B w) w) (vscale e E) in (new, / gamma new).
Proof.
  unfold boris_core.
  destruct u as [[ux uy] uz], E as [[Ex Ey] Ez], B as [[Bx By] Bz].
  cbv zeta. rewrite !one_plus. unfold gamma.
  cbn [n_add n_sub n_mul n_div n_1 n_2 n_rsqrt Rnums vadd vscale tvec].
  unfold rot. cbv zeta. cbn [vadd norm2].
  set (g := / sqrt (1 + ((ux + e * Ex) * (ux + e * Ex) + (uy + e * Ey) * (uy + e * Ey) + (uz + e * Ez) * (uz + e * Ez)))).
  replace (1 + (b * Bx * g * (b * Bx * g) + b * By * g * (b * By * g) + b * Bz * g * (b * Bz * g)))
    with (1 + b * Bx * g * (b * Bx * g) + b * By * g * (b * By * g) + b * Bz * g * (b * Bz * g)) by ring.
  reflexivity.
Qed.

Lemma vec_eq (a b c a' b' c' : R) : a = a' -> b = b' -> c = c' -> (a, b, c) = (a', b', c').
Proof. congruence. Qed.

Lemma push_parts c q m dt u E B :
  exists w : vec R, w = vadd u (vscale (q * dt / (2 * m * c)) E) /\
  fst (boris_inline Rnums c q m dt u E B) = vadd (rot (tvec (q * dt / (2 * m)) B w) w) (vscale (q * dt / (2 * m * c)) E) /\
  snd (boris_inline Rnums c q m dt u E B) = / gamma (fst (boris_inline Rnums c q m dt u E B)).
Proof.
  exists (vadd u (vscale (q * dt / (2 * m * c)) E)). split; [reflexivity|].
  unfold boris_inline. rewrite core_rot. cbn [n_mul n_div n_2 Rnums]. cbv zeta. cbn [fst snd]. split; reflexivity.
Qed.

Lemma vadd_zero u k : vadd u (vscale k (0, 0, 0)) = u.
Proof. destruct u as [[x y] z]. cbn [vadd vscale]. apply vec_eq; ring. Qed.

Lemma push_norm c q m dt u B : norm2 (fst (boris_inline Rnums c q m dt u (0, 0, 0) B)) = norm2 u.
Proof.
  destruct (push_parts c q m dt u (0, 0, 0) B) as (w & -> & -> & _).
  rewrite !vadd_zero. apply rot_norm.
Qed.

Lemma dot_scaled k u B : dot u (vscale k B) = k * dot u B.
Proof. destruct u as [[x y] z], B as [[a b] c]. cbn [dot vscale]. ring. Qed.
Lemma tvec_scale b B w : tvec b B w = vscale (b * / gamma w) B.
Proof. destruct B as [[x y] z]. cbn [tvec vscale]. unfold gamma. apply vec_eq; ring. Qed.

Lemma gamma_pos u : 0 < gamma u.
Proof. unfold gamma. apply sqrt_lt_R0. destruct u as [[x y] z]. cbn [norm2]. nra. Qed.
Lemma gamma_ge1 u : 1 <= gamma u.
Proof. unfold gamma. rewrite <- sqrt_1 at 1. apply sqrt_le_1_alt. destruct u as [[x y] z]. cbn [norm2]. nra. Qed.

Lemma rot_zero v : rot (vscale 0 v) v = v.
Proof. destruct v as [[x y] z]. unfold rot, vscale. apply vec_eq; field. all: nra. Qed.
Lemma vscale0 B B' : vscale 0 B = vscale 0 B'.
Proof. destruct B as [[x y] z], B' as [[a b] c]. cbn [vscale]. apply vec_eq; ring. Qed.

Lemma push_parallel c q m dt u B : dot (fst (boris_inline Rnums c q m dt u (0, 0, 0) B)) B = dot u B.
Proof.
  destruct (push_parts c q m dt u (0, 0, 0) B) as (w & -> & -> & _).
  rewrite !vadd_zero, tvec_scale. set (k := q * dt / (2 * m) * / gamma u).
  destruct (Req_dec k 0) as [->|K].
  - rewrite (vscale0 B u), rot_zero. reflexivity.
  - pose proof (rot_dot (vscale k B) u) as H. rewrite !dot_scaled in H. now apply Rmult_eq_reg_l in H.
Qed.

Lemma push_back c q m dt u E B :
  fst (boris_inline Rnums c q m (- dt) (fst (boris_inline Rnums c q m dt u E B)) E B) = u.
Proof.
  destruct (push_parts c q m dt u E B) as (w & Hw & -> & _).
  set (e := q * dt / (2 * m * c)) in *. set (b := q * dt / (2 * m)) in *.
  set (u1 := vadd (rot (tvec b B w) w) (vscale e E)).
  destruct (push_parts c q m (- dt) u1 E B) as (w' & Hw' & -> & _).
  replace (q * - dt / (2 * m * c)) with (- e) in * by (unfold e, Rdiv; ring).
  replace (q * - dt / (2 * m)) with (- b) by (unfold b, Rdiv; ring).
  assert (w' = rot (tvec b B w) w) as W.
  { rewrite Hw'. unfold u1. destruct (rot (tvec b B w) w) as [[x y] z], E as [[a1 a2] a3]. cbn [vadd vscale]. apply vec_eq; ring. }
  rewrite W. rewrite (tvec_scale (- b)). unfold gamma. rewrite rot_norm. fold (gamma w).
  replace (vscale (- b * / gamma w) B) with (vscale (-1) (tvec b B w)).
  2:{ rewrite tvec_scale. destruct B as [[x y] z]. cbn [vscale]. apply vec_eq; ring. }
  rewrite rot_inv, Hw. destruct u as [[x y] z], E as [[a1 a2] a3]. cbn [vadd vscale]. apply vec_eq; ring.
Qed.

(** the electric field changes the momentum only through the two half kicks *)
Lemma push_kicks c q m dt u E B :
  let k := (q * dt / (2 * m * c)) in
  norm2 (vadd (fst (boris_inline Rnums c q m dt u E B)) (vscale (- k) E)) = norm2 (vadd u (vscale k E)).
Proof.
  intro k. destruct (push_parts c q m dt u E B) as (w & Hw & -> & _). fold k in Hw |- *.
  set (r := rot _ w). replace (vadd (vadd r (vscale k E)) (vscale (- k) E)) with r.
  - unfold r. rewrite rot_norm, Hw. reflexivity.
  - destruct r as [[x y] z], E as [[a1 a2] a3]. cbn [vadd vscale]. apply vec_eq; ring.
Qed.

Lemma push_gamma c q m dt u E B :
  snd (boris_inline Rnums c q m dt u E B) = / gamma (fst (boris_inline Rnums c q m dt u E B)).
Proof. destruct (push_parts c q m dt u E B) as (w & _ & _ & H). exact H. Qed.

(** without magnetic field the push adds the impulse *)
Lemma push_electric c q m dt u E :
  fst (boris_inline Rnums c q m dt u E (0, 0, 0)) = vadd u (vscale (2 * (q * dt / (2 * m * c))) E).
Proof.
  destruct (push_parts c q m dt u E (0,0,0)) as (w & Hw & -> & _).
  rewrite tvec_scale.
  replace (vscale (q * dt / (2 * m) * / gamma w) (0, 0, 0)) with (vscale 0 w) by (destruct w as [[x y] z]; cbn [vscale]; apply vec_eq; ring).
  rewrite rot_zero, Hw. destruct u as [[x y] z], E as [[a1 a2] a3]. cbn [vadd vscale]. apply vec_eq; ring.
Qed.

Lemma rot_implicit t v : vadd (rot t v) (vscale (-1) v) = cross (vadd (rot t v) v) t.
Proof.
  destruct t as [[tx ty] tz], v as [[x y] z]. unfold rot. cbn [vadd vscale cross].
  pose proof (den_pos tx ty tz) as D. apply vec_eq; field; lra.
Qed.

(** the push solves the discretised Lorentz equation *)
Lemma push_lorentz c q m dt u E B :
  m <> 0 -> c <> 0 ->
  let new := fst (boris_inline Rnums c q m dt u E B) in
  let g := gamma (vadd u (vscale (q * dt / (2 * m * c)) E)) in
  vadd new (vscale (-1) u) = vadd (vscale (q * dt / (m * c)) E) (vscale (q * dt / m) (cross (vscale (/ (2 * g)) (vadd new u)) B)).
Proof.
  intros M C. cbv zeta. destruct (push_parts c q m dt u E B) as (w & Hw & -> & _). rewrite <- Hw.
  pose proof (gamma_pos w) as G. set (g := gamma w) in *.
  pose proof (rot_implicit (tvec (q * dt / (2 * m)) B w) w) as H. rewrite tvec_scale in *. fold g in H |- *.
  replace u with (vadd w (vscale (- (q * dt / (2 * m * c))) E)).
  2:{ rewrite Hw. destruct u as [[x y] z], E as [[a1 a2] a3]. cbn [vadd vscale]. apply vec_eq; ring. }
  clear Hw. set (r := rot _ w) in *. clearbody r g.
  destruct r as [[rx ry] rz], w as [[wx wy] wz], E as [[ex ey] ez], B as [[bx by_] bz].
  cbn [vadd vscale cross] in *. injection H as H1 H2 H3.
  apply vec_eq.
  - transitivity (rx + -1 * wx + q * dt / (m * c) * ex); [field; lra|]. rewrite H1. field; lra.
  - transitivity (ry + -1 * wy + q * dt / (m * c) * ey); [field; lra|]. rewrite H2. field; lra.
  - transitivity (rz + -1 * wz + q * dt / (m * c) * ez); [field; lra|]. rewrite H3. field; lra.
Qed.
