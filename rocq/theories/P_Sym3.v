(** Symmetries, part 3: the push of one particle. *)
From Coq Require Import QArith Qabs Qround Qcanon Permutation Lqa.
From Verif Require Import Base M_Layout S_Layout M_PartSync S_PartSync M_FieldSync S_FieldSync M_Maxwell S_Maxwell M_Deposit S_Deposit M_Push S_Push P_Deposit P_Interp P_Push M_Step S_Step P_Step1 P_Step2 P_Step4 P_Step6 S_Sym P_Sym1 P_Sym2.
Local Open Scope list_scope.
Local Open Scope Q_scope.

(** * The momentum *)
Section Boris.
Variable rsqrt : Q -> Q.
Hypothesis rsqrt_eq : forall x y, x == y -> rsqrt x == rsqrt y.
Definition bg (e u0 u1 u2 E0 E1 E2 : Q) : Q := 1 + (u0 + e * E0) * (u0 + e * E0) + (u1 + e * E1) * (u1 + e * E1) + (u2 + e * E2) * (u2 + e * E2).
Definition bt (b g B0 B1 B2 : Q) : Q := 1 + b * B0 * g * (b * B0 * g) + b * B1 * g * (b * B1 * g) + b * B2 * g * (b * B2 * g).
(** component 0 of the new momentum; the others follow by cyclic exchange *)
Definition bn (e b g s u0 u1 u2 E0 E1 E2 B0 B1 B2 : Q) : Q :=
  let m0 := u0 + e * E0 in let m1 := u1 + e * E1 in let m2 := u2 + e * E2 in
  let T0 := b * B0 * g in let T1 := b * B1 * g in let T2 := b * B2 * g in
  let p1 := m1 + m2 * T0 - m0 * T2 in let p2 := m2 + m0 * T1 - m1 * T0 in
  m0 + p1 * (s * T2) - p2 * (s * T1) + e * E0.
Lemma boris_bn e b u0 u1 u2 E0 E1 E2 B0 B1 B2 :
  let g := rsqrt (bg e u0 u1 u2 E0 E1 E2) in let s := 2 / bt b g B0 B1 B2 in
  let x := bn e b g s u0 u1 u2 E0 E1 E2 B0 B1 B2 in let y := bn e b g s u1 u2 u0 E1 E2 E0 B1 B2 B0 in let z := bn e b g s u2 u0 u1 E2 E0 E1 B2 B0 B1 in
  boris_core (Qnums rsqrt) e b (u0, u1, u2) (E0, E1, E2) (B0, B1, B2) = ((x, y, z), rsqrt (1 + x * x + y * y + z * z)).
Proof using. reflexivity. Qed.
Lemma bn_eq e b g s g' s' u0 u1 u2 E0 E1 E2 B0 B1 B2 : g' == g -> s' == s -> bn e b g' s' u0 u1 u2 E0 E1 E2 B0 B1 B2 == bn e b g s u0 u1 u2 E0 E1 E2 B0 B1 B2.
Proof using. intros H K. unfold bn. cbv zeta. rewrite H, K. reflexivity. Qed.
Lemma bt_eq b g g' B0 B1 B2 : g' == g -> bt b g' B0 B1 B2 == bt b g B0 B1 B2.
Proof using. intros H. unfold bt. rewrite H. reflexivity. Qed.
Definition push_rel (w fx fy fz : bool) (a a' : vec Q * Q) : Prop :=
  let '((x, y, z), g) := a in let '((x', y', z'), g') := a' in
  x' == sgn fx * (if w then y else x) /\ y' == sgn fy * (if w then x else y) /\ z' == sgn fz * z /\ g' == g.
Lemma boris_image0 w fx fy fz c e b u0 u1 u2 E0 E1 E2 B0 B1 B2 :
  let imp := xorb (xorb w fx) (xorb fy fz) in
  push_rel w fx fy fz (boris_core (Qnums rsqrt) e b (u0, u1, u2) (E0, E1, E2) (B0, B1, B2))
    (boris_core (Qnums rsqrt) (sgn c * e) (sgn c * b) (sgn fx * (if w then u1 else u0), sgn fy * (if w then u0 else u1), sgn fz * u2)
      (sgn (xorb c fx) * (if w then E1 else E0), sgn (xorb c fy) * (if w then E0 else E1), sgn (xorb c fz) * E2)
      (sgn (xorb (xorb c fx) imp) * (if w then B1 else B0), sgn (xorb (xorb c fy) imp) * (if w then B0 else B1), sgn (xorb (xorb c fz) imp) * B2)).
Proof using rsqrt_eq.
  cbv zeta. rewrite !boris_bn. unfold push_rel.
  match goal with |- context [rsqrt (bg (sgn c * e) ?a1 ?a2 ?a3 ?a4 ?a5 ?a6)] => set (g' := rsqrt (bg (sgn c * e) a1 a2 a3 a4 a5 a6));
    assert (g' == rsqrt (bg e u0 u1 u2 E0 E1 E2)) as Hg by (apply rsqrt_eq; unfold bg; destruct w, fx, fy, fz, c; cbn [sgn xorb]; ring) end.
  set (g := rsqrt (bg e u0 u1 u2 E0 E1 E2)) in *. clearbody g g'.
  match goal with |- context [2 / bt (sgn c * b) g' ?a1 ?a2 ?a3] => set (s' := 2 / bt (sgn c * b) g' a1 a2 a3);
    assert (s' == 2 / bt b g B0 B1 B2) as Hs by (apply Qdiv_comp; [reflexivity|]; rewrite (bt_eq _ _ _ _ _ _ Hg); unfold bt; destruct w, fx, fy, fz, c; cbn [sgn xorb]; ring) end.
  set (s := 2 / bt b g B0 B1 B2) in *. clearbody s s'.
  match goal with |- ?x' == sgn fx * (if w then ?y else ?x) /\ ?y' == _ /\ ?z' == sgn fz * ?z /\ _ =>
    assert (x' == sgn fx * (if w then y else x)) as X; [|assert (y' == sgn fy * (if w then x else y)) as Y; [|assert (z' == sgn fz * z) as Z0; [|generalize dependent x'; generalize dependent y'; generalize dependent z'; generalize dependent x; generalize dependent y; generalize dependent z]]] end.
  - rewrite (bn_eq _ _ _ _ _ _ _ _ _ _ _ _ _ _ _ Hg Hs). unfold bn. destruct w, fx, fy, fz, c; cbn [sgn xorb]; ring.
  - rewrite (bn_eq _ _ _ _ _ _ _ _ _ _ _ _ _ _ _ Hg Hs). unfold bn. destruct w, fx, fy, fz, c; cbn [sgn xorb]; ring.
  - rewrite (bn_eq _ _ _ _ _ _ _ _ _ _ _ _ _ _ _ Hg Hs). unfold bn. destruct w, fx, fy, fz, c; cbn [sgn xorb]; ring.
  - clear - rsqrt_eq. intros z y x z' Z0 y' Y x' X. split; [exact X|]. split; [exact Y|]. split; [exact Z0|]. apply rsqrt_eq. rewrite X, Y, Z0. destruct w, fx, fy, fz; cbn [sgn]; ring.
Qed.
End Boris.
Lemma six_eq_trans a b c : same6 a b -> same6 b c -> same6 a c.
Proof. intros (A1 & A2 & A3 & A4 & A5 & A6) (B1 & B2 & B3 & B4 & B5 & B6). unfold same6. rewrite A1, A2, A3, A4, A5, A6. auto 10. Qed.
Lemma six_eq_refl a : same6 a a.
Proof. unfold same6. repeat split; reflexivity. Qed.

(** * The whole push *)
Section Push.
Variable rsqrt : Q -> Q.
Hypothesis SUB : subluminal rsqrt.
Variables D D' : domain2.
Hypothesis OK : domain_ok D.
Hypothesis OK' : domain_ok D'.
Variable y : symmetry.
Hypothesis ID : image_domain y D D'.
Definition moved_part (p p' : part) : Prop :=
  (exists k, p_x p' == sgn (y_fx y) * (if y_swap y then p_y p else p_x p) + inject_Z (y_ax y + k * Cx D') * d_dx D') /\
  (exists k, p_y p' == sgn (y_fy y) * (if y_swap y then p_x p else p_y p) + inject_Z (y_ay y + k * Cy D') * d_dy D') /\
  p_ux p' == sgn (y_fx y) * (if y_swap y then p_uy p else p_ux p) /\ p_uy p' == sgn (y_fy y) * (if y_swap y then p_ux p else p_uy p) /\
  p_uz p' == sgn (y_fz y) * p_uz p /\ p_ig p' == p_ig p /\ p_w p' == p_w p.
Definition moved_slot (s s' : M_Push.slot) : Prop := moved_part (l_p s) (l_p s') /\ same6 (l_f s') (image6 y (l_f s)).
Lemma moved_position c p p' : moved_part p p' -> moved_part (push_position_2d c p) (push_position_2d c p').
Proof using.
  intros ((k & A1) & (l & A2) & A3 & A4 & A5 & A6 & A7). unfold moved_part, push_position_2d. cbn [p_x p_y p_z p_ux p_uy p_uz p_ig p_w].
  split; [exists k; rewrite A1, A3, A6; destruct (y_swap y); ring|]. split; [exists l; rewrite A2, A4, A6; destruct (y_swap y); ring|]. auto 10.
Qed.
Lemma in_cells_units (x d : Q) N s v : 0 < d -> x == sgn s * v + inject_Z N * d -> x / d == sgn s * (v / d) + inject_Z N.
Proof using. intros H E. rewrite E. field. lra. Qed.
Lemma moved_fields FE FB p p' : moved_part p p' ->
  same6 (gat (gget (Wx D') (Wy D') (image_E y D' FE)) (gget (Wx D') (Wy D') (image_B y D' FB)) (p_x p' / d_dx D') (p_y p' / d_dy D'))
        (image6 y (gat (gget (Wx D) (Wy D) FE) (gget (Wx D) (Wy D) FB) (p_x p / d_dx D) (p_y p / d_dy D))).
Proof using OK OK' ID.
  intros ((k & A1) & (l & A2) & _). destruct (ok_d D' OK') as [P1 P2].
  apply (gat_image D D' OK OK' y ID FE FB k l).
  - rewrite (in_cells_units _ _ _ _ _ P1 A1). destruct ID as [I1 _]. destruct (y_swap y), I1 as (_ & _ & I3 & I4); rewrite ?I3, ?I4; reflexivity.
  - rewrite (in_cells_units _ _ _ _ _ P2 A2). destruct ID as [I1 _]. destruct (y_swap y), I1 as (_ & _ & I3 & I4); rewrite ?I3, ?I4; reflexivity.
Qed.
Lemma factor_image c q q' m m' t : q' == sgn c * q -> m' == m -> q' * d_dt D' / (2 * m' * t) == sgn c * (q * d_dt D / (2 * m * t)).
Proof using ID. intros H K. rewrite H, K. destruct ID as [_ ->]. unfold Qdiv. ring. Qed.
Lemma factor_image1 c q q' m m' : q' == sgn c * q -> m' == m -> q' * d_dt D' / (2 * m') == sgn c * (q * d_dt D / (2 * m)).
Proof using ID. intros H K. rewrite H, K. destruct ID as [_ ->]. unfold Qdiv. ring. Qed.
Lemma moved_momentum sp sp' s s' : image_species y sp sp' -> moved_slot s s' ->
  moved_slot (push_momentum rsqrt (sp_q sp) (sp_m sp) (d_dt D) s) (push_momentum rsqrt (sp_q sp') (sp_m sp') (d_dt D') s').
Proof using SUB ID.
  intros [S1 S2] [((k & A1) & (l & A2) & A3 & A4 & A5 & A6 & A7) (F1 & F2 & F3 & F4 & F5 & F6)]. unfold push_momentum, boris_inline. cbv zeta. cbn [n_mul n_div n_2 Qnums].
  pose proof (boris_image0 rsqrt (proj1 SUB) (y_swap y) (y_fx y) (y_fy y) (y_fz y) (y_conj y) (sp_q sp * d_dt D / (2 * sp_m sp * LIGHT_SPEED)) (sp_q sp * d_dt D / (2 * sp_m sp))
    (p_ux (l_p s)) (p_uy (l_p s)) (p_uz (l_p s)) (s_ex (l_f s)) (s_ey (l_f s)) (s_ez (l_f s)) (s_bx (l_f s)) (s_by (l_f s)) (s_bz (l_f s))) as B. cbv zeta in B.
  pose proof (factor_image (y_conj y) _ _ _ _ LIGHT_SPEED S1 S2) as G1. pose proof (factor_image1 (y_conj y) _ _ _ _ S1 S2) as G2.
  unfold image6, sign_B, sign_E, improper, rev_ in F1, F2, F3, F4, F5, F6. cbv zeta in F1, F2, F3, F4, F5, F6. cbn [s_ex s_ey s_ez s_bx s_by s_bz] in F1, F2, F3, F4, F5, F6.
  pose proof (boris_eq rsqrt (proj1 SUB) _ _ _ _ _ _ _ _ _ _ _ _ _ _ _ _ _ _ _ _ _ _ G1 G2 A3 A4 A5 F1 F2 F3 F4 F5 F6) as C.
  destruct (boris_core (Qnums rsqrt) (sp_q sp * d_dt D / (2 * sp_m sp * LIGHT_SPEED)) _ _ _ _) as [[[x1 y1] z1] g1].
  match type of C with same_push ?a ?b => destruct a as [[[x2 y2] z2] g2]; destruct b as [[[x3 y3] z3] g3] end.
  destruct B as (B1 & B2 & B3 & B4). destruct C as (C1 & C2 & C3 & C4).
  split; [|unfold same6, image6, sign_B, sign_E, improper, rev_; cbv zeta; cbn [l_f s_ex s_ey s_ez s_bx s_by s_bz]; auto 10].
  unfold moved_part. cbn [l_p p_x p_y p_z p_ux p_uy p_uz p_ig p_w].
  split; [exists k; exact A1|]. split; [exists l; exact A2|]. rewrite C1, C2, C3, C4. auto 10.
Qed.
Lemma grow_skip Nx Ny dx dy dt sp FE FB r : px _ r = None \/ py _ r = None -> grow rsqrt Nx Ny dx dy dt sp FE FB r = r.
Proof using.
  intro H. unfold grow, gslot, one.
  assert (skipped (load (live r)) = true) as ->.
  { unfold skipped, load. cbn [l_p p_dead p_nan M_PartSync.row M_PartSync.dead orb]. destruct H as [-> | ->]; [reflexivity|]. cbn [isnan]. apply orb_true_r. }
  rewrite store_load. reflexivity.
Qed.
Lemma carried_some rev A N d x x' : carried rev A N d x x' -> isnan x' = isnan x /\ (isnan x = false -> exists k, val x' == sgn rev * val x + inject_Z (A + k * N) * d).
Proof using. destruct x, x'; cbn [carried isnan val]; intro H; try contradiction; split; auto. discriminate. Qed.
Lemma grow_image sp sp' FE FB r r' : image_species y sp sp' -> image_row y D' r r' ->
  image_row y D' (grow rsqrt (Wx D) (Wy D) (d_dx D) (d_dy D) (d_dt D) sp FE FB r) (grow rsqrt (Wx D') (Wy D') (d_dx D') (d_dy D') (d_dt D') sp' (image_E y D' FE) (image_B y D' FB) r').
Proof using SUB OK OK' ID.
  intros S R. pose proof R as (R1 & R2 & R3 & R4 & R5 & R6 & R7 & R8 & R9).
  destruct (carried_some _ _ _ _ _ _ R1) as [N1 K1]. destruct (carried_some _ _ _ _ _ _ R2) as [N2 K2].
  destruct (isnan (px _ r) || isnan (py _ r)) eqn:N.
  - rewrite !grow_skip; [exact R| |]; destruct (px _ r), (py _ r), (px _ r'), (py _ r'), (y_swap y); cbn [isnan orb] in *; try discriminate; auto.
  - apply orb_false_iff in N. destruct N as [Nx Ny].
    assert (isnan (px _ r') = false /\ isnan (py _ r') = false) as [Nx' Ny'] by (rewrite N1, N2; destruct (y_swap y); auto).
    assert (moved_slot (load (live r)) (load (live r'))) as M.
    { split; [|exact R8]. unfold moved_part, load. cbn [l_p p_x p_y p_ux p_uy p_uz p_ig p_w M_PartSync.row].
      assert ((if y_swap y then val (py body r) else val (px body r)) = val (if y_swap y then py body r else px body r)) as -> by (destruct (y_swap y); reflexivity).
      assert ((if y_swap y then val (px body r) else val (py body r)) = val (if y_swap y then px body r else py body r)) as -> by (destruct (y_swap y); reflexivity).
      split; [apply K1; destruct (y_swap y); assumption|]. split; [apply K2; destruct (y_swap y); assumption|]. auto 10. }
    assert (exists t t', gslot rsqrt (Wx D) (Wy D) (d_dx D) (d_dy D) (d_dt D) sp FE FB (load (live r)) = t /\ gslot rsqrt (Wx D') (Wy D') (d_dx D') (d_dy D') (d_dt D') sp' (image_E y D' FE) (image_B y D' FB) (load (live r')) = t' /\ moved_slot t t') as (t & t' & T & T' & MT).
    { unfold gslot, one. assert (skipped (load (live r)) = false) as -> by (unfold skipped, load; cbn [l_p p_dead p_nan M_PartSync.row M_PartSync.dead orb]; rewrite Nx, Ny; reflexivity).
      assert (skipped (load (live r')) = false) as -> by (unfold skipped, load; cbn [l_p p_dead p_nan M_PartSync.row M_PartSync.dead orb]; rewrite Nx', Ny'; reflexivity).
      cbv zeta. unfold ginterp at 1 2. cbn [obind]. eexists. eexists. split; [reflexivity|]. split; [reflexivity|].
      assert (LIGHT_SPEED * (1 # 2) * d_dt D' = LIGHT_SPEED * (1 # 2) * d_dt D) as -> by (rewrite (proj2 ID); reflexivity).
      set (c := LIGHT_SPEED * (1 # 2) * d_dt D). pose proof (moved_position c _ _ (proj1 M)) as M1. pose proof (moved_fields FE FB _ _ M1) as M2.
      match goal with |- context [push_momentum rsqrt (sp_q sp) (sp_m sp) (d_dt D) ?s] => match goal with |- context [push_momentum rsqrt (sp_q sp') (sp_m sp') (d_dt D') ?s'] =>
        pose proof (moved_momentum sp sp' s s' S (conj M1 M2)) as M3 end end.
      destruct M3 as [M3 M4]. split; cbn [l_p l_f]; [apply moved_position; exact M3|exact M4]. }
    unfold grow. rewrite T, T'. destruct MT as [((k & B1) & (l & B2) & B3 & B4 & B5 & B6 & B7) B8]. clear - Nx Ny Nx' Ny' B1 B2 B3 B4 B5 B6 B8 R7 R9.
    unfold image_row, rowof, store. cbn [M_PartSync.row px py pz other b_ux b_uy b_uz b_ig b_w b_f b_id]. rewrite Nx, Ny, Nx', Ny'.
    split; [destruct (y_swap y); exists k; exact B1|]. split; [destruct (y_swap y); exists l; exact B2|]. repeat (split; [assumption|]). assumption.
Qed.

(** * The return into the domain *)
Lemma wrap1_period W d v : exists k, wrap1 W d v == v + inject_Z (k * W) * d.
Proof using.
  unfold wrap1. destruct (negb _); [exists (-1)%Z; rewrite inject_Z_mult; change (inject_Z (-1)) with (-(1)); ring|]. destruct (negb _); [exists 1%Z; rewrite Z.mul_1_l; reflexivity|]. exists 0%Z. change (inject_Z (0 * W)) with 0. ring.
Qed.
Lemma carried_wrap rev A N d W e x x' : W = N -> e = d -> carried rev A N d x x' -> carried rev A N d (option_map (wrap1 W e) x) (option_map (wrap1 N d) x').
Proof using.
  intros -> ->. destruct x as [v|], x' as [v'|]; cbn [carried option_map]; auto. intros (k & E). destruct (wrap1_period N d v) as (a & Ea). destruct (wrap1_period N d v') as (b & Eb).
  destruct rev; cbn [sgn] in *.
  - exists (k + b + a)%Z. rewrite Eb, Ea, E. replace (A + (k + b + a) * N)%Z with (A + k * N + b * N + a * N)%Z by ring. rewrite !inject_Z_plus. ring.
  - exists (k + b - a)%Z. rewrite Eb, Ea, E. replace (A + (k + b - a) * N)%Z with (A + k * N + b * N - a * N)%Z by ring. unfold Z.sub. rewrite !inject_Z_plus, inject_Z_opp. ring.
Qed.
Lemma gwrap_image r r' : image_row y D' r r' -> image_row y D' (gwrap (Wx D) (Wy D) (d_dx D) (d_dy D) r) (gwrap (Wx D') (Wy D') (d_dx D') (d_dy D') r').
Proof using ID.
  intros (R1 & R2 & R). split; [|split; [|exact R]].
  - unfold gwrap. cbn [px py]. fold (Cx D) (Cy D) (Cx D') (Cy D'). destruct ID as [I1 _]. destruct (y_swap y), I1 as (I1 & I2 & I3 & I4); apply carried_wrap; auto.
  - unfold gwrap. cbn [px py]. fold (Cx D) (Cy D) (Cx D') (Cy D'). destruct ID as [I1 _]. destruct (y_swap y), I1 as (I1 & I2 & I3 & I4); apply carried_wrap; auto.
Qed.
Lemma image_canon r r' r1 r1' : canon r = canon r1 -> canon r' = canon r1' -> image_row y D' r r' -> image_row y D' r1 r1'.
Proof using.
  intros H H' (R1 & R2 & R3 & R4 & R5 & R6 & R7 & R8 & R9).
  assert (forall a b, Qred a = Qred b -> a == b) as RD by (intros a b E; rewrite <- (Qred_correct a), <- (Qred_correct b), E; reflexivity).
  assert (forall rev A N d x x' x1 x1', option_map Qred x = option_map Qred x1 -> option_map Qred x' = option_map Qred x1' -> carried rev A N d x x' -> carried rev A N d x1 x1') as K.
  { intros rev A N d [v|] [v'|] [v1|] [v1'|] E E'; cbn [option_map carried] in *; try discriminate; auto. intros (k & E2). exists k. injection E as E. injection E' as E'. rewrite <- (RD _ _ E), <- (RD _ _ E'). exact E2. }
  destruct r as [x z0 z b], r1 as [x1 z01 z1 b1], r' as [x' z0' z' b'], r1' as [x1' z01' z1' b1']. unfold canon in H, H'. cbn [px py pz other] in *.
  injection H as Hx Hy _ Hux Huy Huz Hig Hw H1 H2 H3 H4 H5 H6 Hid. injection H' as Hx' Hy' _ Hux' Huy' Huz' Hig' Hw' H1' H2' H3' H4' H5' H6' Hid'.
  destruct R8 as (F1 & F2 & F3 & F4 & F5 & F6). unfold image6 in F1, F2, F3, F4, F5, F6. cbv zeta in *. cbn [s_ex s_ey s_ez s_bx s_by s_bz] in F1, F2, F3, F4, F5, F6.
  pose proof (RD _ _ Hux) as Qux. pose proof (RD _ _ Huy) as Quy. pose proof (RD _ _ Huz) as Quz. pose proof (RD _ _ Hig) as Qig. pose proof (RD _ _ Hw) as Qw.
  pose proof (RD _ _ Hux') as Qux'. pose proof (RD _ _ Huy') as Quy'. pose proof (RD _ _ Huz') as Quz'. pose proof (RD _ _ Hig') as Qig'. pose proof (RD _ _ Hw') as Qw'.
  pose proof (RD _ _ H1) as P1. pose proof (RD _ _ H2) as P2. pose proof (RD _ _ H3) as P3. pose proof (RD _ _ H4) as P4. pose proof (RD _ _ H5) as P5. pose proof (RD _ _ H6) as P6.
  pose proof (RD _ _ H1') as P1'. pose proof (RD _ _ H2') as P2'. pose proof (RD _ _ H3') as P3'. pose proof (RD _ _ H4') as P4'. pose proof (RD _ _ H5') as P5'. pose proof (RD _ _ H6') as P6'.
  assert (option_map Qred (if y_swap y then z0 else x) = option_map Qred (if y_swap y then z01 else x1)) as U1 by (destruct (y_swap y); assumption).
  assert (option_map Qred (if y_swap y then x else z0) = option_map Qred (if y_swap y then x1 else z01)) as U2 by (destruct (y_swap y); assumption).
  split; [exact (K _ _ _ _ _ _ _ _ U1 Hx' R1)|]. split; [exact (K _ _ _ _ _ _ _ _ U2 Hy' R2)|]. cbn [other].
  rewrite <- Qux', <- Quy', <- Quz', <- Qig', <- Qw', <- Quz, <- Qig, <- Qw.
  split; [rewrite R3; destruct (y_swap y); [rewrite Quy|rewrite Qux]; reflexivity|].
  split; [rewrite R4; destruct (y_swap y); [rewrite Qux|rewrite Quy]; reflexivity|].
  split; [exact R5|]. split; [exact R6|]. split; [exact R7|]. split; [|congruence].
  unfold same6, image6. cbv zeta. cbn [s_ex s_ey s_ez s_bx s_by s_bz]. rewrite <- P1', <- P2', <- P3', <- P4', <- P5', <- P6', <- P3, <- P6.
  split; [rewrite F1; destruct (y_swap y); [rewrite P2|rewrite P1]; reflexivity|]. split; [rewrite F2; destruct (y_swap y); [rewrite P1|rewrite P2]; reflexivity|]. split; [exact F3|].
  split; [rewrite F4; destruct (y_swap y); [rewrite P5|rewrite P4]; reflexivity|]. split; [rewrite F5; destruct (y_swap y); [rewrite P4|rewrite P5]; reflexivity|exact F6].
Qed.
End Push.
