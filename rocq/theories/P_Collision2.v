(** Proofs about the collision kernel and the collisions of a cell. *)
From Coq Require Import QArith Reals Qreals Lra.
From Verif Require Import Base M_Push S_Push P_Boris M_Pairing S_Pairing P_Pairing M_Collision S_Collision P_Collision P_Threads.
Local Open Scope R_scope.
Local Notation vec := (vec R).

Section Kernel.
Variables c epsilon_0 h : R.
Hypothesis C : 0 < c.
Hypothesis EPS : 0 < epsilon_0.

Lemma store_u p m w : 0 < m -> c_u (store c p m w) = vscale (/ (m * c)) p.
Proof using C. intro M. destruct p as [[x y] z]. unfold store. cbv zeta. cbn [c_u vscale]. apply vec_eq; field; lra. Qed.
Lemma store_ok p m w : consistent (store c p m w).
Proof using.
  destruct p as [[x y] z]. unfold store, consistent, gamma. cbv zeta. cbn [c_u c_ig norm2]. unfold Rdiv at 1. rewrite Rmult_1_l. do 2 f_equal. ring.
Qed.
Lemma store_w p m w : c_w (store c p m w) = w.
Proof using. destruct p as [[x y] z]. reflexivity. Qed.

Lemma ln_pos d lam debye : 0 < (if Rlt_dec 0 lam then lam else varying_lnLambda c epsilon_0 h d debye).
Proof using.
  destruct (Rlt_dec 0 lam) as [L|L]; [exact L|]. unfold varying_lnLambda. cbv zeta.
  destruct (Rlt_dec 0 debye); [|lra]. apply Rlt_le_trans with 2; [lra|apply Rmax_l].
Qed.

Lemma scatter_norm d vol dt lam U phi :
  d_p1_com d = sqrt (norm2 (d_p1_com_v d)) -> d_p_perp d = (let '(x, y, _) := d_p1_com_v d in sqrt (x * x + y * y)) ->
  0 <= path_s c epsilon_0 d vol dt lam -> 0 <= U < 1 ->
  norm2 (coulomb_scattering c epsilon_0 d vol dt lam U phi) = norm2 (d_p1_com_v d).
Proof using.
  intros P PP S UU. unfold coulomb_scattering. destruct (Req_EM_T (d_p1_com d) 0) as [E|E]; [reflexivity|].
  pose proof (angle_unit _ U S UU) as A. destruct (scattering_angle _ U) as [co si].
  apply rotate_norm; [exact P|exact PP| |exact A].
  pose proof (sqrt_pos (norm2 (d_p1_com_v d))). lra.
Qed.

Lemma path_nonneg d vol dt lam :
  0 <= d_w1 d -> 0 < vol -> 0 <= dt -> 0 < lam -> 0 < d_m1 d -> 0 < d_m2 d -> 0 < d_gamma1 d -> 0 < d_gamma2 d -> 0 < d_gamma_com d -> 0 <= d_p1_com d ->
  0 <= path_s c epsilon_0 d vol dt lam.
Proof using C EPS.
  intros W V D L M1 M2 G1 G2 GC P. unfold path_s.
  assert (0 < c ^ 4) as C4 by (apply pow_lt; exact C). assert (0 < epsilon_0 ^ 2) as E2 by (apply pow_lt; exact EPS). pose proof PI_RGT_0 as PI0.
  apply Rmult_le_pos; [|apply pow2_ge_0].
  apply Rmult_le_pos; [|left; apply Rinv_0_lt_compat; nra].
  apply Rmult_le_pos; [|apply Rmult_le_pos; lra].
  apply Rmult_le_pos.
  - apply Rmult_le_pos; [|apply Rmult_le_pos; [lra|apply pow2_ge_0]].
    apply Rmult_le_pos; [|exact D]. apply Rmult_le_pos; [apply Rle_trans with (d_w1 d); [exact W|apply Rmax_l]|left; now apply Rinv_0_lt_compat].
  - left. apply Rinv_0_lt_compat. repeat apply Rmult_lt_0_compat; try assumption; try lra. unfold PI in PI0. lra.
Qed.

Section One.
Variables (m1 q1 m2 q2 lam debye dt_corr w_corr vol dt : R).
Variables (a b : cpart) (rnd : R * R * R).
Hypothesis M1 : 0 < m1.
Hypothesis M2 : 0 < m2.
Hypothesis VOL : 0 < vol.
Hypothesis DT : 0 <= dt.
Hypothesis DTC : 0 <= dt_corr.
Hypothesis WC : 0 < w_corr.
Hypothesis WA : 0 < c_w a.
Hypothesis WB : 0 < c_w b.
Hypothesis RND : random_ok rnd.
Hypothesis CA : consistent a.
Hypothesis CB : consistent b.

(** the two scattered momenta, and which particle takes its own *)
Lemma kernel_scatters :
  exists ua ub,
  vadd (vscale m1 ua) (vscale m2 ub) = vadd (vscale m1 (c_u a)) (vscale m2 (c_u b)) /\
  m1 * gamma ua + m2 * gamma ub = m1 * gamma (c_u a) + m2 * gamma (c_u b) /\
  let '(a', b') := collision_kernel c epsilon_0 h m1 q1 m2 q2 lam debye dt_corr w_corr vol dt rnd a b in
  consistent a' /\ consistent b' /\ c_w a' = c_w a /\ c_w b' = c_w b /\
  c_u a' = (if Rlt_dec (snd rnd) (c_w b / Rmax (c_w a) (c_w b)) then ua else c_u a) /\
  c_u b' = (if Rlt_dec (snd rnd) (c_w a / Rmax (c_w a) (c_w b)) then ub else c_u b).
Proof using C EPS M1 M2 VOL DT DTC WC WA WB RND CA CB.
  destruct rnd as [[U1 phi] U]. destruct RND as [R1 R2]. unfold collision_kernel. cbn [snd].
  assert (forall w w', 0 < w -> 0 < w' -> forall x, x * w_corr / Rmax (w * w_corr) (w' * w_corr) = x / Rmax w w') as SC.
  { intros w w' W W' x. replace (Rmax (w * w_corr) (w' * w_corr)) with (Rmax w w' * w_corr).
    - pose proof (Rmax_l w w'). field. split; apply Rgt_not_eq; lra.
    - rewrite (Rmult_comm _ w_corr), (Rmult_comm w), (Rmult_comm w'). symmetry. apply RmaxRmult. lra. }
  rewrite (SC (c_w a) (c_w b) WA WB), (SC (c_w a) (c_w b) WA WB).
  rewrite CA, CB.
  set (d := collision_data c (c_u a) _ _ m1 q1 (c_u b) _ _ m2 q2).
  pose proof (data_q c C (c_u a) (c_u b) m1 m2 q1 q2 (c_w a * w_corr) (c_w b * w_corr) M1 M2) as DQ. fold d in DQ.
  pose proof (data_p c C (c_u a) (c_u b) m1 m2 q1 q2 (c_w a * w_corr) (c_w b * w_corr) M1 M2) as DP. fold d in DP.
  pose proof (data_perp c C (c_u a) (c_u b) m1 m2 q1 q2 (c_w a * w_corr) (c_w b * w_corr) M1 M2) as DPP. fold d in DPP.
  pose proof (data_G c C (c_u a) (c_u b) m1 m2 q1 q2 (c_w a * w_corr) (c_w b * w_corr) M1 M2) as DG. fold d in DG.
  pose proof (G_pos c C (c_u a) (c_u b) m1 m2 M1 M2) as GP. rewrite <- DG in GP.
  destruct (Req_EM_T (d_p1_com d) 0) as [Z|NZ].
  - exists (c_u a), (c_u b). split; [reflexivity|]. split; [reflexivity|]. split; [exact CA|]. split; [exact CB|]. repeat split; destruct (Rlt_dec _ _); reflexivity.
  - set (lam' := if Rlt_dec 0 lam then lam else _).
    assert (0 < lam') as LP by apply ln_pos.
    set (r := coulomb_scattering c epsilon_0 d vol (dt * dt_corr) lam' U1 phi).
    assert (norm2 r = norm2 (d_p1_com_v d)) as RN.
    { apply scatter_norm; [rewrite DP, DQ; reflexivity|rewrite DPP, DQ; reflexivity| |exact R1].
      apply path_nonneg; try assumption.
      - unfold d, collision_data. destruct (c_u a) as [[x1 y1] z1], (c_u b) as [[x2 y2] z2]. cbn [d_w1]. apply Rmult_le_pos; lra.
      - apply Rmult_le_pos; assumption.
      - unfold d, collision_data. destruct (c_u a) as [[x1 y1] z1], (c_u b) as [[x2 y2] z2]. exact M1.
      - unfold d, collision_data. destruct (c_u a) as [[x1 y1] z1], (c_u b) as [[x2 y2] z2]. exact M2.
      - unfold d, collision_data. pose proof (gamma_pos (c_u a)) as GA. destruct (c_u a) as [[x1 y1] z1], (c_u b) as [[x2 y2] z2]. cbn [d_gamma1].
        unfold Rdiv. rewrite Rmult_1_l, Rinv_inv. exact GA.
      - unfold d, collision_data. pose proof (gamma_pos (c_u b)) as GA. destruct (c_u a) as [[x1 y1] z1], (c_u b) as [[x2 y2] z2]. cbn [d_gamma2].
        unfold Rdiv. rewrite Rmult_1_l, Rinv_inv. exact GA.
      - rewrite DP. apply sqrt_pos. }
    rewrite DQ in RN.
    pose proof (new_momentum c C (c_u a) (c_u b) m1 m2 q1 q2 (c_w a * w_corr) (c_w b * w_corr) M1 M2 r) as NM.
    pose proof (new_energy c C (c_u a) (c_u b) m1 m2 q1 q2 (c_w a * w_corr) (c_w b * w_corr) M1 M2 r RN) as NE.
    fold d in NM, NE.
    destruct r as [[qx qy] qz]. cbn [vscale] in NM, NE. 
    replace (-1 * qx) with (- qx) in NM, NE by ring. replace (-1 * qy) with (- qy) in NM, NE by ring. replace (-1 * qz) with (- qz) in NM, NE by ring.
    set (n1 := boost_to_lab (qx, qy, qz) _ _ _ _ _) in *. set (n2 := boost_to_lab (- qx, - qy, - qz) _ _ _ _ _) in *.
    exists (vscale (/ (m1 * c)) n1), (vscale (/ (m2 * c)) n2).
    split; [|split; [exact NE|]].
    + clear - NM M1 M2 C. destruct n1 as [[a1 a2] a3], n2 as [[b1 b2] b3], (c_u a) as [[x1 y1] z1], (c_u b) as [[x2 y2] z2].
      cbn [vadd vscale] in *. injection NM as N1 N2 N3.
      apply vec_eq.
      * transitivity ((a1 + b1) / c); [field; lra|]. rewrite N1. field; lra.
      * transitivity ((a2 + b2) / c); [field; lra|]. rewrite N2. field; lra.
      * transitivity ((a3 + b3) / c); [field; lra|]. rewrite N3. field; lra.
    + assert (c_u a = c_u a) as _ by reflexivity.
      repeat split.
      * destruct (Rlt_dec U _); [apply store_ok|exact CA].
      * destruct (Rlt_dec U _); [apply store_ok|exact CB].
      * destruct (Rlt_dec U _); [apply store_w|reflexivity].
      * destruct (Rlt_dec U _); [apply store_w|reflexivity].
      * destruct (Rlt_dec U _); [now apply store_u|reflexivity].
      * destruct (Rlt_dec U _); [now apply store_u|reflexivity].
Qed.

Lemma kernel_conserves : c_w a = c_w b ->
  let '(a', b') := collision_kernel c epsilon_0 h m1 q1 m2 q2 lam debye dt_corr w_corr vol dt rnd a b in
  consistent a' /\ consistent b' /\ c_w a' = c_w a /\ c_w b' = c_w b /\
  vadd (momentum m1 a') (momentum m2 b') = vadd (momentum m1 a) (momentum m2 b) /\
  energy m1 a' + energy m2 b' = energy m1 a + energy m2 b.
Proof using C EPS M1 M2 VOL DT DTC WC WA WB RND CA CB.
  intro EQ. destruct kernel_scatters as (ua & ub & PM & EN & K).
  destruct (collision_kernel _ _ _ _ _ _ _ _ _ _ _ _ _ _ a b) as [a' b']. destruct K as (K1 & K2 & K3 & K4 & K5 & K6).
  assert (c_w b / Rmax (c_w a) (c_w b) = 1) as T1 by (rewrite EQ, Rmax_left by lra; field; lra).
  assert (c_w a / Rmax (c_w a) (c_w b) = 1) as T2 by (rewrite EQ, Rmax_left by lra; field; lra).
  rewrite T1 in K5. rewrite T2 in K6.
  assert (snd rnd < 1) as U by (destruct rnd as [[U1 phi] U]; destruct RND; cbn [snd]; lra).
  destruct (Rlt_dec (snd rnd) 1) as [_|N]; [|contradiction].
  do 4 (split; [assumption|]). unfold momentum, energy. rewrite K3, K4, K5, K6, EQ. set (w := c_w b). clear - PM EN. split.
  - destruct ua as [[a1 a2] a3], ub as [[b1 b2] b3], (c_u a) as [[x1 y1] z1], (c_u b) as [[x2 y2] z2].
    cbn [vadd vscale] in *. injection PM as N1 N2 N3. apply vec_eq.
    + transitivity (w * (m1 * a1 + m2 * b1)); [ring|]. rewrite N1. ring.
    + transitivity (w * (m1 * a2 + m2 * b2)); [ring|]. rewrite N2. ring.
    + transitivity (w * (m1 * a3 + m2 * b3)); [ring|]. rewrite N3. ring.
  - transitivity (w * (m1 * gamma ua + m2 * gamma ub)); [ring|]. rewrite EN. ring.
Qed.
End One.

(** * The collisions of a cell *)
Lemma tm_upd m i a a' l : nth_error l i = Some a ->
  vadd (total_momentum m (upd i a' l)) (momentum m a) = vadd (total_momentum m l) (momentum m a').
Proof using.
  revert i. induction l as [|x l IH]; intros [|i] E; cbn [nth_error] in E; try discriminate; cbn [upd total_momentum fold_right].
  - injection E as ->. fold (total_momentum m l). clear IH. generalize (momentum m a), (momentum m a'), (total_momentum m l).
    intros [[? ?] ?] [[? ?] ?] [[? ?] ?]. cbn [vadd]. apply vec_eq; ring.
  - specialize (IH i E). fold (total_momentum m (upd i a' l)). fold (total_momentum m l). revert IH.
    generalize (momentum m a), (momentum m a'), (momentum m x), (total_momentum m l), (total_momentum m (upd i a' l)).
    intros [[? ?] ?] [[? ?] ?] [[? ?] ?] [[? ?] ?] [[? ?] ?] IH. cbn [vadd] in *. injection IH as I1 I2 I3. apply vec_eq; lra.
Qed.
Lemma te_upd m i a a' l : nth_error l i = Some a ->
  total_energy m (upd i a' l) + energy m a = total_energy m l + energy m a'.
Proof using.
  revert i. induction l as [|x l IH]; intros [|i] E; cbn [nth_error] in E; try discriminate; cbn [upd total_energy fold_right].
  - injection E as ->. lra.
  - specialize (IH i E). fold (total_energy m (upd i a' l)). fold (total_energy m l). lra.
Qed.

Lemma good_upd w used i a l : all_good w used l -> good w a -> all_good w used (upd i a l).
Proof using.
  intros F G k b K E. destruct (Nat.eq_dec i k) as [<-|N].
  - destruct (le_lt_dec (length l) i) as [O|O].
    + rewrite (proj2 (nth_error_None _ _)) in E; [discriminate|]. rewrite upd_length. exact O.
    + rewrite nth_upd_same in E by exact O. injection E as <-. exact G.
  - rewrite nth_upd_other in E by exact N. exact (F k b K E).
Qed.

Lemma intra_step_ok m q lam debye vol dt w used ps j :
  0 < m -> 0 < vol -> 0 <= dt -> 0 < w -> all_good w used ps -> job_ok j -> j_1 j <> j_2 j -> used (j_1 j) -> used (j_2 j) ->
  let ps' := intra_step c epsilon_0 h m q lam debye vol dt ps j in
  all_good w used ps' /\ total_momentum m ps' = total_momentum m ps /\ total_energy m ps' = total_energy m ps /\
  length ps' = length ps /\ (forall i, i <> j_1 j -> i <> j_2 j -> nth_error ps' i = nth_error ps i).
Proof using C EPS.
  intros M V D W F (J1 & J2 & J3) NE S1 S2. unfold intra_step. cbv zeta.
  destruct (nth_error ps (j_1 j)) as [a|] eqn:EA; [|split; [exact F|repeat split]].
  destruct (nth_error ps (j_2 j)) as [b|] eqn:EB; [|split; [exact F|repeat split]].
  destruct (F _ a S1 EA) as [CA WA]. destruct (F _ b S2 EB) as [CB WB].
  pose proof (kernel_conserves m q m q lam debye (j_dt j) (j_w j) vol dt a b (j_rnd j) M M V D J2 J1 ltac:(lra) ltac:(lra) J3 CA CB ltac:(lra)) as K.
  destruct (collision_kernel _ _ _ _ _ _ _ _ _ _ _ _ _ _ a b) as [a' b']. destruct K as (K1 & K2 & K3 & K4 & K5 & K6).
  assert (nth_error (upd (j_1 j) a' ps) (j_2 j) = Some b) as EB'.
  { rewrite nth_upd_other by exact NE. exact EB. }
  split; [|split; [|split; [|split]]].
  - apply good_upd; [apply good_upd; [exact F|]|]; split; auto; lra.
  - pose proof (tm_upd m (j_1 j) a a' ps EA) as T1. pose proof (tm_upd m (j_2 j) b b' _ EB') as T2.
    revert T1 T2 K5. generalize (momentum m a), (momentum m a'), (momentum m b), (momentum m b'), (total_momentum m ps), (total_momentum m (upd (j_1 j) a' ps)), (total_momentum m (upd (j_2 j) b' (upd (j_1 j) a' ps))).
    intros [[? ?] ?] [[? ?] ?] [[? ?] ?] [[? ?] ?] [[? ?] ?] [[? ?] ?] [[? ?] ?] T1 T2 K5. cbn [vadd] in *.
    injection T1 as ? ? ?. injection T2 as ? ? ?. injection K5 as ? ? ?. apply vec_eq; lra.
  - pose proof (te_upd m (j_1 j) a a' ps EA). pose proof (te_upd m (j_2 j) b b' _ EB'). lra.
  - now rewrite !upd_length.
  - intros i I1 I2. rewrite !nth_upd_other by auto. reflexivity.
Qed.

Lemma intra_cell_ok m q lam debye vol dt w used jobs : 
  0 < m -> 0 < vol -> 0 <= dt -> 0 < w -> (forall j, In j jobs -> job_ok j /\ j_1 j <> j_2 j /\ used (j_1 j) /\ used (j_2 j)) ->
  forall ps, all_good w used ps ->
  let ps' := intra_collision_cell c epsilon_0 h m q lam debye vol dt jobs ps in
  all_good w used ps' /\ total_momentum m ps' = total_momentum m ps /\ total_energy m ps' = total_energy m ps /\
  length ps' = length ps /\ (forall i, ~ used i -> nth_error ps' i = nth_error ps i).
Proof using C EPS.
  intros M V D W. unfold intra_collision_cell. induction jobs as [|j jobs IH]; intros J ps F; cbn [fold_left].
  - split; [exact F|repeat split].
  - destruct (J j (or_introl eq_refl)) as (J1 & J2 & J3 & J4).
    destruct (intra_step_ok m q lam debye vol dt w used ps j M V D W F J1 J2 J3 J4) as (F1 & T1 & E1 & L1 & U1).
    destruct (IH (fun x I => J x (or_intror I)) _ F1) as (F2 & T2 & E2 & L2 & U2). cbv zeta. rewrite <- T1, <- E1, <- L1. split; [exact F2|]. do 3 (split; [assumption|]).
    intros i I. rewrite U2 by exact I. apply U1; intros ->; contradiction.
Qed.

Lemma inter_step_ok m1 q1 m2 q2 lam debye vol dt w used1 used2 ps j :
  0 < m1 -> 0 < m2 -> 0 < vol -> 0 <= dt -> 0 < w -> all_good w used1 (fst ps) -> all_good w used2 (snd ps) -> job_ok j -> used1 (j_1 j) -> used2 (j_2 j) ->
  let ps' := inter_step c epsilon_0 h m1 q1 m2 q2 lam debye vol dt ps j in
  all_good w used1 (fst ps') /\ all_good w used2 (snd ps') /\
  vadd (total_momentum m1 (fst ps')) (total_momentum m2 (snd ps')) = vadd (total_momentum m1 (fst ps)) (total_momentum m2 (snd ps)) /\
  total_energy m1 (fst ps') + total_energy m2 (snd ps') = total_energy m1 (fst ps) + total_energy m2 (snd ps) /\
  (length (fst ps') = length (fst ps) /\ length (snd ps') = length (snd ps)) /\
  (forall i, i <> j_1 j -> nth_error (fst ps') i = nth_error (fst ps) i) /\ (forall i, i <> j_2 j -> nth_error (snd ps') i = nth_error (snd ps) i).
Proof using C EPS.
  intros M1 M2 V D W F1 F2 (J1 & J2 & J3) S1 S2. unfold inter_step. cbv zeta.
  destruct (nth_error (fst ps) (j_1 j)) as [a|] eqn:EA; [|split; [exact F1|split; [exact F2|repeat split]]].
  destruct (nth_error (snd ps) (j_2 j)) as [b|] eqn:EB; [|split; [exact F1|split; [exact F2|repeat split]]].
  destruct (F1 _ a S1 EA) as [CA WA]. destruct (F2 _ b S2 EB) as [CB WB].
  pose proof (kernel_conserves m1 q1 m2 q2 lam debye (j_dt j) (j_w j) vol dt a b (j_rnd j) M1 M2 V D J2 J1 ltac:(lra) ltac:(lra) J3 CA CB ltac:(lra)) as K.
  destruct (collision_kernel _ _ _ _ _ _ _ _ _ _ _ _ _ _ a b) as [a' b']. destruct K as (K1 & K2 & K3 & K4 & K5 & K6). cbn [fst snd].
  split; [|split; [|split; [|split; [|split; [|split]]]]].
  - apply good_upd; [exact F1|]; split; auto; lra.
  - apply good_upd; [exact F2|]; split; auto; lra.
  - pose proof (tm_upd m1 (j_1 j) a a' _ EA) as T1. pose proof (tm_upd m2 (j_2 j) b b' _ EB) as T2.
    revert T1 T2 K5. generalize (momentum m1 a), (momentum m1 a'), (momentum m2 b), (momentum m2 b'), (total_momentum m1 (fst ps)), (total_momentum m2 (snd ps)), (total_momentum m1 (upd (j_1 j) a' (fst ps))), (total_momentum m2 (upd (j_2 j) b' (snd ps))).
    intros [[? ?] ?] [[? ?] ?] [[? ?] ?] [[? ?] ?] [[? ?] ?] [[? ?] ?] [[? ?] ?] [[? ?] ?] T1 T2 K5. cbn [vadd] in *.
    injection T1 as ? ? ?. injection T2 as ? ? ?. injection K5 as ? ? ?. apply vec_eq; lra.
  - pose proof (te_upd m1 (j_1 j) a a' _ EA). pose proof (te_upd m2 (j_2 j) b b' _ EB). lra.
  - split; apply upd_length.
  - intros i I. rewrite nth_upd_other by auto. reflexivity.
  - intros i I. rewrite nth_upd_other by auto. reflexivity.
Qed.

Lemma inter_cell_ok m1 q1 m2 q2 lam debye vol dt w used1 used2 jobs : 
  0 < m1 -> 0 < m2 -> 0 < vol -> 0 <= dt -> 0 < w -> (forall j, In j jobs -> job_ok j /\ used1 (j_1 j) /\ used2 (j_2 j)) ->
  forall ps, all_good w used1 (fst ps) -> all_good w used2 (snd ps) ->
  let ps' := inter_collision_cell c epsilon_0 h m1 q1 m2 q2 lam debye vol dt jobs ps in
  all_good w used1 (fst ps') /\ all_good w used2 (snd ps') /\
  vadd (total_momentum m1 (fst ps')) (total_momentum m2 (snd ps')) = vadd (total_momentum m1 (fst ps)) (total_momentum m2 (snd ps)) /\
  total_energy m1 (fst ps') + total_energy m2 (snd ps') = total_energy m1 (fst ps) + total_energy m2 (snd ps) /\
  (length (fst ps') = length (fst ps) /\ length (snd ps') = length (snd ps)) /\
  (forall i, ~ used1 i -> nth_error (fst ps') i = nth_error (fst ps) i) /\ (forall i, ~ used2 i -> nth_error (snd ps') i = nth_error (snd ps) i).
Proof using C EPS.
  intros M1 M2 V D W. unfold inter_collision_cell. induction jobs as [|j jobs IH]; intros J ps F1 F2; cbn [fold_left].
  - split; [exact F1|split; [exact F2|repeat split]].
  - destruct (J j (or_introl eq_refl)) as (J1 & J2 & J3).
    destruct (inter_step_ok m1 q1 m2 q2 lam debye vol dt w used1 used2 ps j M1 M2 V D W F1 F2 J1 J2 J3) as (G1 & G2 & T1 & E1 & (L1 & L1') & U1 & V1).
    destruct (IH (fun x I => J x (or_intror I)) _ G1 G2) as (H1 & H2 & T2 & E2 & (L2 & L2') & U2 & V2). cbv zeta. rewrite <- T1, <- E1, <- L1, <- L1'. split; [exact H1|]. split; [exact H2|]. do 2 (split; [assumption|]). split; [split; assumption|]. split.
    + intros i I. rewrite U2 by exact I. apply U1. intros ->. contradiction.
    + intros i I. rewrite V2 by exact I. apply V1. intros ->. contradiction.
Qed.

(** * With the pairs of the iterators *)
Lemma jobs_of_in j ps rnds : In j (jobs_of ps rnds) -> exists p r, In p ps /\ In r rnds /\ j = job_of p r.
Proof using.
  unfold jobs_of. intro I. apply in_map_iff in I. destruct I as ([p r] & <- & I). exists p, r.
  split; [exact (in_combine_l _ _ _ _ I)|]. split; [exact (in_combine_r _ _ _ _ I)|reflexivity].
Qed.

Lemma inter_loop_w dA dB idx sB nbA nbB nA nB n : forall s p, In p (inter_loop dA dB idx sB nbA nbB nA nB n s) -> (0 < p_w p)%Q.
Proof using.
  induction n as [|n IH]; intros s p I; [destruct I|]. cbn [inter_loop] in I.
  destruct (inter_next dA dB idx sB nbA nbB nA nB s) as [p0 s'] eqn:E. destruct I as [<-|I]; [|exact (IH _ _ I)].
  unfold inter_next in E. cbv zeta in E. injection E as <- _. cbn [p_w]. destruct (_ <? _)%nat; reflexivity.
Qed.
Lemma inter_pairs_w d1 a1 b1 d2 a2 b2 idx p : In p (inter_pairs d1 a1 b1 d2 a2 b2 idx) -> (0 < p_w p)%Q.
Proof using.
  unfold inter_pairs. destruct (_ || _)%bool; [intros []|]. destruct (_ <=? _)%nat; intro I.
  - exact (inter_loop_w _ _ _ _ _ _ _ _ _ _ _ I).
  - apply in_map_iff in I. destruct I as (x & <- & I). cbn [swap_pair p_w]. exact (inter_loop_w _ _ _ _ _ _ _ _ _ _ _ I).
Qed.

Lemma in_ends p ps : In p ps -> In (p_1 p) (ends ps) /\ In (p_2 p) (ends ps).
Proof using.
  intro I. unfold ends. split; apply in_flat_map; exists p; split; auto; cbn [In]; auto.
Qed.

Lemma intra_pairs_ok dead start stop idx p : Permutation idx (seq start (stop - start)) -> In p (intra_pairs dead start stop idx) ->
  (0 < p_w p)%Q /\ p_1 p <> p_2 p /\ In (p_1 p) (live dead start stop) /\ In (p_2 p) (live dead start stop).
Proof using.
  intros PI I. destruct (Nat.even (length (live dead start stop))) eqn:EV.
  - destruct (intra_even_ok dead start stop idx PI EV) as [P H]. destruct (H p I) as (N & W & _). destruct (in_ends p _ I) as [E1 E2].
    split; [rewrite W; reflexivity|]. split; [exact N|]. split; eapply Permutation_in; eauto.
  - assert (Nat.odd (length (live dead start stop)) = true) as OD by (unfold Nat.odd; now rewrite EV).
    destruct (Nat.eq_dec (length (live dead start stop)) 1) as [L1|L1]; [rewrite (intra_single dead start stop idx L1) in I; destruct I|].
    assert (2 <= length (live dead start stop))%nat as L2.
    { destruct (length (live dead start stop)) as [|[|n]]; [discriminate EV|lia|lia]. }
    destruct (intra_odd_ok dead start stop idx PI OD L2) as (a & A & P & H). destruct (H p I) as (N & W & _). destruct (in_ends p _ I) as [E1 E2].
    split; [rewrite W; destruct (has_end a p); reflexivity|]. split; [exact N|].
    assert (forall x, In x (ends (intra_pairs dead start stop idx)) -> In x (live dead start stop)) as IN.
    { intros x X. apply (Permutation_in _ P) in X. destruct X as [<-|X]; assumption. }
    split; apply IN; assumption.
Qed.

Lemma job_of_ok p r : (0 < p_w p)%Q -> random_ok r -> job_ok (job_of p r).
Proof using.
  intros W R. split; [|split; [apply pos_INR|exact R]]. cbn [j_w job_of]. replace 0 with (Q2R 0); [apply Qlt_Rlt; exact W|]. unfold Q2R. cbn. lra.
Qed.

Lemma intra_all m q lam debye vol dt w dead start stop idx rnds ps :
  0 < m -> 0 < vol -> 0 <= dt -> 0 < w -> Permutation idx (seq start (stop - start)) -> Forall random_ok rnds ->
  all_good w (fun i => In i (live dead start stop)) ps ->
  let ps' := intra_cell c epsilon_0 h m q lam debye vol dt dead start stop idx rnds ps in
  all_good w (fun i => In i (live dead start stop)) ps' /\ total_momentum m ps' = total_momentum m ps /\ total_energy m ps' = total_energy m ps /\
  length ps' = length ps /\ (forall i, ~ In i (live dead start stop) -> nth_error ps' i = nth_error ps i).
Proof using C EPS.
  intros M V D W PI RN G. unfold intra_cell. refine (intra_cell_ok m q lam debye vol dt w (fun i => In i (live dead start stop)) _ M V D W _ ps G).
  intros j J. apply jobs_of_in in J. destruct J as (p & r & P & R & ->). destruct (intra_pairs_ok _ _ _ _ _ PI P) as (H1 & H2 & H3 & H4).
  split; [|cbn [j_1 j_2 job_of]; auto]. apply job_of_ok; [exact H1|]. rewrite Forall_forall in RN. auto.
Qed.

Lemma inter_pairs_ok d1 a1 b1 d2 a2 b2 idx p :
  Permutation idx (if (length (live d2 a2 b2) <=? length (live d1 a1 b1))%nat then seq a1 (b1 - a1) else seq a2 (b2 - a2)) ->
  In p (inter_pairs d1 a1 b1 d2 a2 b2 idx) -> In (p_1 p) (live d1 a1 b1) /\ In (p_2 p) (live d2 a2 b2).
Proof using.
  intros PI I.
  destruct (Nat.eq_dec (length (live d1 a1 b1)) 0) as [Z1|Z1].
  { apply length_zero_iff_nil in Z1. rewrite inter_none in I by auto. destruct I. }
  destruct (Nat.eq_dec (length (live d2 a2 b2)) 0) as [Z2|Z2].
  { apply length_zero_iff_nil in Z2. rewrite inter_none in I by auto. destruct I. }
  destruct (Nat.leb_spec (length (live d2 a2 b2)) (length (live d1 a1 b1))) as [L|L].
  - destruct (inter_side1 d1 a1 b1 d2 a2 b2 idx PI ltac:(lia)) as (P & H & _). split; [|apply H; exact I].
    eapply Permutation_in; [exact P|]. apply in_map. exact I.
  - destruct (inter_side2 d1 a1 b1 d2 a2 b2 idx PI ltac:(lia)) as (P & H & _). split; [apply H; exact I|].
    eapply Permutation_in; [exact P|]. apply in_map. exact I.
Qed.

Lemma inter_all m1 q1 m2 q2 lam debye vol dt w d1 a1 b1 d2 a2 b2 idx rnds ps :
  0 < m1 -> 0 < m2 -> 0 < vol -> 0 <= dt -> 0 < w ->
  Permutation idx (if (length (live d2 a2 b2) <=? length (live d1 a1 b1))%nat then seq a1 (b1 - a1) else seq a2 (b2 - a2)) ->
  Forall random_ok rnds ->
  all_good w (fun i => In i (live d1 a1 b1)) (fst ps) -> all_good w (fun i => In i (live d2 a2 b2)) (snd ps) ->
  let ps' := inter_cell c epsilon_0 h m1 q1 m2 q2 lam debye vol dt d1 a1 b1 d2 a2 b2 idx rnds ps in
  all_good w (fun i => In i (live d1 a1 b1)) (fst ps') /\ all_good w (fun i => In i (live d2 a2 b2)) (snd ps') /\
  vadd (total_momentum m1 (fst ps')) (total_momentum m2 (snd ps')) = vadd (total_momentum m1 (fst ps)) (total_momentum m2 (snd ps)) /\
  total_energy m1 (fst ps') + total_energy m2 (snd ps') = total_energy m1 (fst ps) + total_energy m2 (snd ps) /\
  (length (fst ps') = length (fst ps) /\ length (snd ps') = length (snd ps)) /\
  (forall i, ~ In i (live d1 a1 b1) -> nth_error (fst ps') i = nth_error (fst ps) i) /\
  (forall i, ~ In i (live d2 a2 b2) -> nth_error (snd ps') i = nth_error (snd ps) i).
Proof using C EPS.
  intros M1 M2 V D W PI RN G1 G2. unfold inter_cell.
  refine (inter_cell_ok m1 q1 m2 q2 lam debye vol dt w (fun i => In i (live d1 a1 b1)) (fun i => In i (live d2 a2 b2)) _ M1 M2 V D W _ ps G1 G2).
  intros j J. apply jobs_of_in in J. destruct J as (p & r & P & R & ->). destruct (inter_pairs_ok _ _ _ _ _ _ _ _ PI P) as (H1 & H2).
  split; [|cbn [j_1 j_2 job_of]; auto]. apply job_of_ok; [exact (inter_pairs_w _ _ _ _ _ _ _ _ P)|]. rewrite Forall_forall in RN. auto.
Qed.
End Kernel.
