(** C139: thermal momenta.  C140: the tail of the distribution. *)
From Coq Require Import Reals Lra.
From Verif Require Import Base M_Thermal S_Thermal.
Local Open Scope list_scope.
Local Open Scope R_scope.

Lemma filter_le {A} (f : A -> bool) l : (length (filter f l) <= length l)%nat.
Proof. induction l as [|a l IH]; [apply le_n|]. cbn [filter length]. destruct (f a); cbn [length]; lia. Qed.
Lemma firstn_in {A} n (l : list A) x : In x (firstn n l) -> In x l.
Proof. revert n. induction l as [|a l IH]; intros [|n] I; cbn [firstn] in I; try contradiction. destruct I as [I|I]; [left; exact I|right; exact (IH n I)]. Qed.
Lemma reject_spec accept : forall rounds missing out, reject accept missing rounds = Some out ->
  length out = missing /\ forall g, In g out -> exists ps p, In ps rounds /\ In p ps /\ g = fst p /\ accept p = true.
Proof.
  induction rounds as [|ps rounds IH]; intros missing out E.
  - destruct missing; [|discriminate]. injection E as <-. split; [reflexivity|intros ? []].
  - destruct missing as [|m]; [injection E as <-; split; [reflexivity|intros ? []]|]. cbn [reject] in E.
    assert (length (map fst (filter accept (firstn (S m) ps))) <= S m)%nat as L by (rewrite map_length; etransitivity; [apply filter_le|apply firstn_le_length]).
    assert (forall g, In g (map fst (filter accept (firstn (S m) ps))) -> exists p, In p ps /\ g = fst p /\ accept p = true) as A.
    { intros g I. apply in_map_iff in I. destruct I as (p & <- & I). apply filter_In in I. exists p. split; [apply (firstn_in (S m)); apply I|]. split; [reflexivity|apply I]. }
    set (a := map fst (filter accept (firstn (S m) ps))) in *. clearbody a.
    destruct (reject accept (S m - length a) rounds) as [o|] eqn:E'; [|discriminate]. injection E as <-. destruct (IH _ _ E') as [L' A']. split.
    + rewrite app_length. lia.
    + intros g I. apply in_app_or in I. destruct I as [I|I].
      * destruct (A g I) as (p & Ip & G & C). exists ps, p. split; [left; reflexivity|]. auto.
      * destruct (A' g I) as (qs & p & Iq & Ip & G & C). exists qs, p. split; [right; exact Iq|]. auto.
Qed.

(** ** exactly as many Lorentz factors as particles, none below 1 *)
Theorem C139_number : forall k2 theta size xs rounds out, gamma_values size xs -> (1 / 100 < theta <= 1 / 2 -> uniform_proposals theta rounds) -> gammas k2 theta size xs rounds = Some out ->
  length out = size /\ forall g, In g out -> 1 <= g.
Proof.
  intros k2 theta size xs rounds out (Lx & X) U E. unfold gammas in E. destruct (Rle_dec theta (1 / 100)) as [T|T]; [|destruct (Rle_dec theta (1 / 2)) as [T'|T']].
  - injection E as <-. split; [rewrite map_length; apply firstn_length_le; exact Lx|]. intros g I. apply in_map_iff in I. destruct I as (x & <- & I). apply firstn_in in I. specialize (X x I). lra.
  - destruct (reject_spec _ _ _ _ E) as [L A]. split; [exact L|]. intros g I. destruct (A g I) as (ps & p & Ip & I' & -> & _). refine (proj1 (U _ ps p Ip I')). lra.
  - destruct (reject_spec _ _ _ _ E) as [L A]. split; [exact L|]. intros g I. destruct (A g I) as (ps & p & Ip & I' & -> & C). unfold accept_high in C. destruct (Rle_dec 1 (fst p)); [assumption|discriminate].
Qed.

(** ** the momentum made of a Lorentz factor and any direction has that Lorentz factor, so the inverse stored with the particle is
    the inverse of the one drawn *)
Theorem C139_energy : forall g phi costheta, 1 <= g -> -1 <= costheta <= 1 -> inv_gamma (momentum g phi costheta) = 1 / g.
Proof.
  intros g phi ct G C. unfold inv_gamma, momentum. cbv zeta. f_equal.
  assert (0 <= g ^ 2 - 1) as A by nra. assert (0 <= 1 - ct ^ 2) as B by nra.
  pose proof (sqrt_sqrt _ A) as SA. pose proof (sqrt_sqrt _ B) as SB. pose proof (sin2_cos2 phi) as SC. unfold Rsqr in SC.
  set (u := sqrt (g ^ 2 - 1)) in *. set (st := sqrt (1 - ct ^ 2)) in *.
  replace (1 + (u * st * cos phi) ^ 2 + (u * st * sin phi) ^ 2 + (u * ct) ^ 2) with (1 + (u * u) * ((st * st) * (sin phi * sin phi + cos phi * cos phi) + ct ^ 2)) by ring.
  rewrite SC, SB, SA. replace (1 + (g ^ 2 - 1) * ((1 - ct ^ 2) * 1 + ct ^ 2)) with (g * g) by ring. apply sqrt_square. lra.
Qed.

(** ** the loop ends as soon as enough proposals have been accepted, and each turn with an accepted one makes progress *)
Theorem C139_ends : forall accept rounds missing, (forall ps, In ps rounds -> exists p rest, ps = p :: rest /\ accept p = true) -> (missing <= length rounds)%nat -> exists out, reject accept missing rounds = Some out.
Proof.
  intros accept rounds. induction rounds as [|ps rounds IH]; intros missing A L.
  - assert (missing = 0)%nat as -> by (cbn [length] in L; lia). exists []. reflexivity.
  - destruct missing as [|m]; [exists []; reflexivity|]. cbn [reject]. destruct (A ps (or_introl eq_refl)) as (p & rest & -> & Ap).
    cbn [firstn filter]. rewrite Ap. cbn [map length]. set (k := length (map fst (filter accept (firstn m rest)))).
    destruct (IH (S m - S k)%nat) as (o & ->).
    + intros qs I. apply A. right. exact I.
    + cbn [length] in L. lia.
    + eexists. reflexivity.
Qed.

(** ** the distribution: above 0.01 a proposal with density p is accepted for random numbers v with v p(g) < c f(g), with f the
    Maxwell-Juettner density and one constant c, which is the condition under which rejection yields f *)
Lemma beta_juttner g : 1 <= g -> g ^ 2 * beta_of g = g * sqrt (g ^ 2 - 1).
Proof.
  intro G. unfold beta_of. replace (1 - 1 / g ^ 2) with ((g ^ 2 - 1) / g ^ 2) by (field; lra). rewrite sqrt_div_alt by nra. rewrite sqrt_pow2 by lra. field. lra.
Qed.
Lemma density_juttner k2 theta g : 0 < theta -> 0 < k2 -> 1 <= g -> density k2 theta g = juttner k2 theta g.
Proof. intros T Kp G. unfold density, juttner. rewrite (beta_juttner g G). replace (- g / theta) with (- (g / theta)) by (field; lra). field. lra. Qed.
Lemma beta_below g : 1 <= g -> 0 <= beta_of g <= 1.
Proof.
  intro G. split; [apply sqrt_pos|]. unfold beta_of. apply Rle_trans with (sqrt 1); [apply sqrt_le_1_alt|rewrite sqrt_1; lra]. assert (0 < 1 / g ^ 2) by (apply Rdiv_lt_0_compat; [lra|nra]). lra.
Qed.
Theorem C139_law_high : forall k2 theta, 0 < theta -> 0 < k2 -> exists c, 0 < c /\
  (forall g v, 1 <= g -> (accept_high (g, v) = true <-> v * gamma3 theta g < c * juttner k2 theta g)) /\
  (forall g v, g < 1 -> accept_high (g, v) = false) /\ (forall g, 1 <= g -> c * juttner k2 theta g <= 1 * gamma3 theta g).
Proof.
  intros k2 theta T Kp. assert (0 < theta ^ 2) as T2 by nra. assert (0 < theta ^ 3) as T3 by (apply pow_lt; exact T). exists (k2 / (2 * theta ^ 2)). split; [apply Rdiv_lt_0_compat; lra|].
  assert (forall g, 1 <= g -> k2 / (2 * theta ^ 2) * juttner k2 theta g = beta_of g * gamma3 theta g) as X.
  { intros g G. unfold juttner, gamma3. rewrite <- (beta_juttner g G). field. lra. }
  assert (forall g, 1 <= g -> 0 < gamma3 theta g) as P.
  { intros g G. unfold gamma3. apply Rdiv_lt_0_compat; [apply Rmult_lt_0_compat; [nra|apply exp_pos]|lra]. }
  split; [|split].
  - intros g v G. rewrite (X g G). unfold accept_high. cbn [fst snd]. destruct (Rle_dec 1 g); [|lra]. specialize (P g G). destruct (Rlt_dec v (beta_of g)) as [L|L]; split; try discriminate; try reflexivity.
    + intros _. apply Rmult_lt_compat_r; assumption.
    + intro H. destruct L. exact (Rmult_lt_reg_r _ _ _ P H).
  - intros g v G. unfold accept_high. cbn [fst snd]. destruct (Rle_dec 1 g); [lra|reflexivity].
  - intros g G. rewrite (X g G). apply Rmult_le_compat_r; [left; exact (P g G)|apply (beta_below g G)].
Qed.
Theorem C139_law_medium : forall k2 theta g v, 0 < theta -> 0 < k2 -> 1 <= g -> (accept_medium k2 theta (g, v) = true <-> v < juttner k2 theta g).
Proof.
  intros k2 theta g v T Kp G. unfold accept_medium. cbn [fst snd]. rewrite (density_juttner k2 theta g T Kp G). destruct (Rlt_dec v (juttner k2 theta g)) as [L|L]; split; try discriminate; try reflexivity; intro H; [exact L|destruct (L H)].
Qed.
(** at low temperatures what is drawn differs from the distribution by a factor that is 1 for slow particles *)
Theorem C139_law_low : forall k2 theta, 0 < theta -> 0 < k2 -> exists c, 0 < c /\ forall x, 0 <= x -> juttner k2 theta (x + 1) = c * gamma32 theta x * ((1 + x) * sqrt (1 + x / 2)).
Proof.
  intros k2 theta T Kp. exists (sqrt 2 * exp (- (1 / theta)) / (theta * k2)). split.
  - apply Rdiv_lt_0_compat; [apply Rmult_lt_0_compat; [apply sqrt_lt_R0; lra|apply exp_pos]|apply Rmult_lt_0_compat; assumption].
  - intros x X. unfold juttner, gamma32. replace ((x + 1) ^ 2 - 1) with (2 * (x * (1 + x / 2))) by field. rewrite !sqrt_mult by nra.
    replace (- ((x + 1) / theta)) with (- (1 / theta) + - (x / theta)) by (field; lra). rewrite exp_plus. field. lra.
Qed.

(** ** C140: every energy can be drawn.  For 0.01 < theta <= 0.5 no particle ever gets a kinetic energy of 10 theta m c^2 or more *)
Theorem C140_tail_refuted : forall k2 theta size xs rounds out, 1 / 100 < theta <= 1 / 2 -> uniform_proposals theta rounds -> gammas k2 theta size xs rounds = Some out ->
  forall g, In g out -> g - 1 < 10 * theta.
Proof.
  intros k2 theta size xs rounds out T U E g I. unfold gammas in E. destruct (Rle_dec theta (1 / 100)); [lra|]. destruct (Rle_dec theta (1 / 2)); [|lra].
  destruct (reject_spec _ _ _ _ E) as [_ A]. destruct (A g I) as (ps & p & Ip & I' & -> & _). specialize (U ps p Ip I'). lra.
Qed.
(** at other temperatures every energy is possible *)
Lemma beta_pos g : 1 < g -> 0 < beta_of g.
Proof. intro G. unfold beta_of. apply sqrt_lt_R0. assert (1 / g ^ 2 < 1) by (apply (Rmult_lt_reg_r (g ^ 2)); [nra|]; field_simplify; [nra|lra]). lra. Qed.
Theorem C140_elsewhere_partial : forall k2 theta g, 1 < g -> theta <= 1 / 100 \/ 1 / 2 < theta ->
  exists xs rounds, gamma_values 1 xs /\ enough 1 rounds /\ gammas k2 theta 1 xs rounds = Some [g].
Proof.
  intros k2 theta g G T. exists [g - 1], [[(g, 0)]]. split; [split; [apply le_n|intros x [<- |[]]; lra]|]. split; [intros ps [<- |[]]; apply le_n|].
  unfold gammas. destruct (Rle_dec theta (1 / 100)).
  - cbn. do 2 f_equal. lra.
  - destruct (Rle_dec theta (1 / 2)); [lra|]. cbn [reject firstn filter]. unfold accept_high. cbn [fst snd]. destruct (Rle_dec 1 g); [|lra]. destruct (Rlt_dec 0 (beta_of g)) as [|N]; [reflexivity|destruct (N (beta_pos g G))].
Qed.

(** ** a case: two turns for three particles at theta = 1, with a proposal below 1 and one that is too slow *)
Lemma beta_two : 1 / 2 < beta_of 2.
Proof. unfold beta_of. rewrite <- (sqrt_square (1 / 2)) by lra. apply sqrt_lt_1; lra. Qed.
Example C139_case : gammas 1 1 3 [0; 0; 0] [[(2, 0); (1 / 2, 0); (2, 1)]; [(2, 1 / 2); (2, 0); (7, 0)]] = Some [2; 2; 2].
Proof.
  unfold gammas. destruct (Rle_dec 1 (1 / 100)); [lra|]. destruct (Rle_dec 1 (1 / 2)); [lra|]. pose proof beta_two as B.
  assert (accept_high (2, 0) = true) as A1 by (unfold accept_high; cbn [fst snd]; destruct (Rle_dec 1 2); [|lra]; destruct (Rlt_dec 0 (beta_of 2)); [reflexivity|lra]).
  assert (accept_high (2, 1 / 2) = true) as A2 by (unfold accept_high; cbn [fst snd]; destruct (Rle_dec 1 2); [|lra]; destruct (Rlt_dec (1 / 2) (beta_of 2)); [reflexivity|lra]).
  assert (accept_high (1 / 2, 0) = false) as A3 by (unfold accept_high; cbn [fst snd]; destruct (Rle_dec 1 (1 / 2)); [lra|reflexivity]).
  assert (accept_high (2, 1) = false) as A4.
  { unfold accept_high. cbn [fst snd]. destruct (Rle_dec 1 2); [|lra]. destruct (Rlt_dec 1 (beta_of 2)) as [H|]; [|reflexivity]. exfalso. unfold beta_of in H. rewrite <- sqrt_1 in H at 1. apply sqrt_lt_0_alt in H. lra. }
  cbn [reject firstn filter]. rewrite A1, A3, A4. cbn [map length option_map app fst reject Nat.sub firstn filter]. rewrite A2, A1. reflexivity.
Qed.

Print Assumptions C139_number.
Print Assumptions C139_energy.
Print Assumptions C139_ends.
Print Assumptions C139_law_high.
Print Assumptions C139_law_medium.
Print Assumptions C139_law_low.
Print Assumptions C139_case.
Print Assumptions C140_tail_refuted.
Print Assumptions C140_elsewhere_partial.
