(** Properties of the generation of the tables of the QED processes. *)
From Verif Require Import Base M_QedTable S_QedTable M_QedGen S_QedGen P_QedTable P_QedTable2 P_QedGen P_QedGen2 P_QedGen3.
From Coq Require Import QArith Lqa.
Local Open Scope Z_scope.

Lemma Qeq_le (a b : Q) : (a == b)%Q -> (a <= b)%Q.
Proof. intro H. rewrite H. apply Qle_refl. Qed.

(** ** C124: the generated tables hold the given spectra at the places the lookups assume, and meet what the lookups need *)
Theorem C124_contents : forall quad pow10 photon pair nchi lo hi ndelta dlo,
  extensional quad -> powers pow10 -> emission photon -> emission pair ->
  2 <= nchi -> 2 <= ndelta -> (lo < hi)%Q -> (dlo < 0)%Q ->
  let T := table_gen quad pow10 photon pair nchi lo hi ndelta dlo in
  let g := t_grid T in
  grid_ok g /\ chi_N g = nchi /\ delta_N g = ndelta /\
  (log_chi_lo g == lo)%Q /\ (log_chi_hi g == hi)%Q /\ (log_delta_lo g == dlo)%Q /\
  tabulates quad g (chi_of pow10 g) (fraction_of pow10 g) photon (t_photon T) (t_photon_rows T) /\
  tabulates quad g (chi_of pow10 g) (fraction_of pow10 g) pair (t_pair T) (t_pair_rows T).
Proof.
  intros quad pow10 photon pair nchi lo hi ndelta dlo Hq Hp F1 F2 Hn Hd Hlo Hdlo T g.
  split; [apply log_grid_ok; assumption|]. do 2 (split; [reflexivity|]). do 3 (split; [reflexivity|]).
  split; now apply lg_tabulates.
Qed.
Theorem C124_usable : forall quad pow10 photon pair nchi lo hi ndelta dlo,
  powers pow10 -> emission photon -> emission pair ->
  2 <= nchi -> 3 <= ndelta -> (lo < hi)%Q -> (dlo < 0)%Q ->
  let T := table_gen quad pow10 photon pair nchi lo hi ndelta dlo in
  grid_ok (t_grid T) /\ rates_ok (t_grid T) (t_photon T) /\ rates_ok (t_grid T) (t_pair T) /\
  cdfs_ok (t_grid T) (t_photon_rows T) /\ cdfs_ok (t_grid T) (t_pair_rows T).
Proof.
  intros quad pow10 photon pair nchi lo hi ndelta dlo Hp F1 F2 Hn Hd Hlo Hdlo T.
  assert (2 <= ndelta) as Hd2 by lia.
  split; [apply log_grid_ok; assumption|]. split; [now apply lg_rates|]. split; [now apply lg_rates|].
  split; now apply lg_cdfs.
Qed.
(** the rate looked up at a tabulated chi is the integral of the spectrum of this chi *)
Theorem C124_rate : forall quad pow10 photon pair nchi lo hi ndelta dlo i,
  extensional quad -> powers pow10 -> emission photon -> emission pair ->
  2 <= nchi -> 2 <= ndelta -> (lo < hi)%Q -> (dlo < 0)%Q -> 0 <= i < nchi - 1 ->
  let T := table_gen quad pow10 photon pair nchi lo hi ndelta dlo in
  let g := t_grid T in
  exists v w P P', rate g (chi_at g i) (t_photon T) = Value v /\ rate g (chi_at g i) (t_pair T) = Value w /\
    (forall d, counted (photon (chi_of pow10 g i)) d (P d)) /\ (v == quad P 0 1)%Q /\
    (forall d, counted (pair (chi_of pow10 g i)) d (P' d)) /\ (w == quad P' 0 1)%Q.
Proof.
  intros quad pow10 photon pair nchi lo hi ndelta dlo i Hq Hp F1 F2 Hn Hd Hlo Hdlo Hi T g.
  assert (grid_ok g) as Hg by (apply log_grid_ok; assumption).
  assert (brackets g i (chi_at g i)) as Hb.
  { pose proof Hg as (_ & _ & Hs & _). split; [exact Hi|]. rewrite chi_next. split; lra. }
  assert (forall f table, rates_ok g table -> forall rows, tabulates quad g (chi_of pow10 g) (fraction_of pow10 g) f table rows ->
    exists v P, rate g (chi_at g i) table = Value v /\ (forall d, counted (f (chi_of pow10 g i)) d (P d)) /\ (v == quad P 0 1)%Q) as K.
  { intros f table Ht rows Tb. destruct (rate_line g Hg table _ i Ht Hb) as (v & E & L).
    destruct (Tb i ltac:(change (chi_N g) with nchi; lia)) as (P & P1 & P2 & _).
    exists v, P. split; [exact E|]. split; [exact P1|]. rewrite <- P2.
    unfold on_line in L. rewrite chi_next in L. pose proof Hg as (_ & _ & Hs & _).
    assert ((v - at1 table i) * log_chi_d g == 0)%Q as Z by lra. apply Qmult_integral in Z. destruct Z; lra. }
  destruct (K photon (t_photon T) (lg_rates quad pow10 photon nchi lo hi ndelta dlo Hn) _
              (lg_tabulates quad pow10 Hp photon nchi lo hi ndelta dlo Hn Hd Hq F1)) as (v & P & A & B & C).
  destruct (K pair (t_pair T) (lg_rates quad pow10 pair nchi lo hi ndelta dlo Hn) _
              (lg_tabulates quad pow10 Hp pair nchi lo hi ndelta dlo Hn Hd Hq F2)) as (w & P' & A' & B' & C').
  exists v, w, P, P'. auto 10.
Qed.
(** a sampled fraction is larger than the first and smaller than the last but one tabulated fraction: photons never take all
    of the energy of the electron, and no fraction of the last stretch is ever drawn *)
Theorem C124_fraction : forall quad pow10 photon pair nchi lo hi ndelta dlo lc Y u fuel,
  powers pow10 -> emission photon -> emission pair ->
  2 <= nchi -> 3 <= ndelta -> (lo < hi)%Q -> (dlo < 0)%Q ->
  let T := table_gen quad pow10 photon pair nchi lo hi ndelta dlo in
  let g := t_grid T in
  forall rows, rows = t_photon_rows T \/ rows = t_pair_rows T ->
  cdf_at g rows lc Y -> (0 <= u)%Q -> (u < 1)%Q -> ~ hits g Y u -> ndelta <= Z.of_nat fuel ->
  exists x, sample g fuel lc u rows = Value x /\
    (fraction_of pow10 g 0 < pow10 x)%Q /\ (pow10 x < fraction_of pow10 g (ndelta - 2))%Q /\
    (fraction_of pow10 g (ndelta - 2) < 1)%Q.
Proof.
  intros quad pow10 photon pair nchi lo hi ndelta dlo lc Y u fuel Hp F1 F2 Hn Hd Hlo Hdlo T g rows Hr Hc U0 U1 Hh Hfu.
  assert (2 <= ndelta) as Hd2 by lia.
  assert (exists x, sample g fuel lc u rows = Value x /\ (dlo < x)%Q /\ (x < delta_at g (ndelta - 2))%Q) as (x & E & A & B).
  { destruct Hr as [-> | ->].
    - exact (lg_sample quad pow10 Hp photon nchi lo hi ndelta dlo Hn Hd2 Hlo Hdlo lc Y u fuel F1 Hd Hc U0 U1 Hh Hfu).
    - exact (lg_sample quad pow10 Hp pair nchi lo hi ndelta dlo Hn Hd2 Hlo Hdlo lc Y u fuel F2 Hd Hc U0 U1 Hh Hfu). }
  exists x. split; [exact E|]. split; [|split].
  - unfold fraction_of. apply (proj2 (proj1 Hp)).
    assert (delta_at g 0 == dlo)%Q as -> by (unfold delta_at; change (log_delta_lo g) with dlo; change (inject_Z 0) with 0%Q; ring).
    exact A.
  - apply (proj2 (proj1 Hp)). exact B.
  - pose proof (lg_rise pow10 Hp nchi lo hi ndelta dlo Hn Hd2 Hlo Hdlo (ndelta - 2) (ndelta - 1) ltac:(lia) ltac:(lia)) as R.
    pose proof (lg_last pow10 Hp nchi lo hi ndelta dlo Hn Hd2 Hlo Hdlo) as L.
    exact (Qlt_le_trans _ _ _ R (Qeq_le _ _ L)).
Qed.
(** when the spectrum falls with the fraction, no entry of a row exceeds the total rate of its chi *)
Theorem C124_within_rate : forall quad pow10 photon pair nchi lo hi ndelta dlo i j,
  extensional quad -> powers pow10 -> emission photon -> emission pair ->
  2 <= nchi -> 2 <= ndelta -> (lo < hi)%Q -> (dlo < 0)%Q -> 0 <= i < nchi -> 0 <= j < ndelta ->
  (forall chi P, (0 < chi)%Q -> (forall d, counted (photon chi) d (P d)) -> integrates quad P /\ falling P) ->
  let T := table_gen quad pow10 photon pair nchi lo hi ndelta dlo in
  (at2 (t_photon_rows T) i j <= at1 (t_photon T) i)%Q.
Proof.
  intros quad pow10 photon pair nchi lo hi ndelta dlo i j Hq Hp F1 F2 Hn Hd Hlo Hdlo Hi Hj H T.
  exact (lg_below quad pow10 Hp photon nchi lo hi ndelta dlo Hn Hd Hlo Hdlo i j Hq F1 Hi Hj H).
Qed.
(** ** C125: a table with two fractions only is generated without complaint, but no lookup of a fraction ever returns *)
Theorem C125_two_fractions_refuted : forall quad pow10 photon pair nchi lo hi dlo lc u fuel,
  powers pow10 -> 2 <= nchi -> (lo < hi)%Q -> (dlo < 0)%Q -> (lo <= lc)%Q -> (lc < hi)%Q ->
  let T := table_gen quad pow10 photon pair nchi lo hi 2 dlo in
  sample (t_grid T) fuel lc u (t_photon_rows T) = Running /\ sample (t_grid T) fuel lc u (t_pair_rows T) = Running.
Proof. intros. split; now apply lg_stuck. Qed.
(** ** C124 for the second method *)
Theorem C124_sigmoid : forall quad pow10 sigmoid photon pair nchi lo hi ndelta A,
  extensional quad -> powers pow10 -> logistic sigmoid -> emission photon -> emission pair ->
  2 <= nchi -> 2 <= ndelta -> (lo < hi)%Q -> (0 < A)%Q ->
  let T := table_gen_s quad pow10 sigmoid photon pair nchi lo hi ndelta A in
  let g := t_grid T in
  let fraction := fraction_s sigmoid A ndelta in
  grid_ok g /\ rates_ok g (t_photon T) /\ rates_ok g (t_pair T) /\ cdfs_ok g (t_photon_rows T) /\ cdfs_ok g (t_pair_rows T) /\
  (forall j k, 0 <= j < k -> k < delta_N g -> (fraction j < fraction k)%Q) /\
  tabulates quad g (chi_of pow10 g) fraction photon (t_photon T) (t_photon_rows T) /\
  tabulates quad g (chi_of pow10 g) fraction pair (t_pair T) (t_pair_rows T).
Proof.
  intros quad pow10 sigmoid photon pair nchi lo hi ndelta A Hq Hp Hs F1 F2 Hn Hd Hlo HA T g fraction.
  split; [now apply sg_ok|]. split; [now apply sg_rates|]. split; [now apply sg_rates|].
  split; [now apply sg_cdfs|]. split; [now apply sg_cdfs|].
  split; [intros j k Hj Hk; apply fraction_s_rise; auto; [exact (proj1 Hs)|lia]|].
  split; now apply sg_tabulates.
Qed.

(** ** a concrete case: the spectrum chi (1 - d), integrated exactly by the value in the middle *)
Definition eg_pow (a : Q) : Q := if Qle_bool a 0 then (/ (1 - a))%Q else (1 + a)%Q.
Definition eg_quad (f : Q -> Q) (a b : Q) : Q := (f ((a + b) * (1#2)) * (b - a))%Q.
Definition eg_f (chi d : Q) : Q := (chi * (1 - d))%Q.
Lemma eg_powers : powers eg_pow.
Proof.
  assert (forall a, (a <= 0)%Q -> eg_pow a = (/ (1 - a))%Q) as L
    by (intros a H; unfold eg_pow; now rewrite (proj2 (Qle_bool_iff a 0) H)).
  assert (forall a, (0 < a)%Q -> eg_pow a = (1 + a)%Q) as U.
  { intros a H. unfold eg_pow. destruct (Qle_bool a 0) eqn:E; [apply Qle_bool_iff in E; lra|reflexivity]. }
  split; [split|split].
  - intros a b E. destruct (Qlt_le_dec 0 a); [rewrite !U by lra|rewrite !L by lra]; rewrite E; reflexivity.
  - intros a b H. destruct (Qlt_le_dec 0 a) as [A|A]; [rewrite !U by lra; lra|].
    rewrite (L a) by exact A. assert (0 < / (1 - a))%Q by (apply Qinv_lt_0_compat; lra).
    assert (/ (1 - a) * (1 - a) == 1)%Q as IA by (field; lra).
    destruct (Qlt_le_dec 0 b) as [B|B].
    + rewrite U by exact B. assert (0 <= / (1 - a) * (- a))%Q by (apply Qmult_le_0_compat; lra). lra.
    + rewrite (L b) by exact B. assert (0 < / (1 - b))%Q by (apply Qinv_lt_0_compat; lra).
      assert (/ (1 - b) - / (1 - a) == (b - a) * / (1 - a) * / (1 - b))%Q as E by (field; split; lra).
      assert (0 < (b - a) * / (1 - a) * / (1 - b))%Q by (apply Qmult_lt_0_compat; [apply Qmult_lt_0_compat; lra|lra]). lra.
  - reflexivity.
  - intro a. destruct (Qlt_le_dec 0 a) as [A|A]; [rewrite U by exact A; lra|].
    rewrite L by exact A. apply Qinv_lt_0_compat. lra.
Qed.
Lemma eg_ext : extensional eg_quad.
Proof. intros f g a b a' b' H A B. unfold eg_quad. rewrite (H ((a + b) * (1#2)) ((a' + b') * (1#2)))%Q; rewrite A, B; reflexivity. Qed.
Lemma eg_emission : emission eg_f.
Proof.
  split.
  - intros a b c d A B. unfold eg_f. now rewrite A, B.
  - intros chi d H D0 D1. unfold eg_f. apply Qmult_lt_0_compat; lra.
Qed.
Lemma eg_falls : forall chi P, (0 < chi)%Q -> (forall d, counted (eg_f chi) d (P d)) -> integrates eg_quad P /\ falling P.
Proof.
  intros chi P Hc H. assert (forall d, (P d == chi * (1 - d))%Q) as E.
  { intro d. destruct (H d) as [[A B]|[A B]]; rewrite B; [rewrite A; ring|reflexivity]. }
  split; [split; [|split]|].
  - intros a b c _ _ _ _. unfold eg_quad. rewrite !E. ring.
  - intros a b m _ AB _ L. unfold eg_quad. destruct (Qlt_le_dec a b) as [S|S].
    + apply Qmult_le_compat_r; [apply L; lra|lra].
    + assert (b - a == 0)%Q as -> by lra. lra.
  - intros a b m _ AB _ L. unfold eg_quad. destruct (Qlt_le_dec a b) as [S|S].
    + apply Qmult_le_compat_r; [apply L; lra|lra].
    + assert (b - a == 0)%Q as -> by lra. lra.
  - intros a b _ AB _. rewrite !E. rewrite !(Qmult_comm chi). apply Qmult_le_compat_r; lra.
Qed.
(** the logistic curve drawn with the same powers *)
Definition eg_sig (a : Q) : Q := if Qle_bool a 0 then (eg_pow a * (1#2))%Q else (1 - eg_pow (- a) * (1#2))%Q.
Lemma eg_logistic : logistic eg_sig.
Proof.
  pose proof eg_powers as ((R & I) & Z0 & P).
  assert (forall a, (a <= 0)%Q -> eg_sig a = (eg_pow a * (1#2))%Q) as L
    by (intros a H; unfold eg_sig; now rewrite (proj2 (Qle_bool_iff a 0) H)).
  assert (forall a, (0 < a)%Q -> eg_sig a = (1 - eg_pow (- a) * (1#2))%Q) as U.
  { intros a H. unfold eg_sig. destruct (Qle_bool a 0) eqn:E; [apply Qle_bool_iff in E; lra|reflexivity]. }
  assert (forall a, (a <= 0)%Q -> (eg_pow a <= 1)%Q) as B.
  { intros a H. destruct (Qlt_le_dec a 0) as [A|A].
    - pose proof (I a 0%Q A) as J. lra.
    - rewrite (R a 0%Q) by lra. lra. }
  split; [split|].
  - intros a b E. destruct (Qlt_le_dec 0 a) as [A|A].
    + rewrite !U by lra. rewrite (R (- a) (- b))%Q by lra. reflexivity.
    + rewrite !L by lra. rewrite (R a b E). reflexivity.
  - intros a b H. destruct (Qlt_le_dec 0 a) as [A|A].
    + rewrite !U by lra. pose proof (I (- b) (- a))%Q as J. specialize (J ltac:(lra)). lra.
    + rewrite (L a) by exact A. destruct (Qlt_le_dec 0 b) as [C|C].
      * rewrite U by exact C. pose proof (B a A). pose proof (I (- b)%Q 0%Q ltac:(lra)). lra.
      * rewrite (L b) by exact C. pose proof (I a b H). lra.
  - intro a. destruct (Qlt_le_dec 0 a) as [A|A].
    + rewrite U by exact A. pose proof (P (- a))%Q. pose proof (B (- a)%Q ltac:(lra)). lra.
    + rewrite L by exact A. pose proof (P a). pose proof (B a A). lra.
Qed.
Definition eg_T : tables := table_gen eg_quad eg_pow eg_f eg_f 3 (-1) 1 4 (-3).
Example eg_C124_rows : map (map Qred) (t_photon_rows eg_T) =
  [ [7#64; 79#576; 103#576; 103#576]; [7#32; 79#288; 103#288; 103#288]; [7#16; 79#144; 103#144; 103#144] ]%Q.
Proof. vm_compute. reflexivity. Qed.
Example eg_C124_rates : map Qred (t_photon eg_T) = [1#4; 1#2; 1]%Q.
Proof. vm_compute. reflexivity. Qed.
Example eg_C124_usable : cdfs_ok (t_grid eg_T) (t_photon_rows eg_T).
Proof. apply C124_usable; try exact eg_powers; try exact eg_emission; try lia; reflexivity. Qed.
Example eg_C124_within : (at2 (t_photon_rows eg_T) 2 3 <= at1 (t_photon eg_T) 2)%Q.
Proof.
  apply (C124_within_rate eg_quad eg_pow eg_f eg_f 3 (-1) 1 4 (-3) 2 3 eg_ext eg_powers eg_emission eg_emission);
    try exact eg_falls; try lia; reflexivity.
Qed.
Definition eg_S : tables := table_gen_s eg_quad eg_pow eg_sig eg_f eg_f 2 (-1) 1 3 1.
Example eg_C124_sigmoid : map (map Qred) (t_pair_rows eg_S) = [ [7#64; 11#64; 13#64]; [7#16; 11#16; 13#16] ]%Q /\ cdfs_ok (t_grid eg_S) (t_pair_rows eg_S).
Proof.
  split; [vm_compute; reflexivity|].
  apply (C124_sigmoid eg_quad eg_pow eg_sig eg_f eg_f 2 (-1) 1 3 1 eg_ext eg_powers eg_logistic eg_emission eg_emission);
    try lia; reflexivity.
Qed.
Example eg_C125 : sample (t_grid (table_gen eg_quad eg_pow eg_f eg_f 3 (-1) 1 2 (-3))) 9 0 (1#3)
  (t_photon_rows (table_gen eg_quad eg_pow eg_f eg_f 3 (-1) 1 2 (-3))) = Running.
Proof. vm_compute. reflexivity. Qed.
(** the first chi, the random number 3/4: a fraction between the second and the third of four *)
Example eg_C124_sample : exists x, sample (t_grid eg_T) 4 (-1) (3#4) (t_photon_rows eg_T) = Value x /\
  (x == -17#12)%Q.
Proof. eexists. split; [vm_compute; reflexivity|vm_compute; reflexivity]. Qed.

Print Assumptions C124_contents.
Print Assumptions C124_usable.
Print Assumptions C124_rate.
Print Assumptions C124_fraction.
Print Assumptions C124_within_rate.
Print Assumptions C125_two_fractions_refuted.
Print Assumptions C124_sigmoid.
