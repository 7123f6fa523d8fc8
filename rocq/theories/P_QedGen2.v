From Verif Require Import Base M_QedTable S_QedTable M_QedGen S_QedGen P_QedTable P_QedTable2 P_QedGen.
From Coq Require Import QArith Lqa.
Local Open Scope Z_scope.

Lemma spectrum_counted f d : counted f d (spectrum f d).
Proof.
  unfold counted, spectrum. destruct (Qeq_bool d 1) eqn:E.
  - left. apply Qeq_bool_iff in E. split; [exact E|reflexivity].
  - right. apply Qeq_bool_neq in E. split; [exact E|reflexivity].
Qed.

Section Table.
Variable quad : (Q -> Q) -> Q -> Q -> Q.
Hypothesis Hquad : extensional quad.
Variable pow10 : Q -> Q.
Hypothesis Hpow : powers pow10.
Variable f : Q -> Q -> Q.
Hypothesis Hf : emission f.
Variables (nchi : Z) (lo hi : Q) (ndelta : Z) (deltas : list Q).
Hypothesis Hn : 2 <= nchi.
Hypothesis Hnd : 2 <= ndelta.
Hypothesis Hd : Z.of_nat (length deltas) = ndelta.
Variable fraction : Z -> Q.
Hypothesis Hfr : forall j, 0 <= j < ndelta -> (at1 deltas j == fraction j)%Q.
Variable g : table_grid.
Hypothesis G1 : chi_N g = nchi.
Hypothesis G2 : delta_N g = ndelta.
Hypothesis G3 : forall i, (chi_at g i == lo + inject_Z i * ((hi - lo) / inject_Z (nchi - 1)))%Q.

Let rates := map (fun chi => total_rate quad (spectrum (f chi))) (logspace pow10 lo hi nchi).
Let rows := map (fun chi => row quad (spectrum (f chi)) deltas) (logspace pow10 lo hi nchi).

Lemma chi_same i : (pow10 (linspace_at lo hi nchi i) == chi_of pow10 g i)%Q.
Proof. unfold chi_of. apply (proj1 (proj1 Hpow)). rewrite G3. now apply lin_at. Qed.
Lemma rates_len : rates_ok g rates.
Proof. unfold rates_ok, rates, logspace. rewrite !map_length, G1. apply lin_len. clear - Hn. lia. Qed.
Lemma rates_at i : 0 <= i < nchi -> at1 rates i = quad (spectrum (f (pow10 (linspace_at lo hi nchi i)))) 0%Q 1%Q.
Proof. intro H. unfold at1, rates, logspace. rewrite map_map. now rewrite lin_nth. Qed.
Lemma same_spectrum i x y : (x == y)%Q ->
  (spectrum (f (pow10 (linspace_at lo hi nchi i))) x == spectrum (f (chi_of pow10 g i)) y)%Q.
Proof.
  intro E. unfold spectrum. destruct (Qeq_bool x 1) eqn:A, (Qeq_bool y 1) eqn:B.
  - reflexivity.
  - apply Qeq_bool_iff in A. apply Qeq_bool_neq in B. lra.
  - apply Qeq_bool_iff in B. apply Qeq_bool_neq in A. lra.
  - apply (proj1 Hf); [apply chi_same|exact E].
Qed.
Lemma table_tabulates : tabulates quad g (chi_of pow10 g) fraction f rates rows.
Proof.
  intros i Hi. rewrite G1 in Hi. exists (spectrum (f (chi_of pow10 g i))).
  split; [intro d; apply spectrum_counted|]. split; [|split].
  - rewrite rates_at by exact Hi. apply Hquad; [apply same_spectrum|reflexivity|reflexivity].
  - unfold rows. rewrite (rows_start quad pow10 f nchi lo hi ndelta deltas Hd i Hi) by lia.
    apply Hquad; [apply same_spectrum|reflexivity|apply Hfr; lia].
  - intros j Hj. rewrite G2 in Hj. unfold rows.
    rewrite (rows_next quad pow10 f nchi lo hi ndelta deltas Hd i j Hi Hj).
    rewrite (same_spectrum i _ _ (Hfr (j + 1) ltac:(lia))), (Hfr (j + 1) ltac:(lia)), (Hfr j ltac:(lia)). reflexivity.
Qed.

Hypothesis Hrise : forall j k, 0 <= j < k -> k < ndelta -> (fraction j < fraction k)%Q.
Hypothesis Hpos : forall j, 0 <= j < ndelta -> (0 < fraction j)%Q /\ (fraction j <= 1)%Q.
Lemma deltas_rise j k : 0 <= j < k -> k < ndelta -> (at1 deltas j < at1 deltas k)%Q.
Proof. intros A B. rewrite !Hfr by lia. now apply Hrise. Qed.
Lemma deltas_pos j : 0 <= j < ndelta -> (0 < at1 deltas j)%Q /\ (at1 deltas j <= 1)%Q.
Proof. intro A. rewrite !Hfr by lia. now apply Hpos. Qed.
Lemma table_cdfs : (fraction 1%Z < 1)%Q -> cdfs_ok g rows.
Proof.
  intro L. apply (rows_cdfs quad pow10 Hpow f Hf nchi lo hi ndelta deltas Hn Hd deltas_rise deltas_pos g G1 G2 Hnd).
  rewrite Hfr by lia. exact L.
Qed.
Lemma table_end i : 0 <= i < nchi -> (fraction (ndelta - 1)%Z == 1)%Q -> (at2 rows i (ndelta - 1) == at2 rows i (ndelta - 2))%Q.
Proof.
  intros Hi E. apply (rows_end quad pow10 f nchi lo hi ndelta deltas Hd deltas_rise deltas_pos i Hi Hnd). rewrite Hfr by lia. exact E.
Qed.

Lemma positive_total i : integrates quad (spectrum (f (pow10 (linspace_at lo hi nchi i)))) ->
  (0 <= quad (spectrum (f (pow10 (linspace_at lo hi nchi i)))) 0 1)%Q.
Proof.
  intros (_ & L & _). pose proof (L 0%Q 1%Q 0%Q ltac:(lra) ltac:(lra) ltac:(lra)) as A.
  assert (0 * (1 - 0) <= quad (spectrum (f (pow10 (linspace_at lo hi nchi i)))) 0 1)%Q as B.
  { apply A. intros x X0 X1. rewrite spectrum_in by exact X1. apply Qlt_le_weak. apply (proj2 Hf); auto. apply (proj2 (proj2 Hpow)). }
  lra.
Qed.
Lemma table_below i j : 0 <= i < nchi -> 0 <= j < ndelta ->
  integrates quad (spectrum (f (pow10 (linspace_at lo hi nchi i)))) -> falling (spectrum (f (pow10 (linspace_at lo hi nchi i)))) ->
  (at2 rows i j <= quad (spectrum (f (pow10 (linspace_at lo hi nchi i)))) 0 (fraction j))%Q /\
  (at2 rows i j <= at1 rates i)%Q.
Proof.
  intros Hi Hj I F.
  pose proof (rows_below quad pow10 f nchi lo hi ndelta deltas Hd deltas_rise deltas_pos i Hi I F (Z.to_nat j) ltac:(lia)) as A.
  rewrite Z2Nat.id in A by lia. fold rows in A.
  pose proof I as (S0 & L & _).
  destruct (deltas_pos j Hj) as [P0 P1].
  assert (quad (spectrum (f (pow10 (linspace_at lo hi nchi i)))) 0 (at1 deltas j) ==
          quad (spectrum (f (pow10 (linspace_at lo hi nchi i)))) 0 (fraction j))%Q as E.
  { apply Hquad; [|reflexivity|apply Hfr; lia]. intros x y X. apply spectrum_regular; [|exact X].
    intros a b Q. apply (proj1 Hf); [reflexivity|exact Q]. }
  split; [lra|]. rewrite rates_at by exact Hi. rewrite (S0 0%Q (at1 deltas j) 1%Q) by lra.
  assert (0 * (1 - at1 deltas j) <= quad (spectrum (f (pow10 (linspace_at lo hi nchi i)))) (at1 deltas j) 1)%Q.
  { apply L; [lra|lra|lra|]. intros x X0 X1. rewrite spectrum_in by exact X1. apply Qlt_le_weak.
    apply (proj2 Hf); [apply (proj2 (proj2 Hpow))|lra|exact X1]. }
  lra.
Qed.
End Table.

(** ** the two grids *)
Lemma log_grid_ok nchi lo hi ndelta dlo : 2 <= nchi -> 2 <= ndelta -> (lo < hi)%Q -> (dlo < 0)%Q ->
  grid_ok (mkGrid nchi lo hi ((hi - lo) / inject_Z (nchi - 1)) ndelta dlo ((0 - dlo) / inject_Z (ndelta - 1))).
Proof.
  intros A B C D. unfold grid_ok, chi_at, delta_at. cbn [chi_N delta_N log_chi_d log_delta_d log_chi_lo log_chi_hi log_delta_lo].
  split; [exact A|]. split; [exact B|]. split; [now apply step_pos|]. split; [now apply step_pos|].
  split; now apply step_total.
Qed.
Lemma log_fractions pow10 dlo n j : powers pow10 -> 2 <= n -> 0 <= j < n ->
  (at1 (logspace pow10 dlo 0 n) j == pow10 (dlo + inject_Z j * ((0 - dlo) / inject_Z (n - 1))))%Q.
Proof.
  intros Hp Hn Hj. unfold at1, logspace. rewrite lin_nth by exact Hj. apply (proj1 (proj1 Hp)). now apply lin_at.
Qed.
Lemma log_length pow10 lo hi n : 0 <= n -> Z.of_nat (length (logspace pow10 lo hi n)) = n.
Proof. intro H. unfold logspace. rewrite map_length. now apply lin_len. Qed.
Lemma sig_length sigmoid A n : 0 <= n -> Z.of_nat (length (fractions_s sigmoid A n)) = n.
Proof. intro H. unfold fractions_s. rewrite map_length. now apply lin_len. Qed.
Lemma sig_fractions sigmoid A n j : rising sigmoid -> 2 <= n -> 0 <= j < n ->
  (at1 (fractions_s sigmoid A n) j == fraction_s sigmoid A n j)%Q.
Proof.
  intros Hs Hn Hj. unfold at1, fractions_s. rewrite lin_nth by exact Hj. unfold fraction_s. apply (proj1 Hs).
  rewrite (lin_at _ _ _ _ Hn). assert ((1 - -1)%Q == 2)%Q as -> by reflexivity.
  pose proof (inject_pos (n - 1) ltac:(lia)). field. lra.
Qed.
Lemma fraction_s_rise sigmoid A n j k : rising sigmoid -> (0 < A)%Q -> 2 <= n -> j < k ->
  (fraction_s sigmoid A n j < fraction_s sigmoid A n k)%Q.
Proof.
  intros Hs HA Hn H. unfold fraction_s. apply (proj2 Hs). rewrite !(Qmult_comm A). apply Qmult_lt_compat_r; [exact HA|].
  pose proof (inject_pos (n - 1) ltac:(lia)) as P.
  assert (0 < 2 / inject_Z (n - 1))%Q as R by (apply Qlt_shift_div_l; lra).
  assert (inject_Z j < inject_Z k)%Q as J by (now rewrite <- Zlt_Qlt).
  assert (2 / inject_Z (n - 1) * inject_Z j < 2 / inject_Z (n - 1) * inject_Z k)%Q
    by (rewrite !(Qmult_comm (2 / inject_Z (n - 1))); apply Qmult_lt_compat_r; assumption).
  lra.
Qed.

(** ** two fractions only: the search never ends *)
Lemma bisect_stuck y r fuel : (exists v, y 0 = Some v /\ (v == r)%Q) -> bisect fuel y r 0 1 = Running.
Proof.
  intros (v & Y & E). induction fuel as [|fuel IH]; [reflexivity|].
  cbn [bisect]. change (0 <=? 1) with true. cbv iota. change ((0 + 1) / 2) with 0. rewrite Y.
  assert (Qle_bool r v = true) as -> by (apply Qle_bool_iff; lra).
  assert (Qle_bool v r = true) as -> by (apply Qle_bool_iff; lra).
  exact IH.
Qed.
