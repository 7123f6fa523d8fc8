From Verif Require Import Base M_QedTable S_QedTable M_QedGen S_QedGen P_QedTable P_QedTable2 P_QedGen P_QedGen2.
From Coq Require Import QArith Lqa.
Local Open Scope Z_scope.

(** ** the logarithmic grid *)
Section Log.
Variable quad : (Q -> Q) -> Q -> Q -> Q.
Variable pow10 : Q -> Q.
Hypothesis Hpow : powers pow10.
Variable f : Q -> Q -> Q.
Variables (nchi : Z) (lo hi : Q) (ndelta : Z) (dlo : Q).
Hypothesis Hn : 2 <= nchi.
Hypothesis Hnd : 2 <= ndelta.
Hypothesis Hlo : (lo < hi)%Q.
Hypothesis Hdlo : (dlo < 0)%Q.
Let g := mkGrid nchi lo hi ((hi - lo) / inject_Z (nchi - 1)) ndelta dlo ((0 - dlo) / inject_Z (ndelta - 1)).
Let rates := map (fun chi => total_rate quad (spectrum (f chi))) (logspace pow10 lo hi nchi).
Let rows := map (fun chi => row quad (spectrum (f chi)) (logspace pow10 dlo 0 ndelta)) (logspace pow10 lo hi nchi).

Lemma lg_ok : grid_ok g.
Proof. apply log_grid_ok; assumption. Qed.
Lemma lg_len : Z.of_nat (length (logspace pow10 dlo 0 ndelta)) = ndelta.
Proof. apply log_length. lia. Qed.
Lemma lg_fr j : 0 <= j < ndelta -> (at1 (logspace pow10 dlo 0 ndelta) j == fraction_of pow10 g j)%Q.
Proof. intro H. now apply log_fractions. Qed.
Lemma lg_chi i : (chi_at g i == lo + inject_Z i * ((hi - lo) / inject_Z (nchi - 1)))%Q.
Proof. reflexivity. Qed.
Lemma lg_rise j k : 0 <= j < k -> k < ndelta -> (fraction_of pow10 g j < fraction_of pow10 g k)%Q.
Proof. intros A B. apply (proj2 (proj1 Hpow)). apply delta_at_lt; [apply lg_ok|lia]. Qed.
Lemma lg_last : (fraction_of pow10 g (ndelta - 1) == 1)%Q.
Proof.
  unfold fraction_of. rewrite <- (proj1 (proj2 Hpow)). apply (proj1 (proj1 Hpow)).
  pose proof lg_ok as (_ & _ & _ & _ & _ & T). exact T.
Qed.
Lemma lg_pos j : 0 <= j < ndelta -> (0 < fraction_of pow10 g j)%Q /\ (fraction_of pow10 g j <= 1)%Q.
Proof.
  intro H. split; [apply (proj2 (proj2 Hpow))|].
  destruct (Z.eq_dec j (ndelta - 1)) as [->|N]; [rewrite lg_last; lra|].
  pose proof (lg_rise j (ndelta - 1) ltac:(lia) ltac:(lia)). rewrite lg_last in *. lra.
Qed.
Lemma lg_one : 3 <= ndelta -> (fraction_of pow10 g 1 < 1)%Q.
Proof. intro H. pose proof (lg_rise 1 (ndelta - 1) ltac:(lia) ltac:(lia)). rewrite lg_last in *. lra. Qed.
Lemma lg_rates : rates_ok g rates.
Proof. apply (rates_len quad pow10 f nchi lo hi Hn g eq_refl). Qed.
Lemma lg_tabulates : extensional quad -> emission f -> tabulates quad g (chi_of pow10 g) (fraction_of pow10 g) f rates rows.
Proof.
  intros Hq Hf. exact (table_tabulates quad Hq pow10 Hpow f Hf nchi lo hi ndelta _ Hn Hnd lg_len (fraction_of pow10 g) lg_fr
    g eq_refl eq_refl lg_chi).
Qed.
Lemma lg_cdfs : emission f -> 3 <= ndelta -> cdfs_ok g rows.
Proof.
  intros Hf H3. exact (table_cdfs quad pow10 Hpow f Hf nchi lo hi ndelta _ Hn Hnd lg_len (fraction_of pow10 g) lg_fr
    g eq_refl eq_refl lg_chi lg_rise lg_pos (lg_one H3)).
Qed.
Lemma lg_end i : 0 <= i < nchi -> (at2 rows i (ndelta - 1) == at2 rows i (ndelta - 2))%Q.
Proof.
  intro Hi. exact (table_end quad pow10 f nchi lo hi ndelta _ Hnd lg_len (fraction_of pow10 g) lg_fr
    g lg_chi lg_rise lg_pos i Hi lg_last).
Qed.
(** the interpolated distribution ends flat *)
Lemma lg_flat lc Y : cdf_at g rows lc Y -> (Y (ndelta - 1)%Z == Y (ndelta - 2)%Z)%Q.
Proof.
  intros (i & Hb & L). pose proof Hb as (Hi & A & B).
  change (chi_N g) with nchi in Hi.
  pose proof (L (ndelta - 1) ltac:(change (delta_N g) with ndelta; lia)) as L1.
  pose proof (L (ndelta - 2) ltac:(change (delta_N g) with ndelta; lia)) as L2.
  pose proof (lg_end i ltac:(lia)) as E1. pose proof (lg_end (i + 1) ltac:(lia)) as E2.
  assert (on_line (chi_at g i) (at2 rows i (ndelta - 2)) (chi_at g (i + 1)) (at2 rows (i + 1) (ndelta - 2)) lc (Y (ndelta - 1)%Z)) as L3.
  { apply (on_line_ext _ _ _ _ _ _ _ _ _ E1 E2 (Qeq_refl _)). exact L1. }
  apply (line_unique (chi_at g i) (at2 rows i (ndelta - 2)) (chi_at g (i + 1)) (at2 rows (i + 1) (ndelta - 2)) lc); [|exact L3|exact L2].
  lra.
Qed.
Lemma lg_sample lc Y u fuel : emission f -> 3 <= ndelta -> cdf_at g rows lc Y -> (0 <= u)%Q -> (u < 1)%Q ->
  ~ hits g Y u -> ndelta <= Z.of_nat fuel ->
  exists x, sample g fuel lc u rows = Value x /\ (dlo < x)%Q /\ (x < delta_at g (ndelta - 2))%Q.
Proof.
  intros Hf H3 Hc U0 U1 Hh Hfu. pose proof (lg_cdfs Hf H3) as Ht.
  destruct (sample_ok g lg_ok rows Ht lc u Y fuel Hc U0 U1 Hh Hfu) as (x & E & P).
  destruct (cdf_mono g lg_ok rows Ht lc Y Hc) as [Hm Hs].
  change (delta_N g) with ndelta in *.
  assert (forall j k, 0 <= j < k -> k < ndelta -> (delta_at g j < delta_at g k)%Q) as HG
    by (intros; apply delta_at_lt; [exact lg_ok|lia]).
  pose proof (placed_quantile ndelta Y (delta_at g) Hm HG (target g Y u) x) as Qn.
  exists x. split; [exact E|]. split.
  - pose proof (Qn 0 P ltac:(lia)) as [Q1 _].
    destruct P as (h & Hh2 & A & B & L).
    destruct (placed_cell ndelta Y (delta_at g) Hm HG _ x h Hh2 A B L) as [C D].
    pose proof (delta_at_le g lg_ok 0 h ltac:(lia)) as Z.
    assert (delta_at g 0 == dlo)%Q as Z0 by (unfold delta_at; change (log_delta_lo g) with dlo; change (inject_Z 0) with 0%Q; ring).
    lra.
  - apply (Qn (ndelta - 2) P ltac:(lia)).
    pose proof (target_range g Y u Hs U0 U1) as [T0 T1]. change (delta_N g) with ndelta in T1.
    pose proof (lg_flat lc Y Hc). lra.
Qed.
Lemma lg_below i j : extensional quad -> emission f -> 0 <= i < nchi -> 0 <= j < ndelta ->
  (forall chi P, (0 < chi)%Q -> (forall d, counted (f chi) d (P d)) -> integrates quad P /\ falling P) ->
  (at2 rows i j <= at1 rates i)%Q.
Proof.
  intros Hq Hf Hi Hj H.
  destruct (H (pow10 (linspace_at lo hi nchi i)) (spectrum (f (pow10 (linspace_at lo hi nchi i)))) (proj2 (proj2 Hpow) _)
    (spectrum_counted _)) as [I F].
  exact (proj2 (table_below quad Hq pow10 Hpow f Hf nchi lo hi ndelta _ Hnd lg_len (fraction_of pow10 g) lg_fr
    g lg_chi lg_rise lg_pos i j Hi Hj I F)).
Qed.
End Log.

(** two fractions: nothing is ever sampled *)
Lemma lg_stuck quad pow10 f nchi lo hi dlo lc u fuel :
  powers pow10 -> 2 <= nchi -> (lo < hi)%Q -> (dlo < 0)%Q -> (lo <= lc)%Q -> (lc < hi)%Q ->
  let g := mkGrid nchi lo hi ((hi - lo) / inject_Z (nchi - 1)) 2 dlo ((0 - dlo) / inject_Z (2 - 1)) in
  sample g fuel lc u
    (map (fun chi => row quad (spectrum (f chi)) (logspace pow10 dlo 0 2)) (logspace pow10 lo hi nchi)) = Running.
Proof.
  intros Hp Hn Hlo Hd L0 L1 g. set (rows := map _ _).
  pose proof (lg_ok nchi lo hi 2 dlo Hn ltac:(lia) Hlo Hd) as Hg. fold g in Hg.
  destruct (bracket_exists g Hg lc L0 L1) as (i & Hb). pose proof Hb as (Hi & _ & _). change (chi_N g) with nchi in Hi.
  assert (Z.of_nat (length rows) = nchi) as HL by exact (rows_len quad pow10 f nchi lo hi (logspace pow10 dlo 0 2) Hn).
  assert (forall k, 0 <= k < nchi -> exists a b, read2 rows k 0 = Some a /\ read2 rows k (-1) = Some b /\ (a == b)%Q) as HR.
  { intros k Hk. pose proof (lg_end quad pow10 Hp f nchi lo hi 2 dlo Hn ltac:(lia) Hlo Hd k Hk) as E. fold rows in E.
    change (2 - 1) with 1 in E. change (2 - 2) with 0 in E.
    assert (length (nth (Z.to_nat k) rows []) = 2%nat) as W.
    { pose proof (rows_widths quad pow10 f nchi lo hi 2 (logspace pow10 dlo 0 2) (lg_len pow10 2 dlo ltac:(lia))) as FW.
      fold rows in FW. rewrite Forall_forall in FW. specialize (FW (nth (Z.to_nat k) rows [])).
      assert (In (nth (Z.to_nat k) rows []) rows) as I by (apply nth_In; lia). specialize (FW I). lia. }
    exists (at2 rows k 0), (at2 rows k 1). unfold read2. rewrite (read_in rows [] k) by lia.
    rewrite (read_in _ 0%Q 0) by (rewrite W; lia). rewrite (read_last _ 0%Q) by (rewrite W; lia). rewrite W.
    split; [reflexivity|]. split; [reflexivity|]. lra. }
  unfold sample. rewrite (chi_idx_of g Hg i lc Hb).
  destruct (HR i ltac:(lia)) as (a & b & R1 & R2 & Eab). destruct (HR (i + 1) ltac:(lia)) as (c & d & R3 & R4 & Ecd).
  set (t := ((lc - log_chi_left g i) / log_chi_d g)%Q). clearbody t.
  assert (column rows i t 0 = Some (a * (1 - t) + c * t)%Q) as C0 by (unfold column; now rewrite R1, R3).
  assert (column rows i t (-1) = Some (b * (1 - t) + d * t)%Q) as C1 by (unfold column; now rewrite R2, R4).
  rewrite C0, C1. change (delta_N g - 1) with 1.
  rewrite bisect_stuck; [reflexivity|]. exists (a * (1 - t) + c * t)%Q. split; [exact C0|].
  rewrite <- Eab, <- Ecd. ring.
Qed.

(** ** the logistic grid *)
Section Sig.
Variable quad : (Q -> Q) -> Q -> Q -> Q.
Variable pow10 : Q -> Q.
Hypothesis Hpow : powers pow10.
Variable sigmoid : Q -> Q.
Hypothesis Hsig : logistic sigmoid.
Variable f : Q -> Q -> Q.
Hypothesis Hf : emission f.
Variables (nchi : Z) (lo hi : Q) (ndelta : Z) (A : Q).
Hypothesis Hn : 2 <= nchi.
Hypothesis Hnd : 2 <= ndelta.
Hypothesis Hlo : (lo < hi)%Q.
Hypothesis HA : (0 < A)%Q.
Let g := mkGrid nchi lo hi ((hi - lo) / inject_Z (nchi - 1)) ndelta (-1) (1 / inject_Z (ndelta - 1)).
Let rates := map (fun chi => total_rate quad (spectrum (f chi))) (logspace pow10 lo hi nchi).
Let rows := map (fun chi => row quad (spectrum (f chi)) (fractions_s sigmoid A ndelta)) (logspace pow10 lo hi nchi).

Lemma sg_ok : grid_ok g.
Proof.
  unfold grid_ok, chi_at, delta_at, g. cbn [chi_N delta_N log_chi_d log_delta_d log_chi_lo log_chi_hi log_delta_lo].
  pose proof (inject_pos (ndelta - 1) ltac:(lia)) as P.
  split; [exact Hn|]. split; [exact Hnd|]. split; [now apply step_pos|]. split; [apply Qlt_shift_div_l; lra|].
  split; [now apply step_total|]. field. lra.
Qed.
Lemma sg_len : Z.of_nat (length (fractions_s sigmoid A ndelta)) = ndelta.
Proof. apply sig_length. lia. Qed.
Lemma sg_fr j : 0 <= j < ndelta -> (at1 (fractions_s sigmoid A ndelta) j == fraction_s sigmoid A ndelta j)%Q.
Proof. intro H. apply sig_fractions; auto. exact (proj1 Hsig). Qed.
Lemma sg_chi i : (chi_at g i == lo + inject_Z i * ((hi - lo) / inject_Z (nchi - 1)))%Q.
Proof. reflexivity. Qed.
Lemma sg_rise j k : 0 <= j < k -> k < ndelta -> (fraction_s sigmoid A ndelta j < fraction_s sigmoid A ndelta k)%Q.
Proof. intros B C. apply fraction_s_rise; auto; [exact (proj1 Hsig)|lia]. Qed.
Lemma sg_in j : (0 < fraction_s sigmoid A ndelta j)%Q /\ (fraction_s sigmoid A ndelta j < 1)%Q.
Proof. apply (proj2 Hsig). Qed.
Lemma sg_pos j : 0 <= j < ndelta -> (0 < fraction_s sigmoid A ndelta j)%Q /\ (fraction_s sigmoid A ndelta j <= 1)%Q.
Proof. intro H. pose proof (sg_in j). lra. Qed.
Lemma sg_rates : rates_ok g rates.
Proof. apply (rates_len quad pow10 f nchi lo hi Hn g eq_refl). Qed.
Lemma sg_tabulates : extensional quad ->
  tabulates quad g (chi_of pow10 g) (fraction_s sigmoid A ndelta) f rates rows.
Proof.
  intro Hq. exact (table_tabulates quad Hq pow10 Hpow f Hf nchi lo hi ndelta _ Hn Hnd sg_len (fraction_s sigmoid A ndelta) sg_fr
    g eq_refl eq_refl sg_chi).
Qed.
Lemma sg_cdfs : cdfs_ok g rows.
Proof.
  exact (table_cdfs quad pow10 Hpow f Hf nchi lo hi ndelta _ Hn Hnd sg_len (fraction_s sigmoid A ndelta) sg_fr
    g eq_refl eq_refl sg_chi sg_rise sg_pos (proj2 (sg_in 1))).
Qed.
End Sig.
