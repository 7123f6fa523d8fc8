From Verif Require Import Base M_QedTable S_QedTable M_QedGen S_QedGen P_QedTable P_QedTable2.
From Coq Require Import QArith Lqa.
Local Open Scope Z_scope.

Lemma inject_pos z : 0 < z -> (0 < inject_Z z)%Q.
Proof. intro H. change 0%Q with (inject_Z 0). now rewrite <- Zlt_Qlt. Qed.
Lemma step_pos lo hi n : 2 <= n -> (lo < hi)%Q -> (0 < (hi - lo) / inject_Z (n - 1))%Q.
Proof. intros Hn H. apply Qlt_shift_div_l; [apply inject_pos; lia|lra]. Qed.
Lemma step_total lo hi n : 2 <= n -> (lo + inject_Z (n - 1) * ((hi - lo) / inject_Z (n - 1)) == hi)%Q.
Proof. intro Hn. pose proof (inject_pos (n - 1) ltac:(lia)). field. lra. Qed.

(** ** np.linspace *)
Lemma lin_len lo hi n : 0 <= n -> Z.of_nat (length (linspace lo hi n)) = n.
Proof. intro H. unfold linspace. rewrite map_length, seq_length. lia. Qed.
Lemma lin_at lo hi n j : 2 <= n -> (linspace_at lo hi n j == lo + inject_Z j * ((hi - lo) / inject_Z (n - 1)))%Q.
Proof.
  intro Hn. unfold linspace_at. destruct (Z.eqb_spec j (n - 1)) as [->|]; [|reflexivity].
  symmetry. now apply step_total.
Qed.
Lemma nth_map_seq {A} (f : nat -> A) n j d : (j < n)%nat -> nth j (map f (seq 0 n)) d = f j.
Proof.
  intro H. rewrite nth_indep with (d' := f O) by (rewrite map_length, seq_length; lia).
  rewrite (map_nth f (seq 0 n) O). now rewrite seq_nth.
Qed.
Lemma lin_nth {A} (f : Q -> A) lo hi n j d : 0 <= j < n ->
  nth (Z.to_nat j) (map f (linspace lo hi n)) d = f (linspace_at lo hi n j).
Proof.
  intro H. unfold linspace. rewrite map_map. rewrite nth_map_seq by lia. now rewrite Z2Nat.id by lia.
Qed.

(** ** one row *)
Lemma acc_length P ds : forall b s, length (accumulate P b s ds) = length ds.
Proof. induction ds as [|d ds IH]; intros b s; [reflexivity|]. cbn [accumulate length]. now rewrite IH. Qed.
Lemma acc_nth P ds : forall b s j, (S j < S (length ds))%nat ->
  nth (S j) (s :: accumulate P b s ds) 0%Q =
  (nth j (s :: accumulate P b s ds) 0 + P (nth (S j) (b :: ds) 0) * (nth (S j) (b :: ds) 0 - nth j (b :: ds) 0))%Q.
Proof.
  induction ds as [|d ds IH]; intros b s j H; [cbn [length] in H; lia|].
  destruct j as [|j]; [reflexivity|].
  cbn [accumulate]. cbn [length] in H.
  exact (IH d (s + P d * (d - b))%Q j ltac:(lia)).
Qed.
Lemma row_length quad P ds : length (row quad P ds) = length ds.
Proof. destruct ds as [|d ds]; [reflexivity|]. cbn [row length]. now rewrite acc_length. Qed.
Lemma row_first quad P d ds : nth 0 (row quad P (d :: ds)) 0%Q = quad P 0%Q d.
Proof. reflexivity. Qed.
Lemma row_next quad P ds j : (S j < length ds)%nat ->
  nth (S j) (row quad P ds) 0%Q =
  (nth j (row quad P ds) 0 + P (nth (S j) ds 0) * (nth (S j) ds 0 - nth j ds 0))%Q.
Proof.
  destruct ds as [|d ds]; intro H; [cbn [length] in H; lia|]. cbn [row]. cbn [length] in H. apply acc_nth. lia.
Qed.
Lemma row_start quad P ds : (0 < length ds)%nat -> nth 0 (row quad P ds) 0%Q = quad P 0%Q (nth 0 ds 0%Q).
Proof. destruct ds as [|d ds]; intro H; [cbn [length] in H; lia|]. reflexivity. Qed.

Lemma spectrum_regular f : regular f -> regular (spectrum f).
Proof.
  intros H a b E. unfold spectrum. destruct (Qeq_bool a 1) eqn:A, (Qeq_bool b 1) eqn:B.
  - reflexivity.
  - apply Qeq_bool_iff in A. apply Qeq_bool_neq in B. lra.
  - apply Qeq_bool_iff in B. apply Qeq_bool_neq in A. lra.
  - now apply H.
Qed.
Lemma spectrum_end f d : (d == 1)%Q -> spectrum f d = 0%Q.
Proof. intro H. unfold spectrum. now rewrite (proj2 (Qeq_bool_iff d 1) H). Qed.
Lemma spectrum_in f d : (d < 1)%Q -> spectrum f d = f d.
Proof.
  intro H. unfold spectrum. destruct (Qeq_bool d 1) eqn:E; [|reflexivity].
  apply Qeq_bool_iff in E. lra.
Qed.

(** ** a table of rows over any grid of fractions *)
Section Rows.
Variable quad : (Q -> Q) -> Q -> Q -> Q.
Variable pow10 : Q -> Q.
Hypothesis Hpow : powers pow10.
Variable f : Q -> Q -> Q.
Hypothesis Hf : emission f.
Variables (nchi : Z) (lo hi : Q) (ndelta : Z) (deltas : list Q).
Hypothesis Hn : 2 <= nchi.
Hypothesis Hd : Z.of_nat (length deltas) = ndelta.
Let rows := map (fun chi => row quad (spectrum (f chi)) deltas) (logspace pow10 lo hi nchi).
Let chi (i : Z) : Q := pow10 (linspace_at lo hi nchi i).

Lemma rows_len : Z.of_nat (length rows) = nchi.
Proof. unfold rows, logspace. rewrite !map_length. apply lin_len. clear - Hn. lia. Qed.
Lemma rows_row i : 0 <= i < nchi -> nth (Z.to_nat i) rows nil = row quad (spectrum (f (chi i))) deltas.
Proof. intro H. unfold rows, logspace. rewrite map_map. now rewrite lin_nth. Qed.
Lemma rows_widths : Forall (fun r => Z.of_nat (length r) = ndelta) rows.
Proof.
  apply Forall_forall. intros r Hr. unfold rows in Hr. apply in_map_iff in Hr. destruct Hr as (c & <- & _).
  rewrite row_length. exact Hd.
Qed.
Lemma rows_next i j : 0 <= i < nchi -> 0 <= j < ndelta - 1 ->
  at2 rows i (j + 1) = (at2 rows i j + spectrum (f (chi i)) (at1 deltas (j + 1)) * (at1 deltas (j + 1) - at1 deltas j))%Q.
Proof.
  intros Hi Hj. unfold at2, at1. rewrite !rows_row by assumption.
  replace (Z.to_nat (j + 1)) with (S (Z.to_nat j)) by lia. apply row_next. lia.
Qed.
Lemma rows_start i : 0 <= i < nchi -> 1 <= ndelta -> at2 rows i 0 = quad (spectrum (f (chi i))) 0%Q (at1 deltas 0).
Proof. intros Hi H1. unfold at2, at1. rewrite !rows_row by assumption. apply row_start. lia. Qed.

(** the fractions increase, lie in (0, 1], and only the last may be 1 *)
Hypothesis Hrise : forall j k, 0 <= j < k -> k < ndelta -> (at1 deltas j < at1 deltas k)%Q.
Hypothesis Hpos : forall j, 0 <= j < ndelta -> (0 < at1 deltas j)%Q /\ (at1 deltas j <= 1)%Q.

Lemma spectrum_nonneg i j : 0 <= j < ndelta -> (0 <= spectrum (f (chi i)) (at1 deltas j))%Q.
Proof.
  intro Hj. destruct (Hpos j Hj) as [A B]. destruct (Qlt_le_dec (at1 deltas j) 1) as [L|L].
  - rewrite spectrum_in by exact L. apply Qlt_le_weak. apply (proj2 Hf); auto. apply (proj2 (proj2 Hpow)).
  - rewrite spectrum_end by lra. lra.
Qed.
Lemma rows_step i j : 0 <= i < nchi -> 0 <= j < ndelta - 1 -> (at2 rows i j <= at2 rows i (j + 1))%Q.
Proof.
  intros Hi Hj. rewrite rows_next by assumption.
  pose proof (spectrum_nonneg i (j + 1) ltac:(lia)) as A. pose proof (Hrise j (j + 1) ltac:(lia) ltac:(lia)) as B.
  assert (0 <= spectrum (f (chi i)) (at1 deltas (j + 1)) * (at1 deltas (j + 1) - at1 deltas j))%Q by (apply Qmult_le_0_compat; lra).
  lra.
Qed.
Lemma rows_mono i j : 0 <= i < nchi -> 0 <= j -> forall n, j + Z.of_nat n < ndelta -> (at2 rows i j <= at2 rows i (j + Z.of_nat n))%Q.
Proof.
  intros Hi Hj. induction n as [|n IH]; intro H.
  - rewrite Z.add_0_r. lra.
  - specialize (IH ltac:(lia)). pose proof (rows_step i (j + Z.of_nat n) Hi ltac:(lia)) as A.
    replace (j + Z.of_nat (S n)) with (j + Z.of_nat n + 1) by lia. lra.
Qed.
Lemma rows_strict i : 0 <= i < nchi -> 2 <= ndelta -> (at1 deltas 1 < 1)%Q -> (at2 rows i 0 < at2 rows i (ndelta - 1))%Q.
Proof.
  intros Hi H2 L.
  assert (at2 rows i 0 < at2 rows i 1)%Q as A.
  { change 1 with (0 + 1) at 1. rewrite rows_next by lia. change (0 + 1) with 1.
    rewrite spectrum_in by exact L. pose proof (Hrise 0 1 ltac:(lia) ltac:(lia)) as B.
    assert (0 < f (chi i) (at1 deltas 1))%Q as C.
    { apply (proj2 Hf); auto. - apply (proj2 (proj2 Hpow)). - apply Hpos. lia. }
    assert (0 < f (chi i) (at1 deltas 1) * (at1 deltas 1 - at1 deltas 0))%Q by (apply Qmult_lt_0_compat; lra). lra. }
  pose proof (rows_mono i 1 Hi ltac:(lia) (Z.to_nat (ndelta - 2)) ltac:(lia)) as B.
  replace (1 + Z.of_nat (Z.to_nat (ndelta - 2))) with (ndelta - 1) in B by lia. lra.
Qed.
(** the last bin is empty when the last fraction is 1 *)
Lemma rows_end i : 0 <= i < nchi -> 2 <= ndelta -> (at1 deltas (ndelta - 1) == 1)%Q ->
  (at2 rows i (ndelta - 1) == at2 rows i (ndelta - 2))%Q.
Proof.
  intros Hi H2 E. pose proof (rows_next i (ndelta - 2) Hi ltac:(lia)) as A.
  replace (ndelta - 2 + 1) with (ndelta - 1) in A by lia. rewrite A, (spectrum_end _ _ E). ring.
Qed.
Lemma rows_cdfs g : chi_N g = nchi -> delta_N g = ndelta -> 2 <= ndelta -> (at1 deltas 1 < 1)%Q -> cdfs_ok g rows.
Proof.
  intros G1 G2 H2 L. unfold cdfs_ok. rewrite G1, G2. split; [exact rows_len|]. split; [exact rows_widths|]. split.
  - intros i j k Hi Hj Hk. pose proof (rows_mono i j Hi ltac:(lia) (Z.to_nat (k - j)) ltac:(lia)) as A.
    replace (j + Z.of_nat (Z.to_nat (k - j))) with k in A by lia. exact A.
  - intros i Hi. now apply rows_strict.
Qed.

(** rectangles on the right of each stretch lie below the integral when the spectrum falls *)
Lemma rows_below i : 0 <= i < nchi -> integrates quad (spectrum (f (chi i))) -> falling (spectrum (f (chi i))) ->
  forall n, Z.of_nat n < ndelta -> (at2 rows i (Z.of_nat n) <= quad (spectrum (f (chi i))) 0 (at1 deltas (Z.of_nat n)))%Q.
Proof.
  intros Hi (Hs & Hlo & _) Hfall. induction n as [|n IH]; intro H.
  - change (Z.of_nat 0) with 0. rewrite rows_start by lia. lra.
  - specialize (IH ltac:(lia)). replace (Z.of_nat (S n)) with (Z.of_nat n + 1) by lia.
    rewrite rows_next by lia. set (a := at1 deltas (Z.of_nat n)) in *. set (b := at1 deltas (Z.of_nat n + 1)).
    assert (a < b)%Q by (apply Hrise; lia). destruct (Hpos (Z.of_nat n) ltac:(lia)) as [P0 _].
    destruct (Hpos (Z.of_nat n + 1) ltac:(lia)) as [_ P1]. fold a in P0. fold b in P1.
    rewrite (Hs 0%Q a b) by lra.
    assert (spectrum (f (chi i)) b * (b - a) <= quad (spectrum (f (chi i))) a b)%Q.
    { apply Hlo; [lra|lra|lra|]. intros x X1 X2. apply Hfall; lra. }
    lra.
Qed.
End Rows.
