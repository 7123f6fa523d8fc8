From Verif Require Import Base M_QedTable S_QedTable.
From Coq Require Import QArith Qround Lqa.
Local Open Scope Z_scope.

Lemma qle_false a b : negb (Qle_bool a b) = true <-> (b < a)%Q.
Proof.
  rewrite negb_true_iff. split.
  - intro H. apply Qnot_le_lt. intro L. apply Qle_bool_iff in L. congruence.
  - intro H. destruct (Qle_bool a b) eqn:E; [|reflexivity]. apply Qle_bool_iff in E. lra.
Qed.

Lemma read_in {A} (l : list A) d i : 0 <= i < Z.of_nat (length l) -> read l i = Some (nth (Z.to_nat i) l d).
Proof.
  intro H. unfold read. destruct (Z.ltb_spec i 0); [lia|].
  destruct (Z.leb_spec 0 i); [|lia]. destruct (Z.ltb_spec i (Z.of_nat (length l))); [|lia]. cbn [andb].
  apply nth_error_nth'. lia.
Qed.
Lemma read_last {A} (l : list A) d : (0 < length l)%nat -> read l (-1) = Some (nth (length l - 1) l d).
Proof.
  intro H. unfold read. destruct (Z.ltb_spec (-1) 0); [|lia].
  destruct (Z.leb_spec 0 (-1 + Z.of_nat (length l))); [|lia].
  destruct (Z.ltb_spec (-1 + Z.of_nat (length l)) (Z.of_nat (length l))); [|lia]. cbn [andb].
  replace (Z.to_nat (-1 + Z.of_nat (length l))) with (length l - 1)%nat by lia.
  apply nth_error_nth'. lia.
Qed.
Lemma read_out {A} (l : list A) i : Z.of_nat (length l) <= i -> read l i = None.
Proof.
  intro H. unfold read. destruct (Z.ltb_spec i 0); [lia|].
  destruct (Z.ltb_spec i (Z.of_nat (length l))); [lia|]. now rewrite andb_false_r.
Qed.

Section Grid.
Variable g : table_grid.
Hypothesis Hg : grid_ok g.

Lemma chi_at_le i j : i <= j -> (chi_at g i <= chi_at g j)%Q.
Proof.
  intro H. destruct Hg as (_ & _ & Hd & _). unfold chi_at.
  apply Qplus_le_r. apply Qmult_le_compat_r; [|lra]. now rewrite <- Zle_Qle.
Qed.
Lemma delta_at_le i j : i <= j -> (delta_at g i <= delta_at g j)%Q.
Proof.
  intro H. destruct Hg as (_ & _ & _ & Hd & _). unfold delta_at.
  apply Qplus_le_r. apply Qmult_le_compat_r; [|lra]. now rewrite <- Zle_Qle.
Qed.
Lemma chi_next i : (chi_at g (i + 1) == chi_at g i + log_chi_d g)%Q.
Proof. unfold chi_at. rewrite inject_Z_plus. ring. Qed.
Lemma delta_next i : (delta_at g (i + 1) == delta_at g i + log_delta_d g)%Q.
Proof. unfold delta_at. rewrite inject_Z_plus. ring. Qed.

Lemma chi_idx_low lc : (lc < log_chi_lo g)%Q -> chi_idx g lc = -1.
Proof. intro H. unfold chi_idx. now rewrite (proj2 (qle_false _ _) H). Qed.

Lemma floor_of q i : (inject_Z i <= q)%Q -> (q < inject_Z (i + 1))%Q -> Qfloor q = i.
Proof.
  intros H1 H2. pose proof (Qfloor_le q) as A. pose proof (Qlt_floor q) as B.
  assert (inject_Z (Qfloor q) < inject_Z (i + 1))%Q as C by lra.
  assert (inject_Z i < inject_Z (Qfloor q + 1))%Q as D by lra.
  rewrite <- Zlt_Qlt in C, D. lia.
Qed.

Lemma chi_idx_of i lc : brackets g i lc -> chi_idx g lc = i.
Proof.
  intros (Hi & H1 & H2). destruct Hg as (HN & _ & Hd & _ & Htop & _).
  assert (log_chi_lo g <= lc)%Q as L.
  { eapply Qle_trans; [|exact H1]. eapply Qle_trans; [|apply (chi_at_le 0); lia]. unfold chi_at. change (inject_Z 0) with 0%Q. lra. }
  assert (lc <= log_chi_hi g)%Q as U.
  { rewrite <- Htop. pose proof (chi_at_le (i + 1) (chi_N g - 1) ltac:(lia)). lra. }
  unfold chi_idx. rewrite (proj2 (Qle_bool_iff _ _) L), (proj2 (Qle_bool_iff _ _) U). cbn [negb].
  apply floor_of.
  - apply Qle_shift_div_l; [exact Hd|]. unfold chi_at in H1. lra.
  - apply Qlt_shift_div_r; [exact Hd|]. unfold chi_at in H2. lra.
Qed.

Lemma bracket_exists lc : (log_chi_lo g <= lc)%Q -> (lc < log_chi_hi g)%Q -> exists i, brackets g i lc.
Proof.
  intros L U. destruct Hg as (HN & _ & Hd & _ & Htop & _).
  set (q := ((lc - log_chi_lo g) / log_chi_d g)%Q).
  assert ((lc - log_chi_lo g) == q * log_chi_d g)%Q as E by (unfold q; field; lra).
  pose proof (Qfloor_le q) as A. pose proof (Qlt_floor q) as B.
  assert (0 <= q)%Q as Q0 by (apply Qle_shift_div_l; lra).
  assert (q < inject_Z (chi_N g - 1))%Q as Q1.
  { apply Qlt_shift_div_r; [exact Hd|]. unfold chi_at in Htop. lra. }
  exists (Qfloor q). repeat split.
  - assert (inject_Z (-1) < inject_Z (Qfloor q))%Q as C.
    { destruct (Z.le_gt_cases 0 (Qfloor q)) as [G|G]; [rewrite <- Zlt_Qlt; lia|].
      assert (Qfloor q + 1 <= 0) as G' by lia. rewrite Zle_Qle in G'. change (inject_Z 0) with 0%Q in G'. lra. }
    rewrite <- Zlt_Qlt in C. lia.
  - assert (inject_Z (Qfloor q) < inject_Z (chi_N g - 1))%Q as C by lra. rewrite <- Zlt_Qlt in C. lia.
  - unfold chi_at. assert (inject_Z (Qfloor q) * log_chi_d g <= q * log_chi_d g)%Q by (apply Qmult_le_compat_r; lra). lra.
  - unfold chi_at. assert (q * log_chi_d g < inject_Z (Qfloor q + 1) * log_chi_d g)%Q by (apply Qmult_lt_compat_r; lra). lra.
Qed.

Lemma chi_idx_high lc : (log_chi_hi g <= lc)%Q -> chi_idx g lc = chi_N g - 1.
Proof.
  intro H. destruct Hg as (HN & _ & Hd & _ & Htop & _).
  assert (log_chi_lo g <= lc)%Q as L.
  { rewrite <- Htop in H. eapply Qle_trans; [|exact H]. eapply Qle_trans; [|apply (chi_at_le 0); lia]. unfold chi_at. change (inject_Z 0) with 0%Q. lra. }
  unfold chi_idx. rewrite (proj2 (Qle_bool_iff _ _) L). cbn [negb].
  destruct (Qle_bool lc (log_chi_hi g)) eqn:E; cbn [negb]; [|reflexivity].
  apply Qle_bool_iff in E. assert (lc == log_chi_hi g)%Q as Eq by lra.
  apply floor_of.
  - apply Qle_shift_div_l; [exact Hd|]. unfold chi_at in Htop. lra.
  - apply Qlt_shift_div_r; [exact Hd|]. unfold chi_at in Htop.
    rewrite inject_Z_plus. change (inject_Z 1) with 1%Q. lra.
Qed.

(** ** rates *)
Lemma rate_line table lc i : rates_ok g table -> brackets g i lc ->
  exists v, rate g lc table = Value v /\
    on_line (chi_at g i) (at1 table i) (chi_at g (i + 1)) (at1 table (i + 1)) lc v.
Proof.
  intros Ht Hb. pose proof (chi_idx_of i lc Hb) as E. destruct Hb as (Hi & H1 & H2). red in Ht.
  destruct Hg as (HN & _ & Hd & _).
  unfold rate. rewrite E. destruct (Z.eqb_spec i (-1)); [lia|].
  rewrite (read_in table 0%Q (i + 1)), (read_in table 0%Q i) by lia.
  eexists. split; [reflexivity|]. unfold on_line. rewrite chi_next. unfold log_chi_left. fold (chi_at g i).
  unfold at1. field. lra.
Qed.
Lemma rate_below table lc : (lc < log_chi_lo g)%Q -> rate g lc table = Value 0%Q.
Proof. intro H. unfold rate. now rewrite (chi_idx_low lc H). Qed.
Lemma rate_above table lc : rates_ok g table -> (log_chi_hi g <= lc)%Q -> rate g lc table = Outside.
Proof.
  intros Ht H. unfold rate. rewrite (chi_idx_high lc H). red in Ht. destruct Hg as (HN & _).
  destruct (Z.eqb_spec (chi_N g - 1) (-1)); [lia|].
  rewrite (read_out table) by lia. reflexivity.
Qed.

Lemma line_between x0 y0 x1 y1 x y : (x0 <= x)%Q -> (x < x1)%Q -> on_line x0 y0 x1 y1 x y -> (y0 <= y1)%Q -> (y0 <= y)%Q /\ (y <= y1)%Q.
Proof.
  unfold on_line. intros A B L H. split.
  - apply Qnot_lt_le. intro C. assert (0 < (y0 - y) * (x1 - x0))%Q by nra. assert (0 <= (y1-y0) * (x - x0))%Q by nra. nra.
  - apply Qnot_lt_le. intro C. assert (0 < (y - y1) * (x1 - x0))%Q by nra. assert (0 <= (y1-y0) * (x1 - x))%Q by nra. nra.
Qed.
Lemma line_mono x0 y0 x1 y1 x y x' y' : (x0 < x1)%Q -> on_line x0 y0 x1 y1 x y -> on_line x0 y0 x1 y1 x' y' ->
  (y0 <= y1)%Q -> (x <= x')%Q -> (y <= y')%Q.
Proof.
  unfold on_line. intros A L L' H C. apply Qnot_lt_le. intro D.
  assert (0 < (y - y') * (x1 - x0))%Q by nra. assert (0 <= (y1-y0) * (x' - x))%Q by nra. nra.
Qed.
Lemma line_unique x0 y0 x1 y1 x y y' : (x0 < x1)%Q -> on_line x0 y0 x1 y1 x y -> on_line x0 y0 x1 y1 x y' -> (y == y')%Q.
Proof.
  unfold on_line. intros A L L'. assert ((y - y') * (x1 - x0) == 0)%Q as E by lra.
  apply Qmult_integral in E. destruct E; lra.
Qed.

Lemma brackets_order i j lc lc' : brackets g i lc -> brackets g j lc' -> (lc <= lc')%Q -> i <= j.
Proof.
  intros (_ & A & B) (_ & C & D) H. destruct (Z.le_gt_cases i j) as [G|G]; [exact G|].
  pose proof (chi_at_le (j + 1) i ltac:(lia)). lra.
Qed.

Lemma rate_mono table lc lc' v v' : rates_ok g table -> (0 <= at1 table 0)%Q ->
  (forall i j, 0 <= i <= j -> j < chi_N g -> (at1 table i <= at1 table j)%Q) ->
  (lc <= lc')%Q -> rate g lc table = Value v -> rate g lc' table = Value v' -> (0 <= v)%Q /\ (v <= v')%Q.
Proof.
  intros Ht H0 Hm Hle E E'.
  assert (forall l w, rate g l table = Value w -> (l < log_chi_lo g)%Q /\ w = 0%Q \/
    exists i, brackets g i l /\ on_line (chi_at g i) (at1 table i) (chi_at g (i + 1)) (at1 table (i + 1)) l w) as K.
  { intros l w R. destruct (Qlt_le_dec l (log_chi_lo g)) as [A|A].
    - left. rewrite (rate_below table l A) in R. split; [exact A|congruence].
    - right. destruct (Qlt_le_dec l (log_chi_hi g)) as [B|B].
      + destruct (bracket_exists l A B) as (i & Hb). destruct (rate_line table l i Ht Hb) as (w' & R' & L).
        exists i. split; [exact Hb|]. congruence.
      + rewrite (rate_above table l Ht B) in R. discriminate. }
  assert (forall i l w, brackets g i l -> on_line (chi_at g i) (at1 table i) (chi_at g (i + 1)) (at1 table (i + 1)) l w ->
    (at1 table i <= w)%Q /\ (w <= at1 table (i + 1))%Q) as Bw.
  { intros i l w (Hi & A & B) L. apply (line_between _ _ _ _ _ _ A B L). apply Hm; lia. }
  destruct (K _ _ E) as [(A & ->)|(i & Hb & L)]; destruct (K _ _ E') as [(A' & ->)|(j & Hb' & L')].
  - lra.
  - destruct (Bw _ _ _ Hb' L') as [B1 _]. pose proof (Hm 0 j ltac:(destruct Hb'; lia) ltac:(destruct Hb'; lia)). lra.
  - destruct Hb as (Hi & B1 & B2). pose proof (chi_at_le 0 i ltac:(lia)) as C. unfold chi_at at 1 in C. change (inject_Z 0) with 0%Q in C. lra.
  - destruct (Bw _ _ _ Hb L) as [B1 B2]. destruct (Bw _ _ _ Hb' L') as [B1' B2'].
    pose proof (Hm 0 i ltac:(destruct Hb; lia) ltac:(destruct Hb; lia)).
    split; [lra|]. pose proof (brackets_order _ _ _ _ Hb Hb' Hle) as O.
    destruct (Z.eq_dec i j) as [->|Ne].
    + assert (chi_at g j < chi_at g (j + 1))%Q as X by (destruct Hb as (_ & ? & ?); lra).
      apply (line_mono _ _ _ _ _ _ _ _ X L L'); [apply Hm; destruct Hb; lia|exact Hle].
    + pose proof (Hm (i + 1) j ltac:(destruct Hb; lia) ltac:(destruct Hb'; lia)). lra.
Qed.
End Grid.

(** ** the bisection *)
Section Bisect.
Variables (y : Z -> option Q) (Y : Z -> Q) (N : Z) (r : Q).
Hypothesis Hy : forall j, 0 <= j < N -> exists v, y j = Some v /\ (v == Y j)%Q.
Hypothesis Hm : forall j k, 0 <= j <= k -> k < N -> (Y j <= Y k)%Q.

Lemma bisect_ends fuel : forall low high,
  (forall j, 0 <= j < N -> ~ (Y j == r)%Q) ->
  0 <= low -> high < N -> low <= high + 1 -> high - low + 1 <= Z.of_nat fuel ->
  (forall j, 0 <= j < low -> (Y j < r)%Q) -> (forall j, high < j < N -> (r < Y j)%Q) ->
  exists h, bisect fuel y r low high = Value h /\ -1 <= h < N /\
    (forall j, 0 <= j <= h -> (Y j < r)%Q) /\ (forall j, h < j < N -> (r < Y j)%Q).
Proof.
  induction fuel as [|fuel IH]; intros low high Hn Hl Hh Hlh Hf Hlo Hhi; cbn [bisect].
  - destruct (Z.leb_spec low high); [lia|]. exists high. repeat split; try lia; intros j Hj; [apply Hlo; lia|apply Hhi; lia].
  - destruct (Z.leb_spec low high) as [C|C].
    2:{ exists high. repeat split; try lia; intros j Hj; [apply Hlo; lia|apply Hhi; lia]. }
    set (mid := (low + high) / 2). assert (low <= mid <= high) as Hmid by (unfold mid; lia).
    destruct (Hy mid ltac:(lia)) as (v & Ev & Hv). rewrite Ev.
    pose proof (Hn mid ltac:(lia)) as Hne.
    destruct (Qle_bool r v) eqn:E1; cbn [negb].
    + apply Qle_bool_iff in E1. assert (r < v)%Q as L.
      { destruct (Qle_lt_or_eq _ _ E1) as [G|G]; [exact G|]. exfalso. apply Hne. lra. }
      rewrite (proj2 (qle_false v r) L). apply IH; try lia; auto.
      intros j Hj. pose proof (Hm mid j ltac:(lia) ltac:(lia)). lra.
    + assert (v < r)%Q as L by (apply (proj1 (qle_false r v)); now rewrite E1).
      apply IH; try lia; auto. intros j Hj. pose proof (Hm j mid ltac:(lia) ltac:(lia)). lra.
Qed.

(** an exact hit: with strictly increasing values the bounds close in on the index that was hit and stay there *)
Lemma bisect_hit k fuel : forall low high,
  (forall j l, 0 <= j < l -> l < N -> (Y j < Y l)%Q) -> 0 <= k < N -> (Y k == r)%Q ->
  0 <= low <= k -> k <= high < N -> bisect fuel y r low high = Running.
Proof.
  induction fuel as [|fuel IH]; intros low high Hs Hk Hr Hl Hh; cbn [bisect].
  - destruct (Z.leb_spec low high); [reflexivity|lia].
  - destruct (Z.leb_spec low high) as [C|C]; [|lia].
    set (mid := (low + high) / 2). assert (low <= mid <= high) as Hmid by (unfold mid; lia).
    destruct (Hy mid ltac:(lia)) as (v & Ev & Hv). rewrite Ev.
    destruct (Qle_bool r v) eqn:E1; cbn [negb].
    + apply Qle_bool_iff in E1. destruct (Qle_bool v r) eqn:E2; cbn [negb].
      * apply IH; auto; lia.
      * assert (r < v)%Q as L by (apply (proj1 (qle_false v r)); now rewrite E2).
        apply IH; auto; try lia. split; [|lia].
        destruct (Z.le_gt_cases k (mid - 1)) as [G|G]; [exact G|].
        pose proof (Hm mid k ltac:(lia) ltac:(lia)). lra.
    + assert (v < r)%Q as L by (apply (proj1 (qle_false r v)); now rewrite E1).
      apply IH; auto; try lia. split; [lia|].
      destruct (Z.le_gt_cases (mid + 1) k) as [G|G]; [exact G|].
      pose proof (Hm k mid ltac:(lia) ltac:(lia)). lra.
Qed.
End Bisect.
