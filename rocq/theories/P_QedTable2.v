From Verif Require Import Base M_QedTable S_QedTable P_QedTable.
From Coq Require Import QArith Qround Lqa.
Local Open Scope Z_scope.

(** what the bisection and the final interpolation share: from an increasing row Y, a target strictly between two entries
    is mapped to the point on the line between their grid values *)
Definition placed (N : Z) (Y G : Z -> Q) (r x : Q) : Prop :=
  exists h, 0 <= h < N - 1 /\ (Y h < r)%Q /\ (r < Y (h + 1)%Z)%Q /\ on_line (G h) (Y h) (G (h + 1)%Z) (Y (h + 1)%Z) x r.

Section Placed.
Variables (N : Z) (Y G : Z -> Q).
Hypothesis Hm : forall j k, 0 <= j <= k -> k < N -> (Y j <= Y k)%Q.
Hypothesis HG : forall j k, 0 <= j < k -> k < N -> (G j < G k)%Q.

Lemma placed_cell r x h : 0 <= h < N - 1 -> (Y h < r)%Q -> (r < Y (h + 1)%Z)%Q ->
  on_line (G h) (Y h) (G (h + 1)%Z) (Y (h + 1)%Z) x r -> (G h < x)%Q /\ (x < G (h + 1)%Z)%Q.
Proof.
  intros Hh A B L. unfold on_line in L. pose proof (HG h (h + 1) ltac:(lia) ltac:(lia)) as S.
  assert (0 < (r - Y h) * (G (h + 1)%Z - G h))%Q as P1 by (apply Qmult_lt_0_compat; lra).
  assert (0 < (Y (h + 1)%Z - r) * (G (h + 1)%Z - G h))%Q as P2 by (apply Qmult_lt_0_compat; lra).
  split; apply Qnot_le_lt; intro C.
  - assert ((Y (h + 1)%Z - Y h) * (x - G h) <= 0)%Q by nra. lra.
  - assert ((Y (h + 1)%Z - Y h) * (G (h + 1)%Z - x) <= 0)%Q by nra. lra.
Qed.
(** below a grid value exactly when the target is below the entry *)
Lemma placed_quantile r x j : placed N Y G r x -> 0 <= j < N -> ((x < G j)%Q <-> (r < Y j)%Q).
Proof.
  intros (h & Hh & A & B & L) Hj. destruct (placed_cell r x h Hh A B L) as [C D].
  destruct (Z.le_gt_cases j h) as [J|J].
  - assert (G j <= G h)%Q by (destruct (Z.eq_dec j h) as [->|]; [lra|apply Qlt_le_weak, HG; lia]).
    pose proof (Hm j h ltac:(lia) ltac:(lia)). split; intro; lra.
  - assert (G (h + 1)%Z <= G j)%Q by (destruct (Z.eq_dec j (h + 1)) as [->|]; [lra|apply Qlt_le_weak, HG; lia]).
    pose proof (Hm (h + 1) j ltac:(lia) ltac:(lia)). split; intro; lra.
Qed.
Lemma placed_mono r x r' x' : placed N Y G r x -> placed N Y G r' x' -> (r < r')%Q -> (x < x')%Q.
Proof.
  intros P P' R. destruct P as (h & Hh & A & B & L). destruct P' as (k & Hk & A' & B' & L').
  destruct (placed_cell r x h Hh A B L) as [C D]. destruct (placed_cell r' x' k Hk A' B' L') as [C' D'].
  destruct (Z.lt_trichotomy h k) as [J|[J|J]].
  - assert (G (h + 1)%Z <= G k)%Q by (destruct (Z.eq_dec k (h + 1)) as [->|]; [lra|apply Qlt_le_weak, HG; lia]). lra.
  - subst k. unfold on_line in L, L'. pose proof (HG h (h + 1) ltac:(lia) ltac:(lia)) as S.
    apply Qnot_le_lt. intro X.
    assert (0 < (r' - r) * (G (h + 1)%Z - G h))%Q as P by (apply Qmult_lt_0_compat; lra).
    assert ((Y (h + 1)%Z - Y h) * (x' - x) <= 0)%Q by nra. lra.
  - pose proof (Hm (k + 1) h ltac:(lia) ltac:(lia)). lra.
Qed.
End Placed.

Section Sample.
Variable g : table_grid.
Hypothesis Hg : grid_ok g.
Variable table : list (list Q).
Hypothesis Ht : cdfs_ok g table.

Lemma row_length i : 0 <= i < chi_N g -> Z.of_nat (length (nth (Z.to_nat i) table [])) = delta_N g.
Proof.
  intro Hi. destruct Ht as (L & R & _). rewrite Forall_forall in R. apply R. apply nth_In. lia.
Qed.
Lemma read2_in i j : 0 <= i < chi_N g -> 0 <= j < delta_N g -> read2 table i j = Some (at2 table i j).
Proof.
  intros Hi Hj. unfold read2. destruct Ht as (L & _). rewrite (read_in table [] i) by lia.
  rewrite (read_in _ 0%Q j) by (rewrite row_length; lia). reflexivity.
Qed.
Lemma read2_last i : 0 <= i < chi_N g -> read2 table i (-1) = Some (at2 table i (delta_N g - 1)).
Proof.
  intros Hi. unfold read2. destruct Ht as (L & _). rewrite (read_in table [] i) by lia.
  pose proof (row_length i Hi) as R. destruct Hg as (_ & HN & _). rewrite (read_last _ 0%Q) by lia.
  unfold at2, at1. do 2 f_equal. lia.
Qed.
Lemma read2_out i j : chi_N g <= i -> read2 table i j = None.
Proof. intro Hi. unfold read2. destruct Ht as (L & _). rewrite read_out by lia. reflexivity. Qed.

(** the row between two tabulated rows, at weight t *)
Definition weighted (i : Z) (t : Q) (j : Z) : Q := (at2 table i j + t * (at2 table (i + 1) j - at2 table i j))%Q.

Lemma weighted_mono i t j k : 0 <= i < chi_N g - 1 -> (0 <= t)%Q -> (t < 1)%Q -> 0 <= j <= k -> k < delta_N g ->
  (weighted i t j <= weighted i t k)%Q.
Proof.
  intros Hi T0 T1 Hj Hk. destruct Ht as (_ & _ & M & _). unfold weighted.
  pose proof (M i j k ltac:(lia) Hj Hk). pose proof (M (i + 1) j k ltac:(lia) Hj Hk). nra.
Qed.
Lemma weighted_ends i t : 0 <= i < chi_N g - 1 -> (0 <= t)%Q -> (t < 1)%Q ->
  (weighted i t 0 < weighted i t (delta_N g - 1))%Q.
Proof.
  intros Hi T0 T1. destruct Ht as (_ & _ & _ & S). unfold weighted.
  pose proof (S i ltac:(lia)). pose proof (S (i + 1) ltac:(lia)).
  assert (0 < (1 - t) * (at2 table i (delta_N g - 1) - at2 table i 0))%Q by (apply Qmult_lt_0_compat; lra). nra.
Qed.

(** an interpolated row is a weighted row *)
Lemma line_weight x0 y0 x1 y1 x y : (x0 < x1)%Q -> on_line x0 y0 x1 y1 x y ->
  (y == y0 + (x - x0) / (x1 - x0) * (y1 - y0))%Q.
Proof.
  intros H L. apply (line_unique x0 y0 x1 y1 x y _ H L). unfold on_line. field. lra.
Qed.
Lemma weight_range x0 x1 x : (x0 <= x)%Q -> (x < x1)%Q -> (0 <= (x - x0) / (x1 - x0))%Q /\ ((x - x0) / (x1 - x0) < 1)%Q.
Proof. intros A B. split; [apply Qle_shift_div_l|apply Qlt_shift_div_r]; lra. Qed.

(** the common part of both sampling functions, for any reading function that gives the weighted row *)
Lemma search_ok (y : Z -> option Q) (Y : Z -> Q) r fuel :
  (forall j, 0 <= j < delta_N g -> exists v, y j = Some v /\ (v == Y j)%Q) ->
  (forall j k, 0 <= j <= k -> k < delta_N g -> (Y j <= Y k)%Q) ->
  (forall j, 0 <= j < delta_N g -> ~ (Y j == r)%Q) ->
  (Y 0%Z <= r)%Q -> (r < Y (delta_N g - 1)%Z)%Q -> delta_N g <= Z.of_nat fuel ->
  exists h y1 y2, bisect fuel y r 0 (delta_N g - 1) = Value h /\ 0 <= h < delta_N g - 1 /\
    y h = Some y1 /\ y (h + 1) = Some y2 /\ (y1 == Y h)%Q /\ (y2 == Y (h + 1)%Z)%Q /\ (Y h < r)%Q /\ (r < Y (h + 1)%Z)%Q.
Proof.
  intros Hy Hm Hn H0 H1 Hf. destruct Hg as (_ & HN & _).
  destruct (bisect_ends y Y (delta_N g)%Z r Hy Hm fuel 0 (delta_N g - 1) Hn) as (h & E & Hh & Hlo & Hhi); try lia.
  assert (0 <= h) as Hh0.
  { destruct (Z.le_gt_cases 0 h) as [G|G]; [exact G|]. pose proof (Hhi 0 ltac:(lia)). lra. }
  assert (h < delta_N g - 1) as Hh1.
  { destruct (Z.lt_ge_cases h (delta_N g - 1)) as [G|G]; [exact G|]. pose proof (Hlo (delta_N g - 1) ltac:(lia)). lra. }
  destruct (Hy h ltac:(lia)) as (y1 & E1 & V1). destruct (Hy (h + 1) ltac:(lia)) as (y2 & E2 & V2).
  exists h, y1, y2. repeat split; auto; try lia; [apply Hlo; lia|apply Hhi; lia].
Qed.

Lemma target_range (Y : Z -> Q) u : (Y 0%Z < Y (delta_N g - 1)%Z)%Q -> (0 <= u)%Q -> (u < 1)%Q ->
  (Y 0%Z <= target g Y u)%Q /\ (target g Y u < Y (delta_N g - 1)%Z)%Q.
Proof. 
  intros H A B. unfold target. generalize dependent (Y 0%Z). generalize (Y (delta_N g - 1)%Z). intros b a H.
  assert (0 <= u * (b - a))%Q by (apply Qmult_le_0_compat; lra).
  assert (0 < (1 - u) * (b - a))%Q by (apply Qmult_lt_0_compat; lra). split; lra. Qed.

Lemma cdf_weighted lc Y : cdf_at g table lc Y -> exists i, brackets g i lc /\
  (forall j, 0 <= j < delta_N g -> (Y j == weighted i ((lc - chi_at g i) / log_chi_d g) j)%Q) /\
  (0 <= (lc - chi_at g i) / log_chi_d g)%Q /\ ((lc - chi_at g i) / log_chi_d g < 1)%Q.
Proof.
  intros (i & Hb & L). exists i. split; [exact Hb|].
  destruct Hb as (Hi & A & B). pose proof (chi_next g i) as E.
  destruct Hg as (_ & _ & Hd & _).
  assert ((chi_at g (i + 1) - chi_at g i) == log_chi_d g)%Q as D by lra.
  split; [|split].
  - intros j Hj. assert (chi_at g i < chi_at g (i + 1))%Q as X by lra.
    rewrite (line_weight _ _ _ _ _ _ X (L j Hj)). unfold weighted. rewrite D. reflexivity.
  - apply Qle_shift_div_l; lra.
  - apply Qlt_shift_div_r; lra.
Qed.

Lemma cdf_exists lc : (log_chi_lo g <= lc)%Q -> (lc < log_chi_hi g)%Q -> exists Y, cdf_at g table lc Y.
Proof.
  intros A B. destruct (bracket_exists g Hg lc A B) as (i & Hb).
  exists (weighted i ((lc - chi_at g i) / log_chi_d g)). exists i. split; [exact Hb|].
  intros j Hj. unfold on_line, weighted. rewrite chi_next. destruct Hg as (_ & _ & Hd & _). field. lra.
Qed.

Lemma cdf_mono lc Y : cdf_at g table lc Y ->
  (forall j k, 0 <= j <= k -> k < delta_N g -> (Y j <= Y k)%Q) /\ (Y 0%Z < Y (delta_N g - 1)%Z)%Q.
Proof.
  intro H. destruct (cdf_weighted lc Y H) as (i & (Hi & _) & E & T0 & T1). destruct Hg as (_ & HN & _). split.
  - intros j k Hj Hk. rewrite (E j), (E k) by lia. now apply weighted_mono.
  - rewrite (E 0), (E (delta_N g - 1)) by lia. now apply weighted_ends.
Qed.

Lemma column_in i t j : 0 <= i < chi_N g - 1 -> 0 <= j < delta_N g ->
  exists v, column table i t j = Some v /\ (v == weighted i t j)%Q.
Proof.
  intros Hi Hj. unfold column. rewrite !read2_in by lia. eexists. split; [reflexivity|]. unfold weighted. ring.
Qed.
Lemma column_last i t : 0 <= i < chi_N g - 1 ->
  exists v, column table i t (-1) = Some v /\ (v == weighted i t (delta_N g - 1))%Q.
Proof.
  intros Hi. unfold column. rewrite !read2_last by lia. eexists. split; [reflexivity|]. unfold weighted. ring.
Qed.

Lemma on_line_ext x0 y0 x1 y1 x y y0' y1' y' : (y0 == y0')%Q -> (y1 == y1')%Q -> (y == y')%Q ->
  on_line x0 y0 x1 y1 x y -> on_line x0 y0' x1 y1' x y'.
Proof. unfold on_line. intros A B C L. rewrite <- A, <- B, <- C. exact L. Qed.

Theorem sample_ok lc u Y fuel : cdf_at g table lc Y -> (0 <= u)%Q -> (u < 1)%Q -> ~ hits g Y u ->
  delta_N g <= Z.of_nat fuel ->
  exists x, sample g fuel lc u table = Value x /\ placed (delta_N g) Y (delta_at g)%Z (target g Y u) x.
Proof.
  intros Hc U0 U1 Hn Hf.
  destruct (cdf_weighted lc Y Hc) as (i & Hb & E & T0 & T1). pose proof (chi_idx_of g Hg i lc Hb) as Ei.
  destruct Hb as (Hi & _). destruct (cdf_mono lc Y Hc) as [Hm Hs]. pose proof Hg as (_ & HN & Hd & Hdd & _).
  set (t := ((lc - chi_at g i) / log_chi_d g)%Q) in *.
  unfold sample. rewrite Ei. unfold log_chi_left. fold (chi_at g i). fold t.
  destruct (column_in i t 0 Hi ltac:(lia)) as (y0 & Ey0 & V0). rewrite Ey0.
  destruct (column_last i t Hi) as (yl & Eyl & Vl). rewrite Eyl.
  rewrite <- (E 0 ltac:(lia)) in V0. rewrite <- (E (delta_N g - 1) ltac:(lia)) in Vl.
  set (r := (u * (yl - y0) + y0)%Q).
  assert (r == target g Y u)%Q as Er by (unfold r, target; rewrite V0, Vl; ring).
  destruct (target_range Y u Hs U0 U1) as [R0 R1]. rewrite <- Er in R0, R1.
  destruct (search_ok (column table i t) Y r fuel) as (h & y1 & y2 & Eb & Hh & E1 & E2 & V1 & V2 & A & B); auto.
  { intros j Hj. destruct (column_in i t j Hi Hj) as (v & Ev & Hv). exists v. split; [exact Ev|]. now rewrite (E j Hj). }
  { intros j Hj X. apply Hn. exists j. split; [exact Hj|]. now rewrite X. }
  rewrite Eb, E1, E2. eexists. split; [reflexivity|].
  exists h. split; [exact Hh|]. split; [rewrite <- Er; exact A|]. split; [rewrite <- Er; exact B|].
  apply (on_line_ext _ y1 _ y2 _ r); [exact V1|exact V2|exact Er|].
  unfold on_line. rewrite delta_next. fold (delta_at g h). field. rewrite V1, V2. lra.
Qed.

Theorem sample_hit lc u Y fuel : cdf_at g table lc Y ->
  (forall j k, 0 <= j < k -> k < delta_N g -> (Y j < Y k)%Q) -> hits g Y u -> sample g fuel lc u table = Running.
Proof.
  intros Hc Hstr (k & Hk & Ek).
  destruct (cdf_weighted lc Y Hc) as (i & Hb & E & T0 & T1). pose proof (chi_idx_of g Hg i lc Hb) as Ei.
  destruct Hb as (Hi & _). destruct (cdf_mono lc Y Hc) as [Hm Hs]. pose proof Hg as (_ & HN & Hd & Hdd & _).
  set (t := ((lc - chi_at g i) / log_chi_d g)%Q) in *.
  unfold sample. rewrite Ei. unfold log_chi_left. fold (chi_at g i). fold t.
  destruct (column_in i t 0 Hi ltac:(lia)) as (y0 & Ey0 & V0). rewrite Ey0.
  destruct (column_last i t Hi) as (yl & Eyl & Vl). rewrite Eyl.
  rewrite <- (E 0 ltac:(lia)) in V0. rewrite <- (E (delta_N g - 1) ltac:(lia)) in Vl.
  set (r := (u * (yl - y0) + y0)%Q).
  assert (r == target g Y u)%Q as Er by (unfold r, target; rewrite V0, Vl; ring).
  rewrite (bisect_hit (column table i t) Y (delta_N g)%Z r) with (k := k); auto; try lia.
  - intros j Hj. destruct (column_in i t j Hi Hj) as (v & Ev & Hv). exists v. split; [exact Ev|]. now rewrite (E j Hj).
  - now rewrite Er.
Qed.

Theorem sample_above lc u fuel : (log_chi_hi g <= lc)%Q -> sample g fuel lc u table = Outside.
Proof.
  intro H. unfold sample. rewrite (chi_idx_high g Hg lc H). unfold column.
  rewrite (read2_out (chi_N g - 1 + 1)) by lia.
  destruct (read2 table (chi_N g - 1) 0); reflexivity.
Qed.

Lemma delta_at_lt j k : j < k -> (delta_at g j < delta_at g k)%Q.
Proof.
  intro H. destruct Hg as (_ & _ & _ & Hd & _). unfold delta_at.
  apply (Qplus_lt_r _ _ (log_delta_lo g)). apply Qmult_lt_compat_r; [exact Hd|]. now rewrite <- Zlt_Qlt.
Qed.

(** ** the second method *)
Section Sigmoid.
Variables (pow10 : Q -> Q) (grid : Z -> Q) (first : Q).
Hypothesis pow_lt : forall a b, (a < b)%Q -> (pow10 a < pow10 b)%Q.
Hypothesis pow_eq : forall a b, (a == b)%Q -> (pow10 a == pow10 b)%Q.
Hypothesis grid_lt : forall j k, 0 <= j < k -> k < delta_N g -> (grid j < grid k)%Q.

Lemma pow_le a b : (a <= b)%Q -> (pow10 a <= pow10 b)%Q.
Proof.
  intro H. destruct (Qle_lt_or_eq _ _ H) as [L|E]; [apply Qlt_le_weak, pow_lt, L|].
  rewrite (pow_eq _ _ E). apply Qle_refl.
Qed.

Definition wt_s (i : Z) (lc : Q) : Q := ((pow10 lc - pow10 (chi_at g i)) / (pow10 (chi_at g (i + 1)) - pow10 (chi_at g i)))%Q.
Lemma cdf_weighted_s lc Y : cdf_at_s g pow10 table lc Y -> exists i, brackets g i lc /\
  (forall j, 0 <= j < delta_N g -> (Y j == weighted i (wt_s i lc) j)%Q) /\ (0 <= wt_s i lc)%Q /\ (wt_s i lc < 1)%Q.
Proof.
  intros (i & Hb & L). exists i. split; [exact Hb|]. destruct Hb as (Hi & A & B).
  pose proof (pow_le _ _ A) as A'. pose proof (pow_lt _ _ B) as B'.
  split; [|apply weight_range; assumption].
  intros j Hj. assert (pow10 (chi_at g i) < pow10 (chi_at g (i + 1)))%Q as X by lra.
  rewrite (line_weight _ _ _ _ _ _ X (L j Hj)). reflexivity.
Qed.
Lemma cdf_mono_s lc Y : cdf_at_s g pow10 table lc Y ->
  (forall j k, 0 <= j <= k -> k < delta_N g -> (Y j <= Y k)%Q) /\ (Y 0%Z < Y (delta_N g - 1)%Z)%Q.
Proof.
  intro H. destruct (cdf_weighted_s lc Y H) as (i & (Hi & _) & E & T0 & T1). destruct Hg as (_ & HN & _). split.
  - intros j k Hj Hk. rewrite (E j), (E k) by lia. now apply weighted_mono.
  - rewrite (E 0), (E (delta_N g - 1)) by lia. now apply weighted_ends.
Qed.
Lemma cdf_exists_s lc : (log_chi_lo g <= lc)%Q -> (lc < log_chi_hi g)%Q -> exists Y, cdf_at_s g pow10 table lc Y.
Proof.
  intros A B. destruct (bracket_exists g Hg lc A B) as (i & Hb). exists (weighted i (wt_s i lc)). exists i. split; [exact Hb|].
  intros j Hj. unfold on_line, weighted, wt_s. destruct Hb as (_ & A' & B').
  pose proof (pow_le _ _ A'). pose proof (pow_lt _ _ B'). field. lra.
Qed.
Lemma column_s_in i lc j : 0 <= i < chi_N g - 1 -> brackets g i lc -> 0 <= j < delta_N g ->
  exists v, column_s g pow10 table i (pow10 lc) j = Some v /\ (v == weighted i (wt_s i lc) j)%Q.
Proof.
  intros Hi (_ & A & B) Hj. pose proof (pow_le _ _ A). pose proof (pow_lt _ _ B).
  unfold column_s. rewrite !read2_in by lia. eexists. split; [reflexivity|].
  unfold weighted, wt_s, log_chi_left. fold (chi_at g i) (chi_at g (i + 1)). field. lra.
Qed.
Lemma column_s_last i lc : 0 <= i < chi_N g - 1 -> brackets g i lc ->
  exists v, column_s g pow10 table i (pow10 lc) (-1) = Some v /\ (v == weighted i (wt_s i lc) (delta_N g - 1))%Q.
Proof.
  intros Hi (_ & A & B). pose proof (pow_le _ _ A). pose proof (pow_lt _ _ B).
  unfold column_s. rewrite !read2_last by lia. eexists. split; [reflexivity|].
  unfold weighted, wt_s, log_chi_left. fold (chi_at g i) (chi_at g (i + 1)). field. lra.
Qed.

Theorem sample_s_ok lc u Y fuel : cdf_at_s g pow10 table lc Y -> (0 <= u)%Q -> (u < 1)%Q -> ~ hits g Y u ->
  delta_N g <= Z.of_nat fuel ->
  exists x, sample_s g pow10 grid first fuel lc u table = Value x /\ placed (delta_N g) Y grid (target g Y u) x.
Proof.
  intros Hc U0 U1 Hn Hf.
  destruct (cdf_weighted_s lc Y Hc) as (i & Hb & E & T0 & T1). pose proof (chi_idx_of g Hg i lc Hb) as Ei.
  pose proof Hb as (Hi & _). destruct (cdf_mono_s lc Y Hc) as [Hm Hs]. pose proof Hg as (_ & HN & Hd & Hdd & _).
  unfold sample_s. rewrite Ei.
  destruct (column_s_in i lc 0 Hi Hb ltac:(lia)) as (y0 & Ey0 & V0). rewrite Ey0.
  destruct (column_s_last i lc Hi Hb) as (yl & Eyl & Vl). rewrite Eyl.
  rewrite <- (E 0 ltac:(lia)) in V0. rewrite <- (E (delta_N g - 1) ltac:(lia)) in Vl.
  set (r := (u * (yl - y0) + y0)%Q).
  assert (r == target g Y u)%Q as Er by (unfold r, target; rewrite V0, Vl; ring).
  destruct (target_range Y u Hs U0 U1) as [R0 R1]. rewrite <- Er in R0, R1.
  assert (Qle_bool y0 r = true) as Hle by (apply Qle_bool_iff; rewrite V0; exact R0). rewrite Hle. cbn [negb].
  destruct (search_ok (column_s g pow10 table i (pow10 lc)) Y r fuel) as (h & y1 & y2 & Eb & Hh & E1 & E2 & V1 & V2 & A & B); auto.
  { intros j Hj. destruct (column_s_in i lc j Hi Hb Hj) as (v & Ev & Hv). exists v. split; [exact Ev|]. now rewrite (E j Hj). }
  { intros j Hj X. apply Hn. exists j. split; [exact Hj|]. now rewrite X. }
  rewrite Eb, E1, E2. eexists. split; [reflexivity|].
  exists h. split; [exact Hh|]. split; [rewrite <- Er; exact A|]. split; [rewrite <- Er; exact B|].
  apply (on_line_ext _ y1 _ y2 _ r); [exact V1|exact V2|exact Er|].
  unfold on_line. field. rewrite V1, V2. lra.
Qed.
End Sigmoid.
End Sample.

(** ** chi *)
Lemma chi_squared_nonneg gamma ex ey ez bx by_ bz ux uy uz :
  (ux * ux + uy * uy + uz * uz <= gamma * gamma)%Q -> ~ (gamma == 0)%Q ->
  (0 <= chi_squared gamma ex ey ez bx by_ bz ux uy uz)%Q.
Proof.
  intros H G0. unfold chi_squared.
  set (fx := (gamma * ex + (uy * bz - uz * by_))%Q). set (fy := (gamma * ey + (uz * bx - ux * bz))%Q).
  set (fz := (gamma * ez + (ux * by_ - uy * bx))%Q).
  assert (0 < gamma * gamma)%Q as G by (destruct (Q_dec gamma 0) as [[?|?]|?]; [nra|nra|contradiction]).
  assert (gamma * (ux * ex + uy * ey + uz * ez) == ux * fx + uy * fy + uz * fz)%Q as D by (unfold fx, fy, fz; ring).
  clearbody fx fy fz. set (d := (ux * ex + uy * ey + uz * ez)%Q) in *. clearbody d.
  apply Qnot_lt_le. intro C.
  assert (gamma * gamma * (fx*fx + fy*fy + fz*fz - d * d) < 0)%Q as C1 by nra.
  assert (gamma * gamma * (fx*fx + fy*fy + fz*fz - d * d) ==
    (gamma*gamma - (ux*ux+uy*uy+uz*uz)) * (fx*fx + fy*fy + fz*fz) +
    ((uy*fz - uz*fy)*(uy*fz - uz*fy) + (uz*fx - ux*fz)*(uz*fx - ux*fz) + (ux*fy - uy*fx)*(ux*fy - uy*fx)))%Q as E.
  { setoid_replace (gamma * gamma * (fx*fx + fy*fy + fz*fz - d * d))%Q
      with (gamma * gamma * (fx*fx + fy*fy + fz*fz) - (gamma * d) * (gamma * d))%Q by ring. rewrite D. ring. }
  rewrite E in C1.
  assert (forall a, 0 <= a * a)%Q as Sq by (intro a; nra).
  pose proof (Sq fx). pose proof (Sq fy). pose proof (Sq fz).
  pose proof (Sq (uy*fz - uz*fy)%Q). pose proof (Sq (uz*fx - ux*fz)%Q). pose proof (Sq (ux*fy - uy*fx)%Q).
  assert (0 <= (gamma*gamma - (ux*ux+uy*uy+uz*uz)) * (fx*fx + fy*fy + fz*fz))%Q by (apply Qmult_le_0_compat; lra).
  lra.
Qed.
