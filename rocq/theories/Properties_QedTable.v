(** Properties of the tables of the QED processes and of the optical depth. *)
From Verif Require Import Base M_QedTable S_QedTable P_QedTable P_QedTable2 P_QedTable3.
From Coq Require Import QArith Lqa.
Local Open Scope Z_scope.

(** ** C89: rates are read off the table by linear interpolation, increase with chi, and vanish below the table *)
Theorem C89_interpolated : forall g table lc,
  grid_ok g -> rates_ok g table -> (log_chi_lo g <= lc)%Q -> (lc < log_chi_hi g)%Q ->
  exists i v, brackets g i lc /\ rate g lc table = Value v /\
    on_line (chi_at g i) (at1 table i) (chi_at g (i + 1)) (at1 table (i + 1)) lc v.
Proof.
  intros g table lc Hg Ht A B. destruct (bracket_exists g Hg lc A B) as (i & Hb).
  destruct (rate_line g Hg table lc i Ht Hb) as (v & E & L). eauto.
Qed.
Theorem C89_at_grid_points : forall g table i,
  grid_ok g -> rates_ok g table -> 0 <= i < chi_N g - 1 ->
  exists v, rate g (chi_at g i) table = Value v /\ (v == at1 table i)%Q.
Proof.
  intros g table i Hg Ht Hi. pose proof Hg as (_ & _ & Hd & _).
  assert (brackets g i (chi_at g i)) as Hb.
  { split; [lia|]. rewrite chi_next. split; lra. }
  destruct (rate_line g Hg table _ i Ht Hb) as (v & E & L). exists v. split; [exact E|].
  unfold on_line in L. rewrite chi_next in L.
  assert ((v - at1 table i) * log_chi_d g == 0)%Q as Z by lra. apply Qmult_integral in Z. destruct Z; lra.
Qed.
Theorem C89_below : forall g table lc, (lc < log_chi_lo g)%Q -> rate g lc table = Value 0%Q.
Proof. intros. now apply rate_below. Qed.
Theorem C89_monotone : forall g table lc lc' v v',
  grid_ok g -> rates_ok g table -> (0 <= at1 table 0)%Q ->
  (forall i j, 0 <= i <= j -> j < chi_N g -> (at1 table i <= at1 table j)%Q) ->
  (lc <= lc')%Q -> rate g lc table = Value v -> rate g lc' table = Value v' -> (0 <= v)%Q /\ (v <= v')%Q.
Proof. intros. eapply rate_mono; eauto. Qed.

(** ** C90: at and above the last tabulated chi both lookups read outside of their tables *)
Theorem C90_rate_refuted : forall g table lc,
  grid_ok g -> rates_ok g table -> (log_chi_hi g <= lc)%Q -> rate g lc table = Outside.
Proof. intros. now apply rate_above. Qed.
Theorem C90_fraction_refuted : forall g table lc u fuel,
  grid_ok g -> cdfs_ok g table -> (log_chi_hi g <= lc)%Q -> sample g fuel lc u table = Outside.
Proof. intros. now apply sample_above. Qed.

(** ** C91: the fraction is sampled by inverting the tabulated distribution *)
Theorem C91_inverse : forall g table lc Y u fuel,
  grid_ok g -> cdfs_ok g table -> cdf_at g table lc Y -> (0 <= u)%Q -> (u < 1)%Q -> ~ hits g Y u ->
  delta_N g <= Z.of_nat fuel ->
  exists x, sample g fuel lc u table = Value x /\
    (log_delta_lo g < x)%Q /\ (x < 0)%Q /\
    (exists h, 0 <= h < delta_N g - 1 /\ (delta_at g h < x)%Q /\ (x < delta_at g (h + 1))%Q /\
       on_line (delta_at g h) (Y h) (delta_at g (h + 1)) (Y (h + 1)) x (target g Y u)) /\
    (forall j, 0 <= j < delta_N g -> ((x < delta_at g j)%Q <-> (target g Y u < Y j)%Q)).
Proof.
  intros g table lc Y u fuel Hg Ht Hc U0 U1 Hn Hf.
  destruct (sample_ok g Hg table Ht lc u Y fuel Hc U0 U1 Hn Hf) as (x & E & P).
  destruct (cdf_mono g Hg table Ht lc Y Hc) as [Hm Hs].
  assert (forall j k, 0 <= j < k -> k < delta_N g -> (delta_at g j < delta_at g k)%Q) as HG
    by (intros; apply delta_at_lt; [exact Hg|lia]).
  exists x. split; [exact E|].
  pose proof (placed_quantile (delta_N g) Y (delta_at g) Hm HG (target g Y u) x) as Qn.
  pose proof Hg as (_ & HN & _ & _ & _ & Htop).
  destruct P as (h & Hh & A & B & L) eqn:EP. clear EP.
  destruct (placed_cell (delta_N g) Y (delta_at g) Hm HG _ x h Hh A B L) as [C D].
  assert (log_delta_lo g < x)%Q.
  { pose proof (delta_at_le g Hg 0 h ltac:(lia)) as Z. unfold delta_at at 1 in Z. change (inject_Z 0) with 0%Q in Z. lra. }
  assert (x < 0)%Q.
  { pose proof (delta_at_le g Hg (h + 1) (delta_N g - 1) ltac:(lia)). lra. }
  split; [assumption|]. split; [assumption|]. split.
  - exists h. auto.
  - intros j Hj. apply Qn; [exact P|exact Hj].
Qed.
Theorem C91_monotone : forall g table lc Y u u' fuel x x',
  grid_ok g -> cdfs_ok g table -> cdf_at g table lc Y ->
  (0 <= u)%Q -> (u < u')%Q -> (u' < 1)%Q -> ~ hits g Y u -> ~ hits g Y u' -> delta_N g <= Z.of_nat fuel ->
  sample g fuel lc u table = Value x -> sample g fuel lc u' table = Value x' -> (x < x')%Q.
Proof.
  intros g table lc Y u u' fuel x x' Hg Ht Hc U0 U U1 Hn Hn' Hf E E'.
  destruct (sample_ok g Hg table Ht lc u Y fuel Hc U0 ltac:(lra) Hn Hf) as (z & F & P).
  destruct (sample_ok g Hg table Ht lc u' Y fuel Hc ltac:(lra) U1 Hn' Hf) as (z' & F' & P').
  assert (z = x) as -> by congruence. assert (z' = x') as -> by congruence.
  destruct (cdf_mono g Hg table Ht lc Y Hc) as [Hm Hs].
  apply (placed_mono (delta_N g) Y (delta_at g) Hm) with (r := target g Y u) (r' := target g Y u'); auto.
  - intros; apply delta_at_lt; [exact Hg|lia].
  - unfold target. assert (u * (Y (delta_N g - 1)%Z - Y 0%Z) < u' * (Y (delta_N g - 1)%Z - Y 0%Z))%Q by (apply Qmult_lt_compat_r; lra). lra.
Qed.
Theorem C91_defined : forall g table lc,
  grid_ok g -> cdfs_ok g table -> (log_chi_lo g <= lc)%Q -> (lc < log_chi_hi g)%Q -> exists Y, cdf_at g table lc Y.
Proof. intros. now apply cdf_exists. Qed.
(** the second sampling method: the same inversion, linear in chi, on its own grid of fractions *)
Theorem C91_sigmoid : forall g table pow10 grid first lc Y u fuel,
  grid_ok g -> cdfs_ok g table ->
  (forall a b, (a < b)%Q -> (pow10 a < pow10 b)%Q) -> (forall a b, (a == b)%Q -> (pow10 a == pow10 b)%Q) ->
  (forall j k, 0 <= j < k -> k < delta_N g -> (grid j < grid k)%Q) ->
  cdf_at_s g pow10 table lc Y -> (0 <= u)%Q -> (u < 1)%Q -> ~ hits g Y u -> delta_N g <= Z.of_nat fuel ->
  exists x, sample_s g pow10 grid first fuel lc u table = Value x /\
    (grid 0%Z < x)%Q /\ (x < grid (delta_N g - 1)%Z)%Q /\
    (exists h, 0 <= h < delta_N g - 1 /\ (grid h < x)%Q /\ (x < grid (h + 1)%Z)%Q /\
       on_line (grid h) (Y h) (grid (h + 1)%Z) (Y (h + 1)) x (target g Y u)) /\
    (forall j, 0 <= j < delta_N g -> ((x < grid j)%Q <-> (target g Y u < Y j)%Q)).
Proof.
  intros g table pow10 grid first lc Y u fuel Hg Ht Hp Hpe HG Hc U0 U1 Hn Hf.
  destruct (sample_s_ok g Hg table Ht pow10 grid first Hp Hpe HG lc u Y fuel Hc U0 U1 Hn Hf) as (x & E & P).
  destruct (cdf_mono_s g Hg table Ht pow10 grid Hp Hpe HG lc Y Hc) as [Hm Hs].
  exists x. split; [exact E|].
  pose proof (placed_quantile (delta_N g) Y grid Hm HG (target g Y u) x) as Qn.
  pose proof Hg as (_ & HN & _).
  destruct P as (h & Hh & A & B & L) eqn:EP. clear EP.
  destruct (placed_cell (delta_N g) Y grid Hm HG _ x h Hh A B L) as [C D].
  assert (grid 0%Z <= grid h)%Q by (destruct (Z.eq_dec h 0) as [->|]; [lra|apply Qlt_le_weak, HG; lia]).
  assert (grid (h + 1)%Z <= grid (delta_N g - 1)%Z)%Q
    by (destruct (Z.eq_dec (h + 1) (delta_N g - 1)) as [->|]; [lra|apply Qlt_le_weak, HG; lia]).
  split; [lra|]. split; [lra|]. split.
  - exists h. auto.
  - intros j Hj. apply Qn; [exact P|exact Hj].
Qed.

(** ** C92: a random number that meets a tabulated value exactly is never answered *)
Theorem C92_hit_refuted : forall g table lc Y u,
  grid_ok g -> cdfs_ok g table -> cdf_at g table lc Y ->
  (forall j k, 0 <= j < k -> k < delta_N g -> (Y j < Y k)%Q) -> hits g Y u ->
  forall fuel, sample g fuel lc u table = Running.
Proof. intros g table lc Y u Hg Ht Hc Hs Hh fuel. exact (sample_hit g Hg table Ht lc u Y fuel Hc Hs Hh). Qed.
Theorem C92_zero_refuted : forall g table lc Y,
  grid_ok g -> cdfs_ok g table -> cdf_at g table lc Y ->
  (forall j k, 0 <= j < k -> k < delta_N g -> (Y j < Y k)%Q) ->
  forall fuel, sample g fuel lc 0 table = Running.
Proof.
  intros g table lc Y Hg Ht Hc Hs fuel. apply (sample_hit g Hg table Ht lc 0 Y fuel Hc Hs).
  pose proof Hg as (_ & HN & _). exists 0. split; [lia|]. unfold target. ring.
Qed.
(** in every other case the call returns, after at most one pass per tabulated fraction *)
Theorem C92_otherwise_ends : forall g table lc Y u fuel,
  grid_ok g -> cdfs_ok g table -> cdf_at g table lc Y -> (0 <= u)%Q -> (u < 1)%Q -> ~ hits g Y u ->
  delta_N g <= Z.of_nat fuel -> exists x, sample g fuel lc u table = Value x.
Proof.
  intros g table lc Y u fuel Hg Ht Hc U0 U1 Hn Hf.
  destruct (sample_ok g Hg table Ht lc u Y fuel Hc U0 U1 Hn Hf) as (x & E & _). eauto.
Qed.

(** ** C93: an event happens exactly when the depth passed since the last one reaches the drawn threshold *)
Theorem C93_countdown : forall e dr h,
  (forall n, (0 < dr n)%Q) -> never_exact e dr h ->
  length (events e dr h) = length h /\
  forall t st, nth_error h t = Some st ->
    (nth t (events e dr h) false = true <->
     exists d, st = Depth d /\ reached e (threshold dr (events e dr h) t) (passed_by h (events e dr h) t d)).
Proof. intros. now apply events_spec. Qed.
Theorem C93_total : forall e dr h,
  (forall n, (0 < dr n)%Q) -> depths_positive h -> never_exact e dr h ->
  (sum_draws dr (number (events e dr h)) <= total h)%Q.
Proof. intros. now apply total_bound. Qed.

(** ** C94: an electron that meets its threshold exactly does not emit, and draws again *)
Theorem C94_exact_refuted : forall n,
  events ElectronLike (fun _ => 1%Q) (repeat (Depth 1) n) = repeat false n /\
  (total (repeat (Depth 1) n) == inject_Z (Z.of_nat n))%Q.
Proof.
  intro n. split.
  - apply (exact_never n). exists O. now right.
  - induction n as [|n IH]; [reflexivity|]. cbn [repeat total]. rewrite IH.
    rewrite Nat2Z.inj_succ. unfold Z.succ. rewrite inject_Z_plus. change (inject_Z 1) with 1%Q. ring.
Qed.
(** a particle created in the place of one that left has its first event when the one that left has it *)
Theorem C94_inherited_refuted : forall dr dr' h s x,
  tau s = Some x -> (0 < x)%Q ->
  first_event (snd (depth_run PhotonLike dr h (born_in (leave s)))) = first_event (snd (depth_run PhotonLike dr' h s)).
Proof.
  intros dr dr' h s x Hs Hx. apply (first_event_tau PhotonLike dr dr' h _ _ x); auto. intros; discriminate.
Qed.

(** ** C95: chi is defined for every field and every momentum of a particle *)
Theorem C95_chi_defined : forall gamma ex ey ez bx by_ bz ux uy uz,
  (ux * ux + uy * uy + uz * uz <= gamma * gamma)%Q -> ~ (gamma == 0)%Q ->
  (0 <= chi_squared gamma ex ey ez bx by_ bz ux uy uz)%Q.
Proof. exact chi_squared_nonneg. Qed.

(** ** concrete cases *)
Definition ex_grid : table_grid := mkGrid 3 (-1) 1 1 3 (-2) 1.
Definition ex_rates : list Q := [1; 4; 6]%Q.
Definition ex_cdfs : list (list Q) := [[0; 1; 4]; [1; 2; 5]; [2; 3; 8]]%Q.
Example ex_grid_ok : grid_ok ex_grid.
Proof. repeat split; vm_compute; congruence. Qed.
Example ex_cdfs_ok : cdfs_ok ex_grid ex_cdfs.
Proof.
  split; [reflexivity|]. split; [repeat constructor|]. split.
  - intros i j k Hi Hj Hk. change (chi_N ex_grid) with 3 in Hi. change (delta_N ex_grid) with 3 in Hk.
    assert (i = 0 \/ i = 1 \/ i = 2) as [->|[->| ->]] by lia;
    assert (k = 0 \/ k = 1 \/ k = 2) as [->|[->| ->]] by lia;
    assert (j = 0 \/ j = 1 \/ j = 2) as [->|[->| ->]] by lia; try lia; vm_compute; congruence.
  - intros i Hi. change (chi_N ex_grid) with 3 in Hi. assert (i = 0 \/ i = 1 \/ i = 2) as [->|[->| ->]] by lia; reflexivity.
Qed.
Example ex_C89 : exists v, rate ex_grid (1#2) ex_rates = Value v /\ (v == 5)%Q.
Proof. eexists. split; reflexivity. Qed.
(** a fraction with log10 between -1 and 0 *)
Example ex_C91 : exists x, sample ex_grid 3 (1#2) (1#2) ex_cdfs = Value x /\ (x == -5#8)%Q.
Proof. eexists. split; reflexivity. Qed.
Example ex_C92 : sample ex_grid 50 (1#2) 0 ex_cdfs = Running.
Proof. reflexivity. Qed.
Example ex_C93 : events PhotonLike (fun n => inject_Z (Z.of_nat n + 1)) [Depth (1#2); Idle; Depth (3#4); Depth 1; Depth (3#2)]
  = [false; false; true; false; true].
Proof. reflexivity. Qed.
Example ex_C95 : (chi_squared 2 1 0 0 0 0 1 1 1 1 == 9)%Q.
Proof. reflexivity. Qed.

Print Assumptions C89_interpolated.
Print Assumptions C89_at_grid_points.
Print Assumptions C89_below.
Print Assumptions C89_monotone.
Print Assumptions C90_rate_refuted.
Print Assumptions C90_fraction_refuted.
Print Assumptions C91_inverse.
Print Assumptions C91_monotone.
Print Assumptions C91_defined.
Print Assumptions C91_sigmoid.
Print Assumptions C92_hit_refuted.
Print Assumptions C92_zero_refuted.
Print Assumptions C92_otherwise_ends.
Print Assumptions C93_countdown.
Print Assumptions C93_total.
Print Assumptions C94_exact_refuted.
Print Assumptions C94_inherited_refuted.
Print Assumptions C95_chi_defined.
