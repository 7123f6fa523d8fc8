(** C105, C106: what [lambdapic timer-stat] reports about the timers of a run. *)
From Verif Require Import Base M_Timer S_Timer P_Timer.
From Coq Require Import String Ascii QArith Qabs Lqa Permutation.
Local Open Scope list_scope.
Local Open Scope Z_scope.
Local Open Scope string_scope.

(** A simulation with a log file and timers, whatever was on the disk and whatever ran before; then any number of runs
    with any timers.  The statistics of its log file have, for every name, one event for each timer above 0.1 ms. *)
Theorem C105_events : forall f stamp w runs, Forall ordinary (List.concat runs) ->
  exists t, timer_stat f (log_of f stamp w runs) = Some t /\ forall c, count_of c t = events c (filter slow (List.concat runs)).
Proof.
  intros f stamp w runs H. unfold timer_stat. destruct (log_content f stamp w runs) as [_ ->]. destruct (parse_all stamp _ H []) as (t & E & K). exists t. split; [exact E|].
  intro c. destruct (K c) as [_ ->]. reflexivity.
Qed.
(** The reported time of a name differs from the measured one by at most 0.1 ms for each event. *)
Theorem C105_times : forall f stamp w runs, Forall ordinary (List.concat runs) ->
  exists t, timer_stat f (log_of f stamp w runs) = Some t /\ forall c, (Qabs (time_of c t - measured c (List.concat runs)) <= inject_Z (events c (List.concat runs)) * (1 # 10))%Q.
Proof.
  intros f stamp w runs H. unfold timer_stat. destruct (log_content f stamp w runs) as [_ ->]. destruct (parse_all stamp _ H []) as (t & E & K). exists t. split; [exact E|].
  intro c. destruct (K c) as [T _]. assert (time_of c t == sum (map shown_of (filter (named c) (filter is_logged (List.concat runs)))))%Q as ->. { rewrite T. unfold time_of. cbn [find]. apply Qplus_0_l. }
  apply error_bound. eapply Forall_impl; [|exact H]. intros x (_ & X & _). exact X.
Qed.
(** A simulation that is told not to truncate the log file of an earlier one adds to it: the statistics are those of the runs
    of both. *)
Theorem C105_appended : forall f stamp w runs runs2, Forall ordinary (List.concat (runs ++ runs2)) ->
  exists t, timer_stat f (appended_to f stamp (log_of f stamp w runs) runs2) = Some t /\
  forall c, count_of c t = (events c (filter slow (List.concat runs)) + events c (filter slow (List.concat runs2)))%Z /\
    (Qabs (time_of c t - (measured c (List.concat runs) + measured c (List.concat runs2))) <= inject_Z (events c (List.concat (runs ++ runs2))) * (1 # 10))%Q.
Proof.
  intros f stamp w runs runs2 H. unfold timer_stat. rewrite (log_appended f stamp w runs runs2). destruct (parse_all stamp _ H []) as (t & E & K). exists t. split; [exact E|]. intro c. destruct (K c) as [T N]. split.
  - rewrite N. unfold events. rewrite <- Nat2Z.inj_add, <- app_length, <- filter_app, <- filter_app, <- concat_app. reflexivity.
  - assert (time_of c t == sum (map shown_of (filter (named c) (filter is_logged (List.concat (runs ++ runs2))))))%Q as ->. { rewrite T. unfold time_of. cbn [find]. apply Qplus_0_l. }
    assert (measured c (List.concat runs) + measured c (List.concat runs2) == measured c (List.concat (runs ++ runs2)))%Q as ->.
    { rewrite concat_app. unfold measured. rewrite filter_app, map_app. set (a := map t_time _). set (b := map t_time _). clearbody a b. induction a as [|x a IH]; [unfold sum; cbn [fold_right app]; ring|]. change (x + sum a + sum b == x + sum (a ++ b))%Q. rewrite <- IH. ring. }
    apply error_bound. eapply Forall_impl; [|exact H]. intros x (_ & X & _). exact X.
Qed.
(** Several processes write to one file in any order: the order does not matter. *)
Theorem C105_any_order : forall f stamp w ts ts', Forall ordinary ts -> Permutation ts ts' ->
  exists t t', timer_stat f (log_of f stamp w [ts]) = Some t /\ timer_stat f (log_of f stamp w [ts']) = Some t' /\
  forall c, (time_of c t == time_of c t')%Q /\ count_of c t = count_of c t'.
Proof.
  intros f stamp w ts ts' H P. unfold timer_stat. destruct (log_content f stamp w [ts]) as [_ ->]. destruct (log_content f stamp w [ts']) as [_ ->]. cbn [List.concat]. rewrite !app_nil_r.
  assert (Forall ordinary ts') as H' by (eapply Permutation_Forall; eauto).
  destruct (parse_all stamp _ H []) as (t & E & K). destruct (parse_all stamp _ H' []) as (t' & E' & K'). exists t, t'. do 2 (split; [assumption|]). intro c. destruct (K c) as [-> ->]. destruct (K' c) as [-> ->].
  assert (forall p (a b : list timing), Permutation a b -> Permutation (filter p a) (filter p b)) as PF.
  { intros p a b. induction 1; cbn [filter]; try constructor; auto. - destruct (p x); [constructor|]; auto. - destruct (p x), (p y); try constructor; apply Permutation_refl. - eapply perm_trans; eauto. }
  assert (forall a b, Permutation a b -> sum a == sum b)%Q as PS.
  { intros a b. induction 1; cbn [sum fold_right]; try reflexivity. - unfold sum in IHPermutation. rewrite IHPermutation. reflexivity. - ring. - etransitivity; eauto. }
  split.
  - rewrite (PS _ _ (Permutation_map shown_of (PF (named c) _ _ (PF is_logged _ _ P)))). reflexivity.
  - unfold events. rewrite (Permutation_length (PF (named c) _ _ (PF is_logged _ _ P))). reflexivity.
Qed.
(** Whatever the file holds: the averages times the counts are the times, the percentages are the shares of the total,
    and they sum up to 100 unless all times are zero. *)
Theorem C105_shares : forall f w t, timer_stat f w = Some t ->
  (forall c p a, In (c, (p, a)) (rows t) -> (a * inject_Z (count_of c t) == time_of c t)%Q /\ ((0 < total t)%Q -> (p * total t == 100 * time_of c t)%Q)) /\
  ((0 < total t)%Q -> (sum (map (fun r => fst (snd r)) (rows t)) == 100)%Q).
Proof.
  intros f w t E. split; [|apply rows_pct]. intros c p a. unfold timer_stat in E. destruct (w_files w f) as [l|]; [|inversion E; subst; intros []]. apply (row_of l). exact E.
Qed.

(** A run with three events of two names and one below 0.1 ms. *)
Example C105_case : exists t, timer_stat "log" (log_of "log" "2025-01-01 | 00:00" empty_disk [[ms "Interpolation" (7 # 2); ms "sync" (1 # 4)]; [mkTiming 12 (Some "Interpolation") Ms (321 # 10); ms "sync" (1 # 20)]]) = Some t /\
  rows t <> [] /\ (time_of "Interpolation" t == 356 # 10)%Q /\ count_of "Interpolation" t = 2 /\ (time_of "sync" t == 3 # 10)%Q /\ count_of "sync" t = 1.
Proof. eexists. split; [vm_compute; reflexivity|]. vm_compute. repeat split; try reflexivity. discriminate. Qed.
Example C105_ordinary : Forall ordinary [ms "Interpolation" (7 # 2); ms "it took" (1 # 4)].
Proof.
  repeat constructor; try (cbn; lra); cbn; try lia; try discriminate; eexists; (split; [reflexivity|]); split; try discriminate; split; cbn; try (intros c H; repeat destruct H as [<-|H]; try contradiction; repeat split; discriminate).
  - intros (a & b & H). do 14 (destruct a as [|? a]; [discriminate|]; cbn in H; inversion H as [H']; clear H; rename H' into H; try discriminate).
  - intros (a & b & H). do 8 (destruct a as [|? a]; [discriminate|]; cbn in H; inversion H as [H']; clear H; rename H' into H; try discriminate).
Qed.

(** ** What is not counted, or is counted wrongly *)
(** Timers with another unit leave no trace in the statistics, *)
Theorem C106_units_refuted : exists t, timer_stat "log" (log_of "log" "" empty_disk [[mkTiming 0 (Some "load") Sec 40; mkTiming 0 (Some "sort") Us 500; mkTiming 0 (Some "x") Ns 900; ms "push" 1]]) = Some t /\ map fst t = ["push"].
Proof. eexists. split; vm_compute; reflexivity. Qed.
(** nor do timers without a name; *)
Theorem C106_unnamed_refuted : timer_stat "log" (log_of "log" "" empty_disk [[mkTiming 0 None Ms 40]]) = Some [].
Proof. vm_compute. reflexivity. Qed.
(** a name with a bar is lost as well, *)
Theorem C106_bar_refuted : timer_stat "log" (log_of "log" "" empty_disk [[ms "a|b" 40]]) = Some [].
Proof. vm_compute. reflexivity. Qed.
(** and one that contains the time of something else is counted under another name with that time. *)
Theorem C106_took_refuted : exists t, timer_stat "log" (log_of "log" "" empty_disk [[ms "push took 5ms, sort" 40]]) = Some t /\ map fst t = ["push"] /\ (time_of "push" t == 5)%Q.
Proof. eexists. split; [vm_compute; reflexivity|]. vm_compute. auto. Qed.
(** Many short events are reported as no time at all: the bound of [C105_times] is reached. *)
Theorem C106_short_refuted : forall n, exists t, timer_stat "log" (log_of "log" "" empty_disk [repeat (ms "push" (1 # 10)) n]) = Some t /\ t = [] /\ (measured "push" (repeat (ms "push" (1 # 10)) n) == inject_Z (Z.of_nat n) * (1 # 10))%Q.
Proof.
  intro n. exists []. unfold timer_stat. destruct (log_content "log" "" empty_disk [repeat (ms "push" (1 # 10)) n]) as [_ ->]. cbn [List.concat]. rewrite app_nil_r.
  assert (filter is_logged (repeat (ms "push" (1 # 10)) n) = []) as -> by (induction n; [reflexivity|exact IHn]). split; [reflexivity|]. split; [reflexivity|].
  induction n as [|n IH]; [reflexivity|]. rewrite Nat2Z.inj_succ. unfold Z.succ. rewrite inject_Z_plus. change (measured "push" (repeat (ms "push" (1 # 10)) (S n))) with ((1 # 10) + measured "push" (repeat (ms "push" (1 # 10)) n))%Q.
  rewrite IH. change (inject_Z 1) with 1%Q. ring.
Qed.
(** "Total TIMER events" is the number of names. *)
Theorem C106_total_events_refuted : exists t, timer_stat "log" (log_of "log" "" empty_disk [[ms "push" 1; ms "push" 2; ms "push" 3]]) = Some t /\ count_of "push" t = 3 /\ printed_events t = 1.
Proof. eexists. split; [vm_compute; reflexivity|]. vm_compute. auto. Qed.
(** A run without timers after one with timers and the same log file: the statistics are those of the old run, though
    the log itself was truncated. *)
Theorem C106_old_file_refuted : exists t,
  timer_stat "log" (run_timers "" [ms "new" 9] (construct (mkCfg (Some "log") true false) (log_of "log" "" empty_disk [[ms "old" 1]]))) = Some t /\ map fst t = ["old"].
Proof. eexists. split; vm_compute; reflexivity. Qed.
(** Two simulations in one process: the timers of the first go to the file of the second, *)
Theorem C106_second_simulation_refuted : exists t t', let w := log_of "second" "" (construct (mkCfg (Some "first") true true) empty_disk) [[ms "step of the first" 1]] in
  timer_stat "first" w = Some t /\ timer_stat "second" w = Some t' /\ t = [] /\ map fst t' = ["step of the first"].
Proof. eexists. eexists. cbn zeta. split; [vm_compute; reflexivity|]. split; [vm_compute; reflexivity|]. split; reflexivity. Qed.
(** or nowhere, if the second one has no timers. *)
Theorem C106_switched_off_refuted :
  timer_stat "first" (run_timers "" [ms "step of the first" 1] (construct (mkCfg (Some "second") true false) (construct (mkCfg (Some "first") true true) empty_disk))) = Some [].
Proof. vm_compute. reflexivity. Qed.

Print Assumptions C105_events.
Print Assumptions C105_times.
Print Assumptions C105_appended.
Print Assumptions C105_any_order.
Print Assumptions C105_shares.
Print Assumptions C106_units_refuted.
Print Assumptions C106_unnamed_refuted.
Print Assumptions C106_bar_refuted.
Print Assumptions C106_took_refuted.
Print Assumptions C106_short_refuted.
Print Assumptions C106_total_events_refuted.
Print Assumptions C106_old_file_refuted.
Print Assumptions C106_second_simulation_refuted.
Print Assumptions C106_switched_off_refuted.
