(** Proofs about the run loop, continued: callback schedule of whole runs, runs in pieces, restart. *)
From Verif Require Import Base M_Checkpoint S_Checkpoint P_Checkpoint M_RunLoop S_RunLoop P_RunLoop.
From Coq Require Import QArith Qround Qreduction String Lqa.
Local Open Scope string_scope.
Local Open Scope list_scope.
Local Open Scope Z_scope.

(** ** rational arithmetic of time intervals *)
Lemma Qred_step j d : Qred (Qred (inject_Z j * d) + d) = Qred (inject_Z (j + 1) * d).
Proof. apply Qred_complete. rewrite Qred_correct, inject_Z_plus. ring. Qed.
Lemma qltb_spec a b : qltb a b = true <-> (a < b)%Q.
Proof.
  unfold qltb. rewrite negb_true_iff, <- not_true_iff_false, Qle_bool_iff. split; intro H; [now apply Qnot_le_lt|now apply Qlt_not_le].
Qed.
Lemma floor_bounds a x : (0 < x -> inject_Z (Qfloor (a / x)) * x <= a /\ a < inject_Z (Qfloor (a / x)) * x + x)%Q.
Proof.
  intro Hx. pose proof (Qfloor_le (a / x)) as H1. pose proof (Qlt_floor (a / x)) as H2.
  assert (E : (a / x * x == a)%Q) by (field; intro E; rewrite E in Hx; now apply (Qlt_irrefl 0)).
  split.
  - rewrite <- E at 2. apply Qmult_le_compat_r; [auto|lra].
  - rewrite inject_Z_plus in H2. apply (Qmult_lt_r _ _ x Hx) in H2. change (inject_Z 1) with 1%Q in H2. rewrite E in H2. lra.
Qed.
Lemma inject_mul_lt m n x : (0 < x)%Q -> (inject_Z m * x < inject_Z n * x)%Q -> m < n.
Proof. intros Hx H. apply Qmult_lt_r in H; auto. now rewrite <- Zlt_Qlt in H. Qed.

Lemma float_trigger x d j : (0 < d)%Q -> (0 < x)%Q ->
  qltb (qmod (Qred (inject_Z j * d)) x) d = true <-> due_float x d j.
Proof.
  intros Hd Hx. rewrite qltb_spec. unfold qmod, due_float.
  set (a := (inject_Z j * d)%Q).
  assert (F : Qfloor (Qred a / x) = Qfloor (a / x)) by (apply Qfloor_comp; now rewrite Qred_correct).
  rewrite F. pose proof (floor_bounds a x Hx) as [B1 B2]. set (f := Qfloor (a / x)) in *.
  pose proof (Qred_correct a) as R.
  split.
  - intro H. exists f. split; auto. rewrite R in H. lra.
  - intros (m & M1 & M2). rewrite R.
    destruct (Z_le_gt_dec m f) as [Hm|Hm].
    + assert (inject_Z m * x <= inject_Z f * x)%Q by (apply Qmult_le_compat_r; [rewrite <- Zle_Qle; auto|lra]). lra.
    + assert (inject_Z (f + 1) * x <= inject_Z m * x)%Q by (apply Qmult_le_compat_r; [rewrite <- Zle_Qle; lia|lra]).
      rewrite inject_Z_plus in H. change (inject_Z 1) with 1%Q in H. lra.
Qed.

Lemma once_per_period x d m : (0 < d)%Q -> (d <= x)%Q -> 0 <= m ->
  exists j, 0 <= j /\ (inject_Z m * x <= inject_Z j * d /\ inject_Z j * d < inject_Z (m + 1) * x)%Q /\ due_float x d j /\
  forall j', (inject_Z m * x <= inject_Z j' * d /\ inject_Z j' * d < inject_Z (m + 1) * x)%Q -> due_float x d j' -> j' = j.
Proof.
  intros Hd Hx Hm. assert (Hx0 : (0 < x)%Q) by lra.
  set (j := Qceiling (inject_Z m * x / d)).
  assert (E : (inject_Z m * x / d * d == inject_Z m * x)%Q) by (field; lra).
  assert (J1 : (inject_Z m * x <= inject_Z j * d)%Q).
  { rewrite <- E. apply Qmult_le_compat_r; [apply Qle_ceiling|lra]. }
  assert (J2 : (inject_Z j * d < inject_Z m * x + d)%Q).
  { pose proof (Qceiling_lt (inject_Z m * x / d)) as H. fold j in H.
    apply (Qmult_lt_r _ _ d Hd) in H. rewrite E in H. 
    assert (E1 : (inject_Z (j - 1) == inject_Z j - 1)%Q) by (unfold Z.sub; rewrite inject_Z_plus; reflexivity).
    rewrite E1 in H. lra. }
  assert (P1 : (inject_Z (m + 1) * x == inject_Z m * x + x)%Q) by (rewrite inject_Z_plus; change (inject_Z 1) with 1%Q; ring).
  exists j. split; [|split; [|split]].
  - assert (0 <= inject_Z m * x)%Q.
    { apply Qmult_le_0_compat; [change 0%Q with (inject_Z 0); rewrite <- Zle_Qle; lia|lra]. }
    destruct (Z_le_gt_dec 0 j); auto. exfalso.
    assert (inject_Z j * d < inject_Z 0 * d)%Q by (apply Qmult_lt_r; auto; rewrite <- Zlt_Qlt; lia).
    change (inject_Z 0) with 0%Q in H0. lra.
  - split; lra.
  - exists m. split; lra.
  - intros j' [A1 A2] (n & N1 & N2).
    assert (P2 : (inject_Z (n + 1) * x == inject_Z n * x + x)%Q) by (rewrite inject_Z_plus; change (inject_Z 1) with 1%Q; ring).
    assert (n < m + 1) by (apply (inject_mul_lt _ _ x); auto; lra).
    assert (m < n + 1) by (apply (inject_mul_lt _ _ x); auto; lra).
    assert (n = m) by lia. subst n.
    assert (K : forall a b : Z, (inject_Z a * d < inject_Z b * d + d)%Q -> a < b + 1).
    { intros a b H1. apply (inject_mul_lt _ _ d); auto. rewrite inject_Z_plus. change (inject_Z 1) with 1%Q. lra. }
    assert (j < j' + 1) by (apply K; lra). assert (j' < j + 1) by (apply K; lra). lia.
Qed.
Lemma short_interval_always x d j : (0 < x)%Q -> (x <= d)%Q -> due_float x d j.
Proof.
  intros Hx Hd. exists (Qfloor (inject_Z j * d / x)). pose proof (floor_bounds (inject_Z j * d) x Hx) as [A B]. split; lra.
Qed.

Section P2.
Context {P : Type}.
Variable c : config P.

Lemma zrange_S a k : zrange a (S k) = a :: zrange (a + 1) k.
Proof.
  unfold zrange. cbn [seq map]. f_equal; [lia|]. rewrite <- seq_shift, map_map. apply map_ext. intros; lia.
Qed.
Lemma zrange_snoc a k : zrange a (S k) = zrange a k ++ [a + Z.of_nat k].
Proof. unfold zrange. now rewrite seq_S, map_app. Qed.

(** ** the clock *)
Lemma step_clock t fused w w' : step c t fused w = Ok w' ->
  itime (w_sim w') = itime (w_sim w) /\ time (w_sim w') = time (w_sim w).
Proof.
  intro E. assert (H : good (grows (fun _ => True)) (step c t fused)) by (apply step_grows; auto).
  apply H in E. destruct E as (A & B & _). auto.
Qed.
Lemma step_clock_ok t fused w w' : clock_ok c w -> step c t fused w = Ok w' -> clock_ok c (advance_w c w').
Proof.
  intros Hc E. apply step_clock in E. destruct E as [E1 E2]. unfold clock_ok, advance_w, advance in *. cbn.
  rewrite E1, E2, Hc. apply Qred_step.
Qed.
Lemma advance_time t fused w w' : clock_ok c w -> step c t fused w = Ok w' ->
  time (advance c (w_sim w')) = Qred (inject_Z (itime (w_sim w') + 1) * dt c).
Proof. intros H E. apply (step_clock_ok t fused w w' H E). Qed.

(** ** executed steps of a run *)
Definition out_world (o : outcome) : option (world P) :=
  match o with Finished w | StoppedByCallback w | Dumped w => Some w | Raised _ => None end.

Variable stop : sim P -> bool.
Variable signal : Z -> bool.

Lemma steps_calls t fused rcb st cb k : forall w o w',
  step_stage st -> (forall s, s <> st -> ~ In (cb_id cb) (map cb_id (t s))) ->
  NoDup (map cb_id (t st)) -> In cb (t st) -> clocked (interval_of cb) -> clock_ok c w ->
  steps c stop signal k t fused rcb w = o -> (o = Finished w' \/ o = StoppedByCallback w') ->
  let n := Z.to_nat (itime (w_sim w') - itime (w_sim w)) in
  itime (w_sim w) <= itime (w_sim w') /\ (o = Finished w' -> n = k) /\
  calls_of (cb_id cb) (w_log w') = calls_of (cb_id cb) (w_log w) ++
    map (fun j => mkEv j st (cb_id cb))
      (filter (fun j => triggered (dt c) (mkSim j (Qred (inject_Z j * dt c)) None (rest (w_sim w))) (interval_of cb))
         (zrange (itime (w_sim w)) n)).
Proof.
  induction k as [|k IH]; intros w o w' Hst Habs HN Hin HC Hck E Ho; cbn [steps] in E.
  - subst o. destruct Ho as [Ho|Ho]; [|discriminate]. injection Ho as <-. cbv zeta. rewrite Z.sub_diag. cbn. now rewrite app_nil_r.
  - destruct (step c t fused w) as [w1|] eqn:E1; [|subst o; destruct Ho; discriminate].
    pose proof (step_calls c t fused st cb w w1 Hst Habs HN Hin HC E1) as (A & B & D).
    destruct (if signal (itime (w_sim w1)) then rcb else None); [subst o; destruct Ho; discriminate|].
    assert (Hck2 : clock_ok c (advance_w c w1)) by (eapply step_clock_ok; eauto).
    assert (T : triggered (dt c) (w_sim w) (interval_of cb) =
                triggered (dt c) (mkSim (itime (w_sim w)) (Qred (inject_Z (itime (w_sim w)) * dt c)) None (rest (w_sim w))) (interval_of cb)).
    { apply clocked_trig; auto. }
    destruct (stop (w_sim (advance_w c w1))).
    + subst o. destruct Ho as [Ho|Ho]; [discriminate|]. injection Ho as <-. cbv zeta.
      cbn [advance_w advance w_sim itime w_log]. rewrite A.
      replace (Z.to_nat (itime (w_sim w) + 1 - itime (w_sim w))) with 1%nat by lia.
      split; [lia|]. split; [discriminate|]. rewrite D. f_equal. rewrite zrange_S. cbn [zrange seq map filter].
      rewrite <- T. clear. destruct (triggered _ _ _); reflexivity.
    + destruct (IH _ _ _ Hst Habs HN Hin HC Hck2 E Ho) as (I1 & I2 & I3).
      cbn [advance_w advance w_sim itime w_log rest] in I1, I2, I3. rewrite A in *. cbv zeta.
      set (n := Z.to_nat (itime (w_sim w') - (itime (w_sim w) + 1))) in *.
      replace (Z.to_nat (itime (w_sim w') - itime (w_sim w))) with (S n) by lia.
      split; [lia|]. split; [intro H; specialize (I2 H); lia|].
      rewrite I3, D, <- app_assoc. f_equal. rewrite zrange_S. cbn [filter]. rewrite <- T.
      assert (Fe : forall l, filter (fun j => triggered (dt c) (mkSim j (Qred (inject_Z j * dt c)) None (rest (w_sim w1))) (interval_of cb)) l =
                   filter (fun j => triggered (dt c) (mkSim j (Qred (inject_Z j * dt c)) None (rest (w_sim w))) (interval_of cb)) l).
      { intro l. apply filter_ext. intro j. now apply clocked_trig. }
      rewrite Fe. clear. destruct (triggered _ (w_sim w) _); reflexivity.
Qed.

Lemma filter_nodup_ids (l : list (callback P)) f : NoDup (map cb_id l) -> NoDup (map cb_id (filter f l)).
Proof.
  induction l as [|x l IH]; cbn [map filter]; intro H; [constructor|]. inversion H as [|? ? N1 N2]; subst.
  destruct (f x); cbn [map]; auto. constructor; auto. intro Hi. apply N1. apply in_map_iff in Hi. destruct Hi as (y & E & Hy).
  apply filter_In in Hy. rewrite <- E. now apply in_map.
Qed.
Lemma unique_other cbs (cb : callback P) s : unique_ids cbs -> In cb cbs -> s <> stage_of cb ->
  ~ In (cb_id cb) (map cb_id (filter (fun x => (s =? stage_of x)%string) cbs)).
Proof.
  intros HN Hi Hs H. apply in_map_iff in H. destruct H as (x & Ex & Hx). apply filter_In in Hx. destruct Hx as [Hx Hsx].
  apply String.eqb_eq in Hsx.
  assert (x = cb); [|subst; congruence]. unfold unique_ids in HN. clear - HN Hi Hx Ex.
  induction cbs as [|y l IH]; [destruct Hx|]. cbn [map] in HN. inversion HN as [|? ? N1 N2]; subst.
  destruct Hx as [->|Hx], Hi as [->|Hi]; auto.
  - exfalso. apply N1. rewrite Ex. now apply in_map.
  - exfalso. apply N1. rewrite <- Ex. now apply in_map.
Qed.

Lemma run_calls choose cbs nsteps sim_time w o w' cb :
  run_with c stop signal choose cbs nsteps sim_time w = o -> (o = Finished w' \/ o = StoppedByCallback w') ->
  unique_ids cbs -> In cb cbs -> step_stage (stage_of cb) -> clocked (interval_of cb) -> clock_ok c w ->
  let n := Z.to_nat (itime (w_sim w') - itime (w_sim w)) in
  itime (w_sim w) <= itime (w_sim w') /\
  calls_of (cb_id cb) (w_log w') = calls_of (cb_id cb) (w_log w) ++
    map (fun j => mkEv j (stage_of cb) (cb_id cb))
      (filter (fun j => triggered (dt c) (mkSim j (Qred (inject_Z j * dt c)) None (rest (w_sim w))) (interval_of cb))
         (zrange (itime (w_sim w)) n)).
Proof.
  intros E Ho HU Hin Hst HC Hck. unfold run_with in E.
  destruct (register cbs) as [t|] eqn:ER; [|subst o; destruct Ho; discriminate].
  apply register_ok in ER. destruct ER as [ET EV].
  destruct (run_stage c t "init" w) as [w0|] eqn:EI; [|subst o; destruct Ho; discriminate].
  assert (Hne : forall s, In s ["init"; "final"] -> s <> stage_of cb).
  { intros s Hs Es. rewrite <- Es in Hst. unfold step_stage in Hst. cbn in Hst, Hs. intuition congruence. }
  assert (Q0 : quiet (cb_id cb) w w0).
  { apply (quiet_stage c (cb_id cb) t "init"); auto. rewrite ET. apply unique_other; auto. apply Hne; cbn; tauto. }
  destruct Q0 as (Q1 & Q2 & Q3).
  destruct (handle_nsteps c nsteps sim_time (itime (w_sim w0))) as [total|]; [|subst o; destruct Ho; discriminate].
  assert (Hck0 : clock_ok c w0) by (unfold clock_ok in *; rewrite Q1, Q2; auto).
  assert (Habs : forall s, s <> stage_of cb -> ~ In (cb_id cb) (map cb_id (t s))).
  { intros s Hs. rewrite ET. now apply unique_other. }
  assert (HNt : NoDup (map cb_id (t (stage_of cb)))) by (rewrite ET; now apply filter_nodup_ids).
  assert (Hint : In cb (t (stage_of cb))) by (rewrite ET; apply filter_In; split; auto; apply String.eqb_refl).
  set (k := Z.to_nat (total - itime (w_sim w0))) in *.
  assert (Rw : forall n, filter (fun j => triggered (dt c) (mkSim j (Qred (inject_Z j * dt c)) None (rest (w_sim w0))) (interval_of cb)) n =
               filter (fun j => triggered (dt c) (mkSim j (Qred (inject_Z j * dt c)) None (rest (w_sim w))) (interval_of cb)) n).
  { intro l. apply filter_ext. intro j. now apply clocked_trig. }
  destruct (steps c stop signal k t (choose t) (restart_cb cbs) w0) as [w1|w1|w1|e] eqn:ES.
  - destruct (run_stage c t "final" w1) as [w2|] eqn:EF; [|subst o; destruct Ho; discriminate].
    subst o. destruct Ho as [Ho|Ho]; [|discriminate]. injection Ho as <-.
    assert (QF : quiet (cb_id cb) w1 w2).
    { apply (quiet_stage c (cb_id cb) t "final"); auto. apply Habs. apply Hne; cbn; tauto. }
    destruct QF as (F1 & F2 & F3).
    destruct (steps_calls t (choose t) (restart_cb cbs) (stage_of cb) cb k w0 _ w1 Hst Habs HNt Hint HC Hck0 ES (or_introl eq_refl)) as (S1 & S2 & S3).
    rewrite F1, F3, S3, Q3, Rw, Q1 in *. split; auto.
  - subst o. destruct Ho as [Ho|Ho]; [discriminate|]. injection Ho as <-.
    destruct (steps_calls t (choose t) (restart_cb cbs) (stage_of cb) cb k w0 _ w1 Hst Habs HNt Hint HC Hck0 ES (or_intror eq_refl)) as (S1 & S2 & S3).
    rewrite S3, Q3, Rw, Q1 in *. split; auto.
  - subst o; destruct Ho; discriminate.
  - subst o; destruct Ho; discriminate.
Qed.
End P2.
