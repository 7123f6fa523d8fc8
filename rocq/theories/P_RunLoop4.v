(** Proofs about the run loop: the callback schedule in the form of C20. *)
From Verif Require Import Base M_Checkpoint S_Checkpoint P_Checkpoint M_RunLoop S_RunLoop P_RunLoop P_RunLoop2 P_RunLoop3.
From Coq Require Import QArith Qreduction String Sorting.Sorted Lqa.
Local Open Scope string_scope.
Local Open Scope list_scope.
Local Open Scope Z_scope.

Lemma zrange_in a k j : In j (zrange a k) <-> a <= j < a + Z.of_nat k.
Proof.
  unfold zrange. rewrite in_map_iff. split.
  - intros (i & <- & H). apply in_seq in H. lia.
  - intro H. exists (Z.to_nat (j - a)). split; [lia|]. apply in_seq. lia.
Qed.
Lemma zrange_sorted k : forall a, StronglySorted Z.lt (zrange a k).
Proof.
  induction k as [|k IH]; intro a; [constructor|]. rewrite zrange_S. constructor; auto.
  apply Forall_forall. intros j Hj. apply zrange_in in Hj. lia.
Qed.
Lemma SS_filter {A} (R : A -> A -> Prop) f l : StronglySorted R l -> StronglySorted R (filter f l).
Proof.
  induction 1 as [|x l H IH HF]; cbn [filter]; [constructor|]. destruct (f x); auto. constructor; auto.
  rewrite Forall_forall in *. intros y Hy. apply HF. now apply filter_In in Hy.
Qed.

Section P4.
Context {P : Type}.
Variable c : config P.
Variable stop : sim P -> bool.
Variable signal : Z -> bool.

(** ** integer and time intervals *)
Lemma run_calls_int choose cbs nsteps sim_time w o w' cb n :
  run_with c stop signal choose cbs nsteps sim_time w = o -> (o = Finished w' \/ o = StoppedByCallback w') ->
  unique_ids cbs -> In cb cbs -> step_stage (stage_of cb) -> interval_of cb = IInt n -> clock_ok c w ->
  calls_of (cb_id cb) (w_log w') = calls_of (cb_id cb) (w_log w) ++
    map (fun j => mkEv j (stage_of cb) (cb_id cb))
      (filter (due_int n) (zrange (itime (w_sim w)) (Z.to_nat (itime (w_sim w') - itime (w_sim w))))).
Proof.
  intros E Ho HU Hi Hs Hiv Hc. assert (HC : clocked (interval_of cb)) by now rewrite Hiv.
  destruct (run_calls c stop signal choose cbs nsteps sim_time w o w' cb E Ho HU Hi Hs HC Hc) as [_ H].
  rewrite H, Hiv. reflexivity.
Qed.
Lemma run_calls_float choose cbs nsteps sim_time w o w' cb x :
  run_with c stop signal choose cbs nsteps sim_time w = o -> (o = Finished w' \/ o = StoppedByCallback w') ->
  unique_ids cbs -> In cb cbs -> step_stage (stage_of cb) -> interval_of cb = IFloat x -> clock_ok c w ->
  (0 < dt c)%Q -> (0 < x)%Q ->
  exists js, calls_of (cb_id cb) (w_log w') = calls_of (cb_id cb) (w_log w) ++ map (fun j => mkEv j (stage_of cb) (cb_id cb)) js /\
  StronglySorted Z.lt js /\
  (forall j, In j js <-> (itime (w_sim w) <= j < itime (w_sim w') /\ due_float x (dt c) j)) /\
  ((dt c <= x)%Q -> forall m, 0 <= m ->
     (inject_Z (itime (w_sim w)) * dt c <= inject_Z m * x)%Q -> (inject_Z (m + 1) * x <= inject_Z (itime (w_sim w')) * dt c)%Q ->
     exists j, In j js /\ (inject_Z m * x <= inject_Z j * dt c /\ inject_Z j * dt c < inject_Z (m + 1) * x)%Q /\
     forall j', In j' js -> (inject_Z m * x <= inject_Z j' * dt c /\ inject_Z j' * dt c < inject_Z (m + 1) * x)%Q -> j' = j).
Proof.
  intros E Ho HU Hi Hs Hiv Hc Hd Hx. assert (HC : clocked (interval_of cb)) by now rewrite Hiv.
  destruct (run_calls c stop signal choose cbs nsteps sim_time w o w' cb E Ho HU Hi Hs HC Hc) as [Hle H].
  rewrite Hiv in H. cbn [triggered time] in H.
  set (js := filter (fun j => qltb (qmod (Qred (inject_Z j * dt c)) x) (dt c))
         (zrange (itime (w_sim w)) (Z.to_nat (itime (w_sim w') - itime (w_sim w))))) in *.
  assert (Hin : forall j, In j js <-> (itime (w_sim w) <= j < itime (w_sim w') /\ due_float x (dt c) j)).
  { intro j. unfold js. rewrite filter_In, zrange_in, float_trigger by auto. split; intros [A B]; split; auto; lia. }
  exists js. split; [exact H|]. split; [apply SS_filter, zrange_sorted|]. split; [exact Hin|].
  intros Hdx m Hm Hlo Hhi. destruct (once_per_period x (dt c) m Hd Hdx Hm) as (j & J0 & [J1 J2] & J3 & J4).
  exists j. split; [|split].
  - apply Hin. split; auto. split.
    + assert (itime (w_sim w) < j + 1); [|lia]. apply (inject_mul_lt _ _ (dt c)); auto.
      rewrite inject_Z_plus. change (inject_Z 1) with 1%Q. lra.
    + apply (inject_mul_lt _ _ (dt c)); auto. lra.
  - auto.
  - intros j' Hj' B. apply J4; auto. now apply Hin in Hj'.
Qed.

(** ** every call is due and at its own stage *)
Definition called_ok (t : table P) (w : world P) (e : event) : Prop :=
  exists cb, In cb (t (ev_stage e)) /\ cb_id cb = ev_cb e /\ ev_step e = itime (w_sim w) /\
    (clocked (interval_of cb) -> triggered (dt c) (w_sim w) (interval_of cb) = true).
Definition fires (t : table P) (w w' : world P) : Prop :=
  itime (w_sim w') = itime (w_sim w) /\ time (w_sim w') = time (w_sim w) /\
  exists l, w_log w' = w_log w ++ l /\ Forall (called_ok t w) l.
Lemma fires_same t w w' : itime (w_sim w') = itime (w_sim w) -> time (w_sim w') = time (w_sim w) -> w_log w' = w_log w -> fires t w w'.
Proof. intros A B D. split; auto. split; auto. exists []. split; [now rewrite app_nil_r|constructor]. Qed.
Lemma fires_refl t w : fires t w w.
Proof. now apply fires_same. Qed.
Lemma fires_trans t a b d : fires t a b -> fires t b d -> fires t a d.
Proof.
  intros (A1 & A2 & l & A3 & A4) (B1 & B2 & m & B3 & B4). split; [congruence|]. split; [congruence|].
  exists (l ++ m). split; [now rewrite B3, A3, app_assoc|]. apply Forall_app. split; auto.
  eapply Forall_impl; [|exact B4]. intros e (cb & H1 & H2 & H3 & H4). exists cb. split; auto. split; auto. split; [congruence|].
  intro HC. rewrite (clocked_trig c _ (w_sim a) (w_sim b)) by (auto; congruence). auto.
Qed.
Lemma fires_stage t s : good (fires t) (run_stage c t s).
Proof.
  apply good_seq; [apply fires_refl|apply fires_trans|]. apply Forall_forall. intros f Hf.
  apply in_map_iff in Hf. destruct Hf as (cb & <- & Hcb). intros w w' E.
  destruct (call_cb_grows c _ _ _ _ E) as (A1 & A2 & A3). split; auto. split; auto. eexists. split; [exact A3|].
  destruct (triggered _ _ _) eqn:T; repeat constructor. exists cb. cbn. auto.
Qed.
Lemma fires_step t fused : good (fires t) (step c t fused).
Proof.
  apply G_step.
  - apply good_ext.
  - apply good_seq; [apply fires_refl|apply fires_trans].
  - intros; now apply good_if.
  - apply good_ok, fires_refl.
  - intros o w w' E. injection E as <-. now apply fires_same.
  - intros o w w' E. injection E as <-. now apply fires_same.
  - intros; apply fires_stage.
Qed.
Lemma fires_due t w w' : fires t w w' -> clock_ok c w -> (0 < dt c)%Q ->
  (forall s, t s = filter (fun cb => (s =? stage_of cb)%string) (t s)) ->
  exists l, w_log w' = w_log w ++ l /\
  Forall (fun e => exists cb, In cb (t (ev_stage e)) /\ cb_id cb = ev_cb e /\ stage_of cb = ev_stage e /\ due (dt c) (ev_step e) cb) l.
Proof.
  intros (_ & _ & l & L & F) Hc Hd Ht. exists l. split; auto. eapply Forall_impl; [|exact F].
  intros e (cb & H1 & H2 & H3 & H4). exists cb. split; auto. split; auto. split.
  - rewrite Ht in H1. apply filter_In in H1. destruct H1 as [_ H1]. apply String.eqb_eq in H1. auto.
  - unfold due. destruct (interval_of cb) as [n|x|f|] eqn:Hiv; auto.
    + specialize (H4 I). cbn [triggered] in H4. rewrite H3. lia.
    + intro Hx. specialize (H4 I). cbn [triggered] in H4. rewrite H3. apply float_trigger; auto. now rewrite Hc in H4.
Qed.
Lemma filter_idem {A} (f : A -> bool) l : filter f (filter f l) = filter f l.
Proof. induction l as [|x l IH]; cbn [filter]; auto. destruct (f x) eqn:E; cbn [filter]; rewrite ?E, ?IH; auto. Qed.

Lemma steps_due t fused rcb k : forall w w', (0 < dt c)%Q ->
  (forall s, t s = filter (fun cb => (s =? stage_of cb)%string) (t s)) -> clock_ok c w ->
  out_world (steps c stop signal k t fused rcb w) = Some w' ->
  exists l, w_log w' = w_log w ++ l /\
  Forall (fun e => exists cb, In cb (t (ev_stage e)) /\ cb_id cb = ev_cb e /\ stage_of cb = ev_stage e /\ due (dt c) (ev_step e) cb) l.
Proof.
  induction k as [|k IH]; intros w w' Hd Ht Hc E; cbn [steps] in E.
  - cbn in E. injection E as <-. exists []. split; [now rewrite app_nil_r|constructor].
  - destruct (step c t fused w) as [w1|] eqn:E1; [|discriminate].
    pose proof (fires_step t fused w w1 E1) as F. destruct (fires_due t w w1 F Hc Hd Ht) as (l & L1 & L2).
    destruct (if signal (itime (w_sim w1)) then rcb else None) as [keep|].
    + cbn in E. injection E as <-. exists l. split; auto.
    + cbv zeta in E. destruct (stop _); [cbn in E; injection E as <-; exists l; split; auto|].
      apply IH in E; auto; [|eapply step_clock_ok; eauto]. destruct E as (m & M1 & M2). cbn in M1.
      exists (l ++ m). split; [now rewrite M1, L1, app_assoc|]. apply Forall_app; auto.
Qed.
Lemma run_due choose cbs nsteps sim_time w w' :
  out_world (run_with c stop signal choose cbs nsteps sim_time w) = Some w' -> clock_ok c w -> (0 < dt c)%Q ->
  exists l, w_log w' = w_log w ++ l /\
  Forall (fun e => exists cb, In cb cbs /\ cb_id cb = ev_cb e /\ stage_of cb = ev_stage e /\ due (dt c) (ev_step e) cb) l.
Proof.
  intros E Hc Hd. unfold run_with in E. destruct (register cbs) as [t|] eqn:ER; [|discriminate].
  pose proof (register_ok _ _ ER) as [ET _].
  assert (Ht : forall s, t s = filter (fun cb => (s =? stage_of cb)%string) (t s)).
  { intro s. rewrite ET. symmetry. apply filter_idem. }
  assert (X : forall l, Forall (fun e => exists cb, In cb (t (ev_stage e)) /\ cb_id cb = ev_cb e /\ stage_of cb = ev_stage e /\ due (dt c) (ev_step e) cb) l ->
          Forall (fun e => exists cb, In cb cbs /\ cb_id cb = ev_cb e /\ stage_of cb = ev_stage e /\ due (dt c) (ev_step e) cb) l).
  { intros l H. eapply Forall_impl; [|exact H]. intros e (cb & A & B). exists cb. split; auto. rewrite ET in A. now apply filter_In in A. }
  destruct (run_stage c t "init" w) as [w0|] eqn:EI; [|discriminate].
  pose proof (fires_stage t "init" w w0 EI) as F0. destruct (fires_due t w w0 F0 Hc Hd Ht) as (l0 & L0 & L0').
  destruct F0 as (I1 & I2 & _). assert (Hc0 : clock_ok c w0) by (unfold clock_ok in *; rewrite I1, I2; auto).
  destruct (handle_nsteps _ _ _ _) as [total|]; [|discriminate].
  set (k := Z.to_nat (total - itime (w_sim w0))) in *.
  pose proof (steps_due t (choose t) (restart_cb cbs) k w0) as HS.
  destruct (steps c stop signal k t (choose t) (restart_cb cbs) w0) as [w1|w1|w1|e] eqn:ES; cbn [out_world] in HS; [|..|discriminate].
  - destruct (HS w1 Hd Ht Hc0 eq_refl) as (l1 & L1 & L1').
    destruct (run_stage c t "final" w1) as [w2|] eqn:EF; [|discriminate]. cbn in E. injection E as <-.
    pose proof (fires_stage t "final" w1 w2 EF) as F2.
    destruct (fires_due t w1 w2 F2) as (l2 & L2 & L2'); auto; [eapply steps_clock; eauto|].
    exists (l0 ++ l1 ++ l2). split; [rewrite L2, L1, L0; now rewrite !app_assoc|]. apply X. repeat (apply Forall_app; split; auto).
  - destruct (HS w1 Hd Ht Hc0 eq_refl) as (l1 & L1 & L1'). cbn in E. injection E as <-.
    exists (l0 ++ l1). split; [rewrite L1, L0; now rewrite !app_assoc|]. apply X. apply Forall_app; auto.
  - destruct (HS w1 Hd Ht Hc0 eq_refl) as (l1 & L1 & L1'). cbn in E. injection E as <-.
    exists (l0 ++ l1). split; [rewrite L1, L0; now rewrite !app_assoc|]. apply X. apply Forall_app; auto.
Qed.

(** ** stages executed once per species *)
Lemma push_calls t fused st cb i w w' : species_stage st ->
  (st <> "current_deposition" -> fused i = false) ->
  (forall s, s <> st -> ~ In (cb_id cb) (map cb_id (t s))) ->
  NoDup (map cb_id (t st)) -> In cb (t st) -> clocked (interval_of cb) ->
  push_species c t fused i w = Ok w' ->
  itime (w_sim w') = itime (w_sim w) /\ time (w_sim w') = time (w_sim w) /\
  calls_of (cb_id cb) (w_log w') = calls_of (cb_id cb) (w_log w) ++
     (if triggered (dt c) (w_sim w) (interval_of cb) then [mkEv (itime (w_sim w)) st (cb_id cb)] else []).
Proof.
  intros Hst Hf Habs HN Hin HC E.
  assert (Dec : exists A B, push_species c t fused i w = seqr (A ++ run_stage c t st :: B) w /\
            Forall (good (quiet (cb_id cb))) A /\ Forall (good (quiet (cb_id cb))) B).
  { assert (QW : forall b (f : world P -> res (world P)), good (quiet (cb_id cb)) f -> good (quiet (cb_id cb)) (when b f)).
    { intros b f Hff. apply G_when; auto; [apply good_ext|apply good_ok; apply quiet_refl]. }
    assert (QS : forall fs : list (world P -> res (world P)), Forall (good (quiet (cb_id cb))) fs -> good (quiet (cb_id cb)) (seqr fs)).
    { apply good_seq; [apply quiet_refl|apply quiet_trans]. }
    unfold push_species.
    set (L := [do_op c (PushPos i); run_stage c t "_push_position_1"; do_op c (Interp i); run_stage c t "_interpolator";
               when (rad c i) (do_op c (RadEvent i)); when (pair c i) (do_op c (PairEvent i)); run_stage c t "_qed";
               do_op c (PushMom i); run_stage c t "_push_momentum"; do_op c (PushPos i); run_stage c t "_push_position_2";
               do_op c (Deposit i)]).
    destruct Hst as [<-|Hst].
    - eexists [_; _], []. split; [reflexivity|]. split; [|constructor]. constructor; [apply quiet_sp|]. constructor; [|constructor].
      intros w1 w2. destruct (fused i); [apply quiet_op|]. unfold L. revert w1 w2.
      apply QS. repeat (constructor; [first [apply quiet_op|apply QW; apply quiet_op|apply quiet_stage; apply Habs; discriminate]|]). constructor.
    - assert (F : fused i = false) by (apply Hf; intros ->; cbn in Hst; intuition discriminate).
      assert (EP : forall A, seqr [set_ispec (Some i); fun w => if fused i then do_op c (Fused i) w else seqr L w; A] w =
                   seqr (set_ispec (Some i) :: L ++ [A]) w).
      { intro A. rewrite !seqr_cons. destruct (set_ispec (Some i) w) as [w1|]; cbn [bind]; auto.
        rewrite seqr_cons, F, seqr_app. reflexivity. }
      rewrite EP.
      assert (S0 : Forall (good (quiet (cb_id cb))) [set_ispec (P := P) (Some i)]) by (constructor; [apply quiet_sp|constructor]).
      assert (S9 : st <> "current_deposition") by (intros ->; cbn in Hst; intuition discriminate).
      Ltac qp Habs QW := repeat (constructor; [first [apply quiet_sp|apply quiet_op|apply QW; apply quiet_op|apply quiet_stage; apply Habs; discriminate]|]); constructor.
      set (L2 := set_ispec (Some i) :: L ++ [run_stage c t "current_deposition"]).
      cbn in Hst. destruct Hst as [<-|[<-|[<-|[<-|[<-|[]]]]]].
      + exists (firstn 2 L2), (skipn 3 L2). split; [reflexivity|]. split; cbn [firstn skipn L2 L app]; qp Habs QW.
      + exists (firstn 4 L2), (skipn 5 L2). split; [reflexivity|]. split; cbn [firstn skipn L2 L app]; qp Habs QW.
      + exists (firstn 7 L2), (skipn 8 L2). split; [reflexivity|]. split; cbn [firstn skipn L2 L app]; qp Habs QW.
      + exists (firstn 9 L2), (skipn 10 L2). split; [reflexivity|]. split; cbn [firstn skipn L2 L app]; qp Habs QW.
      + exists (firstn 11 L2), (skipn 12 L2). split; [reflexivity|]. split; cbn [firstn skipn L2 L app]; qp Habs QW. }
  destruct Dec as (A & B & ED & HA & HB). rewrite ED, seqr_app in E.
  destruct (seqr A w) as [wa|] eqn:EA; cbn [bind] in E; [|discriminate].
  rewrite seqr_cons in E. destruct (run_stage c t st wa) as [wb|] eqn:EB; cbn [bind] in E; [|discriminate].
  apply (good_seq (quiet (cb_id cb)) (quiet_refl _) (quiet_trans _)) in HA, HB. apply HA in EA. apply HB in E.
  destruct EA as (A1 & A2 & A3). destruct E as (C1 & C2 & C3).
  unfold run_stage in EB. apply (stage_calls c (t st) st cb) in EB; auto. destruct EB as (B1 & B2 & B3).
  rewrite C1, C2, C3, B1, B2, B3, A1, A2, A3. rewrite (clocked_trig c _ (w_sim wa) (w_sim w)) by auto. auto.
Qed.

Lemma species_calls t fused st cb en : fixed_species c en -> species_stage st ->
  (st <> "current_deposition" -> forall i, fused i = false) ->
  (forall s, s <> st -> ~ In (cb_id cb) (map cb_id (t s))) ->
  NoDup (map cb_id (t st)) -> In cb (t st) -> clocked (interval_of cb) ->
  forall is w w', seqr (map (fun i w => if enabled c (rest (w_sim w)) i then push_species c t fused i w else Ok w) is) w = Ok w' ->
  itime (w_sim w') = itime (w_sim w) /\ time (w_sim w') = time (w_sim w) /\
  calls_of (cb_id cb) (w_log w') = calls_of (cb_id cb) (w_log w) ++
     (if triggered (dt c) (w_sim w) (interval_of cb) then repeat (mkEv (itime (w_sim w)) st (cb_id cb)) (List.length (filter en is)) else []).
Proof.
  intros Hen Hst Hf Habs HN Hin HC is. induction is as [|i is IH]; intros w w' E; cbn [map] in E.
  - injection E as <-. split; auto. split; auto. cbn. destruct (triggered _ _ _); now rewrite app_nil_r.
  - rewrite seqr_cons, Hen in E. cbn [filter]. destruct (en i).
    + destruct (push_species c t fused i w) as [w1|] eqn:E1; cbn [bind] in E; [|discriminate].
      destruct (push_calls t fused st cb i w w1 Hst (fun H => Hf H i) Habs HN Hin HC E1) as (A1 & A2 & A3).
      destruct (IH _ _ E) as (B1 & B2 & B3). rewrite B1, B2, B3, A1, A2, A3. split; auto. split; auto.
      rewrite (clocked_trig c _ (w_sim w1) (w_sim w)) by auto. rewrite <- app_assoc. destruct (triggered _ _ _); reflexivity.
    + cbn [bind] in E. now apply IH.
Qed.

Lemma step_species_calls t st cb en w w' : fixed_species c en -> species_stage st ->
  (forall s, s <> st -> ~ In (cb_id cb) (map cb_id (t s))) ->
  NoDup (map cb_id (t st)) -> In cb (t st) -> clocked (interval_of cb) ->
  step c t (use_fused c t) w = Ok w' ->
  itime (w_sim w') = itime (w_sim w) /\ time (w_sim w') = time (w_sim w) /\
  calls_of (cb_id cb) (w_log w') = calls_of (cb_id cb) (w_log w) ++
     (if triggered (dt c) (w_sim w) (interval_of cb)
      then repeat (mkEv (itime (w_sim w)) st (cb_id cb)) (List.length (filter en (seq 0 (nspecies c)))) else []).
Proof.
  intros Hen Hst Habs HN Hin HC E.
  assert (Hfu : st <> "current_deposition" -> forall i, use_fused c t i = false).
  { intros Hne i. destruct (use_fused c t i) eqn:U; auto. exfalso.
    assert (X : t st = []) by (apply (use_fused_inner c t i); auto; destruct Hst as [<-|Hst]; [congruence|auto]).
    rewrite X in Hin. destruct Hin. }
  assert (QF : forall f : nat -> world P -> res (world P), (forall i, good (quiet (cb_id cb)) (f i)) -> good (quiet (cb_id cb)) (for_species c f)).
  { intros f Hf. apply good_for; auto using quiet_refl. apply quiet_trans. }
  assert (QS : forall fs : list (world P -> res (world P)), Forall (good (quiet (cb_id cb))) fs -> good (quiet (cb_id cb)) (seqr fs)).
  { apply good_seq; [apply quiet_refl|apply quiet_trans]. }
  assert (QW : forall b (f : world P -> res (world P)), good (quiet (cb_id cb)) f -> good (quiet (cb_id cb)) (when b f)).
  { intros b f Hf. apply G_when; auto; [apply good_ext|apply good_ok; apply quiet_refl]. }
  assert (Hst' : forall s, In s ["start"; "maxwell_1"; "qed_create_particles"; "_laser"; "maxwell_2"; "end"] -> s <> st).
  { intros s Hs ->. unfold species_stage in Hst. cbn in Hst, Hs. intuition congruence. }
  unfold step in E. match type of E with seqr ?l w = _ => set (L := l) in E end.
  assert (EL : L = firstn 13 L ++ for_species c (push_species c t (use_fused c t)) :: skipn 14 L) by reflexivity.
  assert (HA : Forall (good (quiet (cb_id cb))) (firstn 13 L)).
  { cbn [firstn L]. repeat (constructor; [first [apply quiet_op|apply quiet_sp|apply QW; apply quiet_op
      |apply quiet_stage; apply Habs; apply Hst'; cbn; tauto
      |apply QF; intro; apply QS; repeat (constructor; [first [apply quiet_sp|apply quiet_op|apply QW; apply quiet_op]|]); constructor]|]). constructor. }
  assert (HB : Forall (good (quiet (cb_id cb))) (skipn 14 L)).
  { cbn [skipn L]. repeat (constructor; [first [apply quiet_op|apply quiet_sp|apply QW; apply quiet_op
      |apply quiet_stage; apply Habs; apply Hst'; cbn; tauto
      |apply QF; intro; apply QS; repeat (constructor; [first [apply quiet_sp|apply quiet_op|apply QW; apply quiet_op]|]); constructor]|]). constructor. }
  rewrite EL, seqr_app in E. clear EL. clearbody L.
  destruct (seqr (firstn 13 L) w) as [wa|] eqn:EA; cbn [bind] in E; [|discriminate].
  rewrite seqr_cons in E. destruct (for_species c (push_species c t (use_fused c t)) wa) as [wb|] eqn:EB; cbn [bind] in E; [|discriminate].
  apply (good_seq (quiet (cb_id cb)) (quiet_refl _) (quiet_trans _)) in HA, HB. apply HA in EA. apply HB in E.
  destruct EA as (A1 & A2 & A3). destruct E as (C1 & C2 & C3).
  unfold for_species in EB. apply (species_calls t (use_fused c t) st cb en) in EB; auto. destruct EB as (B1 & B2 & B3).
  rewrite C1, C2, C3, B1, B2, B3, A1, A2, A3. rewrite (clocked_trig c _ (w_sim wa) (w_sim w)) by auto. auto.
Qed.

(** step-wise behaviour lifted to runs *)
Lemma steps_calls_mult t fused rcb st cb m k : 
  (forall w w', step c t fused w = Ok w' ->
    itime (w_sim w') = itime (w_sim w) /\ time (w_sim w') = time (w_sim w) /\
    calls_of (cb_id cb) (w_log w') = calls_of (cb_id cb) (w_log w) ++
     (if triggered (dt c) (w_sim w) (interval_of cb) then repeat (mkEv (itime (w_sim w)) st (cb_id cb)) m else [])) ->
  clocked (interval_of cb) -> forall p0 w w', clock_ok c w ->
  (steps c stop signal k t fused rcb w = Finished w' \/ steps c stop signal k t fused rcb w = StoppedByCallback w') ->
  itime (w_sim w) <= itime (w_sim w') /\
  calls_of (cb_id cb) (w_log w') = calls_of (cb_id cb) (w_log w) ++
    flat_map (fun j => if triggered (dt c) (mkSim j (Qred (inject_Z j * dt c)) None p0) (interval_of cb) then repeat (mkEv j st (cb_id cb)) m else [])
         (zrange (itime (w_sim w)) (Z.to_nat (itime (w_sim w') - itime (w_sim w)))).
Proof.
  intros Hstep HC p0. induction k as [|k IH]; intros w w' Hck E; cbn [steps] in E.
  - destruct E as [E|E]; [|discriminate]. injection E as <-. split; [lia|]. rewrite Z.sub_diag. cbn. now rewrite app_nil_r.
  - destruct (step c t fused w) as [w1|] eqn:E1; [|destruct E; discriminate].
    pose proof (Hstep w w1 E1) as (A & B & D).
    destruct (if signal (itime (w_sim w1)) then rcb else None); [destruct E; discriminate|].
    assert (Hck2 : clock_ok c (advance_w c w1)) by (eapply step_clock_ok; eauto).
    assert (T : triggered (dt c) (w_sim w) (interval_of cb) =
                triggered (dt c) (mkSim (itime (w_sim w)) (Qred (inject_Z (itime (w_sim w)) * dt c)) None p0) (interval_of cb)).
    { apply clocked_trig; auto. }
    cbv zeta in E. destruct (stop (w_sim (advance_w c w1))).
    + destruct E as [E|E]; [discriminate|]. injection E as <-. cbn [advance_w advance w_sim itime w_log]. rewrite A.
      replace (Z.to_nat (itime (w_sim w) + 1 - itime (w_sim w))) with 1%nat by lia.
      split; [lia|]. rewrite D. f_equal. rewrite zrange_S. cbn [zrange seq map flat_map].
      rewrite <- T, app_nil_r. reflexivity.
    + destruct (IH _ _ Hck2 E) as (I1 & I3). cbn [advance_w advance w_sim itime w_log] in I1, I3. rewrite A in *.
      set (n := Z.to_nat (itime (w_sim w') - (itime (w_sim w) + 1))) in *.
      replace (Z.to_nat (itime (w_sim w') - itime (w_sim w))) with (S n) by lia.
      split; [lia|]. rewrite I3, D, <- app_assoc. f_equal. rewrite zrange_S. cbn [flat_map]. now rewrite <- T.
Qed.

Lemma run_calls_species cbs nsteps sim_time w w' cb en :
  (run c stop signal cbs nsteps sim_time w = Finished w' \/ run c stop signal cbs nsteps sim_time w = StoppedByCallback w') ->
  unique_ids cbs -> In cb cbs -> species_stage (stage_of cb) -> clocked (interval_of cb) -> clock_ok c w -> fixed_species c en ->
  calls_of (cb_id cb) (w_log w') = calls_of (cb_id cb) (w_log w) ++
    flat_map (fun j => if triggered (dt c) (mkSim j (Qred (inject_Z j * dt c)) None (rest (w_sim w))) (interval_of cb)
                       then repeat (mkEv j (stage_of cb) (cb_id cb)) (List.length (filter en (seq 0 (nspecies c)))) else [])
         (zrange (itime (w_sim w)) (Z.to_nat (itime (w_sim w') - itime (w_sim w)))).
Proof.
  intros E HU Hin Hst HC Hck Hen. unfold run, run_with in E.
  destruct (register cbs) as [t|] eqn:ER; [|destruct E; discriminate].
  apply register_ok in ER. destruct ER as [ET EV].
  destruct (run_stage c t "init" w) as [w0|] eqn:EI; [|destruct E; discriminate].
  assert (Habs : forall s, s <> stage_of cb -> ~ In (cb_id cb) (map cb_id (t s))).
  { intros s Hs. rewrite ET. now apply unique_other. }
  assert (Hne : forall s, In s ["init"; "final"] -> s <> stage_of cb).
  { intros s Hs Es. rewrite <- Es in Hst. unfold species_stage in Hst. cbn in Hst, Hs. intuition congruence. }
  assert (Q0 : quiet (cb_id cb) w w0) by (apply (quiet_stage c (cb_id cb) t "init"); auto; apply Habs; apply Hne; cbn; tauto).
  destruct Q0 as (Q1 & Q2 & Q3).
  destruct (handle_nsteps c nsteps sim_time (itime (w_sim w0))) as [total|]; [|destruct E; discriminate].
  assert (Hck0 : clock_ok c w0) by (unfold clock_ok in *; rewrite Q1, Q2; auto).
  assert (HNt : NoDup (map cb_id (t (stage_of cb)))) by (rewrite ET; now apply filter_nodup_ids).
  assert (Hint : In cb (t (stage_of cb))) by (rewrite ET; apply filter_In; split; auto; apply String.eqb_refl).
  set (k := Z.to_nat (total - itime (w_sim w0))) in *.
  pose proof (steps_calls_mult t (use_fused c t) (restart_cb cbs) (stage_of cb) cb (List.length (filter en (seq 0 (nspecies c)))) k
     (fun x y Hxy => step_species_calls t (stage_of cb) cb en x y Hen Hst Habs HNt Hint HC Hxy) HC (rest (w_sim w)) w0) as HS.
  destruct (steps c stop signal k t (use_fused c t) (restart_cb cbs) w0) as [w1|w1|w1|e] eqn:ES; try (destruct E; discriminate).
  - destruct (run_stage c t "final" w1) as [w2|] eqn:EF; [|destruct E; discriminate].
    destruct E as [E|E]; [|discriminate]. injection E as <-.
    assert (QF : quiet (cb_id cb) w1 w2) by (apply (quiet_stage c (cb_id cb) t "final"); auto; apply Habs; apply Hne; cbn; tauto).
    destruct QF as (F1 & F2 & F3). destruct (HS w1 Hck0 (or_introl eq_refl)) as (S1 & S3).
    rewrite F3, F1, S3, Q3, Q1. reflexivity.
  - destruct E as [E|E]; [discriminate|]. injection E as <-. destruct (HS w1 Hck0 (or_intror eq_refl)) as (S1 & S3).
    rewrite S3, Q3, Q1. reflexivity.
Qed.
End P4.
