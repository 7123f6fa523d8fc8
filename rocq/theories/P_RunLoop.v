(** Proofs about the run loop. *)
From Verif Require Import Base M_Checkpoint S_Checkpoint P_Checkpoint M_RunLoop S_RunLoop.
From Coq Require Import QArith Qround Qreduction String Lqa.
Local Open Scope string_scope.
Local Open Scope list_scope.
Local Open Scope Z_scope.

Section P1.
Context {P : Type}.
Variable c : config P.
Notation act := (world P -> res (world P)).

Lemma seqr_nil (w : world P) : seqr [] w = Ok w. Proof. reflexivity. Qed.
Lemma fold_bind_err (fs : list act) e : fold_left bind fs (Err e) = Err e.
Proof. induction fs; auto. Qed.
Lemma seqr_cons f (fs : list act) w : seqr (f :: fs) w = bind (f w) (seqr fs).
Proof. unfold seqr. cbn [fold_left bind]. destruct (f w); cbn [bind]; auto. apply fold_bind_err. Qed.
Lemma seqr_app (fs gs : list act) w : seqr (fs ++ gs) w = bind (seqr fs w) (seqr gs).
Proof.
  revert w; induction fs as [|f fs IH]; intro w; [reflexivity|].
  cbn [app]. rewrite !seqr_cons. destruct (f w); cbn [bind]; auto.
Qed.

(** every predicate on actions closed under the constructions used holds of the step *)
Section Closed.
Variable G : act -> Prop.
Hypothesis Gext : forall f g, (forall w, f w = g w) -> G f -> G g.
Hypothesis Gseq : forall fs, Forall G fs -> G (seqr fs).
Hypothesis Gif : forall (h : sim P -> bool) f g, G f -> G g -> G (fun w => if h (w_sim w) then f w else g w).
Hypothesis Gok : G (fun w => Ok w).
Hypothesis Gop : forall o, G (do_op c o).
Hypothesis Gsp : forall i, G (set_ispec i).
Lemma G_when b f : G f -> G (when b f).
Proof. intro H. destruct b; [now apply (Gext f)|now apply (Gext (fun w => Ok w))]. Qed.
Lemma G_for f : (forall i, G (f i)) -> G (for_species c f).
Proof.
  intro H. apply Gseq. apply Forall_forall. intros g Hg. apply in_map_iff in Hg. destruct Hg as (i & <- & _).
  now apply (Gif (fun s => enabled c (rest s) i)).
Qed.
Lemma G_push t fused i : (forall s, In s ("current_deposition" :: INNER_STAGES) -> G (run_stage c t s)) -> G (push_species c t fused i).
Proof.
  intro H. apply Gseq. constructor; [apply Gsp|]. constructor; [|constructor; [apply H; now left|constructor]].
  destruct (fused i).
  - now apply (Gext (do_op c (Fused i))).
  - eapply Gext; [intro; reflexivity|]. apply Gseq.
    repeat (constructor; [first [apply Gop | apply G_when; apply Gop | apply H; cbn; tauto]|]). constructor.
Qed.
Lemma G_ops l : Forall G (map (do_op c) l).
Proof. apply Forall_forall. intros f Hf. apply in_map_iff in Hf. destruct Hf as (o & <- & _). apply Gop. Qed.
Lemma G_step t fused :
  (forall s, In s STAGES -> s <> "init" -> s <> "final" -> G (run_stage c t s)) -> G (step c t fused).
Proof.
  intro H. unfold step. apply Gseq.
  repeat (constructor;
    [first [ apply Gop | apply Gsp | apply G_when; apply Gop
           | apply H; [cbn; tauto|discriminate|discriminate]
           | apply G_for; intro; apply G_push; intros s Hs; apply H; [cbn in *; tauto|intros ->; cbn in Hs; intuition discriminate..]
           | apply G_for; intro; apply Gseq; repeat (constructor; [first [apply Gsp|apply Gop|apply G_when; apply Gop]|]); constructor ]|]).
  constructor.
Qed.
End Closed.

(** ** invariants of executions as relations *)
Definition good (R : world P -> world P -> Prop) (f : act) : Prop := forall w w', f w = Ok w' -> R w w'.
Section Good.
Variable R : world P -> world P -> Prop.
Hypothesis Rrefl : forall w, R w w.
Hypothesis Rtrans : forall a b d, R a b -> R b d -> R a d.
Lemma good_seq fs : Forall (good R) fs -> good R (seqr fs).
Proof.
  induction 1 as [|f fs Hf Hfs IH]; intros w w' E.
  - injection E as <-. apply Rrefl.
  - rewrite seqr_cons in E. destruct (f w) as [w1|] eqn:E1; cbn [bind] in E; [|discriminate].
    eapply Rtrans; [apply Hf; eauto|apply IH; auto].
Qed.
Lemma good_ext f g : (forall w, f w = g w) -> good R f -> good R g.
Proof. intros E H w w' Hw. apply H. now rewrite E. Qed.
Lemma good_if (h : sim P -> bool) f g : good R f -> good R g -> good R (fun w => if h (w_sim w) then f w else g w).
Proof. intros Hf Hg w w'. destruct (h (w_sim w)); auto. Qed.
Lemma good_ok : good R (fun w => Ok w).
Proof. intros w w' E. injection E as <-. apply Rrefl. Qed.
Lemma good_for f : (forall i, good R (f i)) -> good R (for_species c f).
Proof. intro H. apply (G_for (good R)); auto using good_seq, good_ok, good_if. Qed.
End Good.

(** the clock is not touched and the log only grows, by events satisfying [Q] at the present step *)
Definition grows (Q : event -> Prop) (w w' : world P) : Prop :=
  itime (w_sim w') = itime (w_sim w) /\ time (w_sim w') = time (w_sim w) /\
  exists l, w_log w' = w_log w ++ l /\ Forall (fun e => Q e /\ ev_step e = itime (w_sim w)) l.
Lemma grows_refl Q w : grows Q w w.
Proof. repeat split. exists []. split; [now rewrite app_nil_r|constructor]. Qed.
Lemma grows_trans Q a b d : grows Q a b -> grows Q b d -> grows Q a d.
Proof.
  intros (A1 & A2 & l & A3 & A4) (B1 & B2 & m & B3 & B4). split; [congruence|]. split; [congruence|].
  exists (l ++ m). split; [rewrite B3, A3; now rewrite app_assoc|]. apply Forall_app. split; auto.
  rewrite A1 in B4. exact B4.
Qed.
Lemma grows_weaken (Q Q' : event -> Prop) w w' : (forall e, Q e -> Q' e) -> grows Q w w' -> grows Q' w w'.
Proof.
  intros H (A1 & A2 & l & A3 & A4). split; auto. split; auto. exists l. split; auto.
  eapply Forall_impl; [|exact A4]. cbn. intuition.
Qed.
Lemma grows_op Q o : good (grows Q) (do_op c o).
Proof. intros w w' E. injection E as <-. repeat split. exists []. split; [cbn; now rewrite app_nil_r|constructor]. Qed.
Lemma grows_sp Q i : good (grows Q) (set_ispec i).
Proof. intros w w' E. injection E as <-. repeat split. exists []. split; [cbn; now rewrite app_nil_r|constructor]. Qed.
Lemma call_cb_grows s cb w w' : call_cb c s cb w = Ok w' ->
  itime (w_sim w') = itime (w_sim w) /\ time (w_sim w') = time (w_sim w) /\
  w_log w' = w_log w ++ (if triggered (dt c) (w_sim w) (interval_of cb) then [mkEv (itime (w_sim w)) s (cb_id cb)] else []).
Proof.
  unfold call_cb. destruct (validate _); [discriminate|].
  destruct (triggered _ _ _).
  - destruct (cb_action cb); intro E; injection E as <-; cbn; auto.
  - intro E. injection E as <-. now rewrite app_nil_r.
Qed.
Lemma stage_grows t s : good (grows (fun e => ev_stage e = s /\ In (ev_cb e) (map cb_id (t s)))) (run_stage c t s).
Proof.
  apply good_seq; [apply grows_refl|apply grows_trans|]. apply Forall_forall. intros f Hf.
  apply in_map_iff in Hf. destruct Hf as (cb & <- & Hcb). intros w w' E.
  destruct (call_cb_grows _ _ _ _ E) as (A1 & A2 & A3). split; auto. split; auto. eexists. split; [exact A3|].
  destruct (triggered _ _ _); repeat constructor; cbn. now apply in_map.
Qed.

Lemma step_grows t fused (Q : event -> Prop) :
  (forall e, In (ev_stage e) STAGES -> ev_stage e <> "init" -> ev_stage e <> "final" -> In (ev_cb e) (map cb_id (t (ev_stage e))) -> Q e) ->
  good (grows Q) (step c t fused).
Proof.
  intro H. apply G_step.
  - apply good_ext.
  - apply good_seq; [apply grows_refl|apply grows_trans].
  - intros; now apply good_if.
  - apply good_ok. apply grows_refl.
  - apply grows_op.
  - apply grows_sp.
  - intros s Hs Hi Hf w w' E. apply stage_grows in E. eapply grows_weaken; [|exact E].
    intros e [<- He]. now apply H.
Qed.

(** ** registration *)
Lemma register_from (cbs : list (callback P)) : forall t0 t,
  fold_left register_one cbs (Ok t0) = Ok t ->
  (forall s, t s = t0 s ++ filter (fun cb => (s =? stage_of cb)%string) cbs) /\
  (forall cb, In cb cbs -> In (stage_of cb) STAGES).
Proof.
  induction cbs as [|cb cbs IH]; intros t0 t E; cbn [fold_left register_one] in E.
  - injection E as <-. split; [intro; cbn; now rewrite app_nil_r|intros ? []].
  - destruct (existsb (String.eqb (stage_of cb)) STAGES) eqn:Ex.
    + destruct (IH _ _ E) as [H1 H2]. split.
      * intro s. rewrite H1. unfold add_cb. cbn [filter]. destruct (s =? stage_of cb)%string; auto. now rewrite <- app_assoc.
      * intros x [<-|Hx]; auto. apply existsb_exists in Ex. destruct Ex as (y & Hy & Ey). apply String.eqb_eq in Ey. now subst.
    + exfalso. clear - E. revert E.
      assert (F : forall e, fold_left register_one cbs (@Err (table P) e) = Err e) by (clear; induction cbs; auto).
      rewrite F. discriminate.
Qed.
Lemma register_ok (cbs : list (callback P)) t : register cbs = Ok t ->
  (forall s, t s = filter (fun cb => (s =? stage_of cb)%string) cbs) /\ (forall cb, In cb cbs -> In (stage_of cb) STAGES).
Proof. intro E. apply register_from in E. exact E. Qed.
Lemma register_iff (cbs : list (callback P)) :
  (exists t, register cbs = Ok t) <-> (forall cb, In cb cbs -> In (stage_of cb) STAGES).
Proof.
  split; [intros [t E]; now apply register_ok in E|]. intro H. unfold register.
  assert (G : forall t0, exists t, fold_left register_one cbs (Ok t0) = Ok t); [|apply G].
  induction cbs as [|cb cbs IH]; intro t0; cbn [fold_left register_one]; [now exists t0|].
  assert (Ex : existsb (String.eqb (stage_of cb)) STAGES = true).
  { apply existsb_exists. exists (stage_of cb). split; [apply H; now left|apply String.eqb_refl]. }
  rewrite Ex. apply IH. intros; apply H; now right.
Qed.

(** ** calls of one callback *)
Definition clocked (iv : interval P) : Prop := match iv with IInt _ | IFloat _ => True | _ => False end.
Lemma clocked_trig iv (s s' : sim P) : clocked iv -> itime s = itime s' -> time s = time s' ->
  triggered (dt c) s iv = triggered (dt c) s' iv.
Proof. destruct iv; cbn; try tauto; intros _ E1 E2; now rewrite ?E1, ?E2. Qed.
Lemma calls_of_app id l m : calls_of id (l ++ m) = calls_of id l ++ calls_of id m.
Proof. apply filter_app. Qed.

Lemma stage_calls_absent cbs s id w w' :
  ~ In id (map cb_id cbs) -> seqr (map (call_cb c s) cbs) w = Ok w' ->
  itime (w_sim w') = itime (w_sim w) /\ time (w_sim w') = time (w_sim w) /\ calls_of id (w_log w') = calls_of id (w_log w).
Proof.
  revert w. induction cbs as [|cb cbs IH]; intros w Hn E; cbn [map] in *.
  - injection E as <-. auto.
  - rewrite seqr_cons in E. destruct (call_cb c s cb w) as [w1|] eqn:E1; cbn [bind] in E; [|discriminate].
    destruct (IH w1) as (A & B & D); [intro; apply Hn; now right|auto|]. apply call_cb_grows in E1. destruct E1 as (A1 & B1 & D1).
    rewrite A, B, D, A1, B1, D1, calls_of_app. split; auto. split; auto.
    destruct (triggered _ _ _); cbn [calls_of filter ev_cb]; [|now rewrite app_nil_r].
    destruct (Nat.eqb_spec (cb_id cb) id); [cbn [In] in Hn; tauto|apply app_nil_r].
Qed.
Lemma stage_calls cbs s cb w w' :
  NoDup (map cb_id cbs) -> In cb cbs -> clocked (interval_of cb) ->
  seqr (map (call_cb c s) cbs) w = Ok w' ->
  itime (w_sim w') = itime (w_sim w) /\ time (w_sim w') = time (w_sim w) /\
  calls_of (cb_id cb) (w_log w') = calls_of (cb_id cb) (w_log w) ++
     (if triggered (dt c) (w_sim w) (interval_of cb) then [mkEv (itime (w_sim w)) s (cb_id cb)] else []).
Proof.
  revert w. induction cbs as [|x cbs IH]; intros w HN Hi HC E; [destruct Hi|]. cbn [map] in *.
  inversion HN as [|? ? N1 N2]; subst.
  rewrite seqr_cons in E. destruct (call_cb c s x w) as [w1|] eqn:E1; cbn [bind] in E; [|discriminate].
  apply call_cb_grows in E1. destruct E1 as (A1 & B1 & D1).
  destruct Hi as [->|Hi].
  - apply (stage_calls_absent cbs s (cb_id cb)) in E; auto. destruct E as (A & B & D).
    rewrite A, B, D, A1, B1, D1, calls_of_app. split; auto. split; auto. f_equal.
    destruct (triggered _ _ _); auto. cbn [calls_of filter ev_cb]. now rewrite Nat.eqb_refl.
  - destruct (IH w1 N2 Hi HC E) as (A & B & D). rewrite A, B, D, A1, B1, D1, calls_of_app. split; auto. split; auto.
    rewrite (clocked_trig _ (w_sim w1) (w_sim w)) by auto.
    assert (Hne : cb_id x <> cb_id cb) by (intro Ex; apply N1; rewrite Ex; now apply in_map).
    rewrite <- app_assoc. f_equal. destruct (triggered _ _ (interval_of x)); cbn [calls_of filter ev_cb app]; auto.
    destruct (Nat.eqb_spec (cb_id x) (cb_id cb)); [lia|auto].
Qed.

(** the pieces of a step before and after an outer stage *)
Definition quiet (id : nat) (w w' : world P) : Prop :=
  itime (w_sim w') = itime (w_sim w) /\ time (w_sim w') = time (w_sim w) /\ calls_of id (w_log w') = calls_of id (w_log w).
Lemma quiet_refl id w : quiet id w w. Proof. repeat split. Qed.
Lemma quiet_trans id a b d : quiet id a b -> quiet id b d -> quiet id a d.
Proof. intros (A & B & D) (A' & B' & D'). repeat split; congruence. Qed.
Lemma quiet_op id o : good (quiet id) (do_op c o).
Proof. intros w w' E. injection E as <-. repeat split. Qed.
Lemma quiet_sp id i : good (quiet id) (set_ispec i).
Proof. intros w w' E. injection E as <-. repeat split. Qed.
Lemma quiet_stage id t s : ~ In id (map cb_id (t s)) -> good (quiet id) (run_stage c t s).
Proof. intros H w w' E. unfold run_stage in E. now apply (stage_calls_absent (t s) s id) in E. Qed.

Lemma step_calls t fused st cb w w' : step_stage st ->
  (forall s, s <> st -> ~ In (cb_id cb) (map cb_id (t s))) ->
  NoDup (map cb_id (t st)) -> In cb (t st) -> clocked (interval_of cb) ->
  step c t fused w = Ok w' ->
  itime (w_sim w') = itime (w_sim w) /\ time (w_sim w') = time (w_sim w) /\
  calls_of (cb_id cb) (w_log w') = calls_of (cb_id cb) (w_log w) ++
     (if triggered (dt c) (w_sim w) (interval_of cb) then [mkEv (itime (w_sim w)) st (cb_id cb)] else []).
Proof.
  intros Hst Habs HN Hin HC E.
  assert (Dec : exists A B, step c t fused = seqr (A ++ run_stage c t st :: B) /\
            Forall (good (quiet (cb_id cb))) A /\ Forall (good (quiet (cb_id cb))) B).
  { assert (QF : forall f, (forall i, good (quiet (cb_id cb)) (f i)) -> good (quiet (cb_id cb)) (for_species c f)).
    { intros f Hf. apply good_for; auto using quiet_refl. apply quiet_trans. }
    assert (QP : st <> "current_deposition" -> Forall (fun s => st <> s) INNER_STAGES -> forall i, good (quiet (cb_id cb)) (push_species c t fused i)).
    { intros N1 N2 i. apply G_push.
      - apply good_ext.
      - apply good_seq; [apply quiet_refl|apply quiet_trans].
      - apply good_ok; apply quiet_refl.
      - apply quiet_op.
      - apply quiet_sp.
      - intros s [<-|Hs]; apply quiet_stage, Habs; [congruence|].
        rewrite Forall_forall in N2. specialize (N2 s Hs). congruence. }
    assert (QS : forall fs, Forall (good (quiet (cb_id cb))) fs -> good (quiet (cb_id cb)) (seqr fs)).
    { apply good_seq; [apply quiet_refl|apply quiet_trans]. }
    assert (QW : forall b f, good (quiet (cb_id cb)) f -> good (quiet (cb_id cb)) (when b f)).
    { intros b f Hf. apply G_when; auto; [apply good_ext|apply good_ok; apply quiet_refl]. }
    unfold step_stage in Hst. cbn [In] in Hst.
    Ltac qs Habs QF QP QS QW := repeat (constructor; [first [ apply quiet_op | apply quiet_sp | apply quiet_stage; apply Habs; discriminate
           | apply QW; apply quiet_op
           | apply QF; intro; apply QP; [discriminate|repeat constructor; discriminate]
           | apply QF; intro; apply QS; repeat (constructor; [first [apply quiet_sp|apply quiet_op|apply QW; apply quiet_op]|]); constructor ]|]); constructor.
    unfold step. match goal with |- exists _ _, seqr ?l = _ /\ _ => set (L := l) end.
    destruct Hst as [<-|[<-|[<-|[<-|[<-|[<-|[]]]]]]].
    - exists (firstn 0 L), (skipn 1 L). split; [reflexivity|]. split; cbn [firstn skipn L]; qs Habs QF QP QS QW.
    - exists (firstn 9 L), (skipn 10 L). split; [reflexivity|]. split; cbn [firstn skipn L]; qs Habs QF QP QS QW.
    - exists (firstn 22 L), (skipn 23 L). split; [reflexivity|]. split; cbn [firstn skipn L]; qs Habs QF QP QS QW.
    - exists (firstn 24 L), (skipn 25 L). split; [reflexivity|]. split; cbn [firstn skipn L]; qs Habs QF QP QS QW.
    - exists (firstn 32 L), (skipn 33 L). split; [reflexivity|]. split; cbn [firstn skipn L]; qs Habs QF QP QS QW.
    - exists (firstn 33 L), (skipn 34 L). split; [reflexivity|]. split; cbn [firstn skipn L]; qs Habs QF QP QS QW. }
  destruct Dec as (A & B & ED & HA & HB). rewrite ED in E. rewrite seqr_app, seqr_cons in E || rewrite seqr_app in E.
  destruct (seqr A w) as [wa|] eqn:EA; cbn [bind] in E; [|discriminate].
  try rewrite seqr_cons in E. destruct (run_stage c t st wa) as [wb|] eqn:EB; cbn [bind] in E; [|discriminate].
  apply (good_seq (quiet (cb_id cb)) (quiet_refl _) (quiet_trans _)) in HA, HB. apply HA in EA. apply HB in E.
  destruct EA as (A1 & A2 & A3). destruct E as (C1 & C2 & C3).
  unfold run_stage in EB. apply (stage_calls (t st) st cb) in EB; auto. destruct EB as (B1 & B2 & B3).
  rewrite C1, C2, C3, B1, B2, B3, A1, A2, A3. rewrite (clocked_trig _ (w_sim wa) (w_sim w)) by auto. auto.
Qed.
End P1.
