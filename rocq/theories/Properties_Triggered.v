(** C147: asking whether a stage will run a callback. *)
From Coq Require Import String QArith.
From Verif Require Import Base M_RunLoop M_Triggered.
Local Open Scope list_scope.

Section S.
Context {P : Type}.
Variable c : config P.
Lemma bind_err fs e : fold_left (@bind P) fs (Err e) = Err e.
Proof. induction fs as [|f fs IH]; [reflexivity|exact IH]. Qed.
Lemma call_log stage cb w w' : call_cb c stage cb w = Ok w' -> if triggered (dt c) (w_sim w) (interval_of cb) then exists e, w_log w' = w_log w ++ [e] /\ ev_stage e = stage else w' = w.
Proof.
  unfold call_cb. destruct (validate (interval_of cb)); [discriminate|]. destruct (triggered (dt c) (w_sim w) (interval_of cb)); intro E; injection E as <-; [|reflexivity].
  eexists. split; [destruct (cb_action cb); reflexivity|reflexivity].
Qed.
Lemma stage_log stage : forall cbs w w', fold_left (@bind P) (map (call_cb c stage) cbs) (Ok w) = Ok w' ->
  exists es, w_log w' = w_log w ++ es /\ Forall (fun e => ev_stage e = stage) es /\ (if existsb (fun cb => triggered (dt c) (w_sim w) (interval_of cb)) cbs then es <> [] else w' = w /\ es = []).
Proof.
  induction cbs as [|cb cbs IH]; intros w w' E; [injection E as <-; exists []; rewrite app_nil_r; repeat split; constructor|].
  cbn [map fold_left bind] in E. destruct (call_cb c stage cb w) as [w1|e] eqn:C; [|rewrite bind_err in E; discriminate].
  pose proof (call_log stage cb w w1 C) as X. destruct (IH w1 w' E) as (es & L & F & R). cbn [existsb]. destruct (triggered (dt c) (w_sim w) (interval_of cb)); cbn [orb].
  - destruct X as (e & L1 & S1). exists (e :: es). split; [rewrite L, L1, <- app_assoc; reflexivity|]. split; [constructor; assumption|discriminate].
  - subst w1. exists es. auto.
Qed.

(** ** the answer is yes exactly if running the stage now executes at least one callback; if it is no, running the stage changes
    nothing at all *)
Theorem C147_answer : forall t stage w w', run_stage c t stage w = Ok w' ->
  (has_triggered (dt c) t stage (w_sim w) = true <-> exists e es, w_log w' = w_log w ++ e :: es /\ Forall (fun e => ev_stage e = stage) (e :: es)) /\
  (has_triggered (dt c) t stage (w_sim w) = false -> w' = w).
Proof.
  intros t stage w w' E. destruct (stage_log stage (t stage) w w' E) as (es & L & F & R). unfold has_triggered. destruct (existsb _ (t stage)).
  - split; [|discriminate]. split; [|reflexivity]. intros _. destruct es as [|e es]; [destruct (R eq_refl)|]. exists e, es. split; assumption.
  - destruct R as [-> _]. split; [|reflexivity]. split; [discriminate|]. intros (e & es' & X & _). exfalso. apply (f_equal (@length _)) in X. rewrite app_length in X. cbn [length] in X. lia.
Qed.
(** a stage that is not listed as non-empty never does anything *)
Theorem C147_empty : forall t stage w, In stage STAGES -> ~ In stage (non_empty_stages t) -> run_stage c t stage w = Ok w /\ has_triggered (dt c) t stage (w_sim w) = false.
Proof.
  intros t stage w I N. assert (t stage = []) as E.
  { destruct (t stage) as [|cb l] eqn:E; [reflexivity|]. destruct N. apply filter_In. split; [exact I|]. rewrite E. reflexivity. }
  unfold run_stage, has_triggered. rewrite E. split; reflexivity.
Qed.
End S.

(** two callbacks, one every third step and one never *)
Example C147_case : forall (f : sim nat -> nat) time, let cb i iv := mkCb i (Attr "start") iv (User f) in
  let t := add_cb (add_cb (fun _ => []) (cb 0%nat (IInt 3))) (cb 1%nat (ICall (fun _ => false))) in
  has_triggered 1 t "start" (mkSim 6 time None 0%nat) = true /\ has_triggered 1 t "start" (mkSim 7 time None 0%nat) = false /\ non_empty_stages t = ["start"%string].
Proof. repeat split. Qed.

Print Assumptions C147_answer.
Print Assumptions C147_empty.
Print Assumptions C147_case.
