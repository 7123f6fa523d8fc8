(** Proofs about the run loop: runs in pieces, fused push selection, restart. *)
From Verif Require Import Base M_Checkpoint S_Checkpoint P_Checkpoint M_RunLoop S_RunLoop P_RunLoop P_RunLoop2.
From Coq Require Import QArith Qreduction String.
Local Open Scope string_scope.
Local Open Scope list_scope.
Local Open Scope Z_scope.

Section P3.
Context {P : Type}.
Variable c : config P.

(** ** pieces *)
Lemma steps_app stop signal t fused rcb a : forall b w,
  steps c stop signal (a + b) t fused rcb w =
  match steps c stop signal a t fused rcb w with Finished w' => steps c stop signal b t fused rcb w' | o => o end.
Proof.
  induction a as [|a IH]; intros b w; [reflexivity|]. cbn [steps plus].
  destruct (step c t fused w) as [w1|]; auto. destruct (if signal (itime (w_sim w1)) then rcb else None); auto.
  cbv zeta. destruct (stop _); auto.
Qed.
Lemma steps_itime stop signal t fused rcb k : forall w w',
  steps c stop signal k t fused rcb w = Finished w' -> itime (w_sim w') = itime (w_sim w) + Z.of_nat k.
Proof.
  induction k as [|k IH]; intros w w' E; cbn [steps] in E; [injection E as <-; lia|].
  destruct (step c t fused w) as [w1|] eqn:E1; [|discriminate].
  destruct (if signal (itime (w_sim w1)) then rcb else None); [discriminate|]. cbv zeta in E.
  destruct (stop _); [discriminate|]. apply IH in E. apply step_clock in E1. cbn in E. lia.
Qed.
Lemma no_cb_stage t s w : t s = [] -> run_stage c t s w = Ok w.
Proof. intro H. unfold run_stage. now rewrite H. Qed.
Lemma no_cb_filter (cbs : list (callback P)) s : no_callback s cbs -> filter (fun cb => (s =? stage_of cb)%string) cbs = [].
Proof.
  induction cbs as [|x l IH]; intro H; auto. cbn [filter].
  destruct (String.eqb_spec s (stage_of x)) as [E|]; [exfalso; apply (H x); [now left|auto]|]. apply IH. intros cb Hc. apply H. now right.
Qed.

Lemma run_pieces stop signal choose cbs a b w :
  no_callback "init" cbs -> no_callback "final" cbs -> 0 <= a -> 0 <= b ->
  run_with c stop signal choose cbs (Some (a + b)) None w =
  match run_with c stop signal choose cbs (Some a) None w with
  | Finished w' => run_with c stop signal choose cbs (Some b) None w'
  | o => o
  end.
Proof.
  intros Hi Hf Ha Hb. unfold run_with. destruct (register cbs) as [t|] eqn:ER; auto.
  apply register_ok in ER. destruct ER as [ET _].
  assert (Ti : t "init" = []) by (rewrite ET; now apply no_cb_filter).
  assert (Tf : t "final" = []) by (rewrite ET; now apply no_cb_filter).
  rewrite !(no_cb_stage t "init" w) by auto. cbn [handle_nsteps].
  replace (Z.to_nat (a + b + itime (w_sim w) - itime (w_sim w))) with (Z.to_nat a + Z.to_nat b)%nat by lia.
  replace (Z.to_nat (a + itime (w_sim w) - itime (w_sim w))) with (Z.to_nat a) by lia.
  rewrite steps_app. destruct (steps c stop signal (Z.to_nat a) t (choose t) (restart_cb cbs) w) as [w1|w1|w1|e]; auto.
  rewrite (no_cb_stage t "final" w1), (no_cb_stage t "init" w1) by auto.
  replace (Z.to_nat (b + itime (w_sim w1) - itime (w_sim w1))) with (Z.to_nat b) by lia. reflexivity.
Qed.

(** number of steps of a run *)
Lemma run_itime stop signal choose cbs nsteps sim_time w w' :
  run_with c stop signal choose cbs nsteps sim_time w = Finished w' ->
  exists total, handle_nsteps c nsteps sim_time (itime (w_sim w)) = Ok total /\
  itime (w_sim w') = Z.max (itime (w_sim w)) total.
Proof.
  unfold run_with. destruct (register cbs) as [t|]; [|discriminate].
  destruct (run_stage c t "init" w) as [w0|] eqn:EI; [|discriminate].
  apply stage_grows in EI. destruct EI as (I1 & _).
  rewrite I1. destruct (handle_nsteps c nsteps sim_time (itime (w_sim w))) as [total|]; [|discriminate].
  destruct (steps _ _ _ _ _ _ _ _) as [w1|w1|w1|e] eqn:ES; try discriminate.
  destruct (run_stage c t "final" w1) as [w2|] eqn:EF; [|discriminate]. intro E. injection E as <-.
  apply stage_grows in EF. destruct EF as (F1 & _). apply steps_itime in ES. exists total. split; auto. rewrite F1, ES. lia.
Qed.
Lemma run_nothing stop signal choose cbs nsteps sim_time w total :
  no_callback "init" cbs -> no_callback "final" cbs -> (exists t, register cbs = Ok t) ->
  handle_nsteps c nsteps sim_time (itime (w_sim w)) = Ok total -> total <= itime (w_sim w) ->
  run_with c stop signal choose cbs nsteps sim_time w = Finished w.
Proof.
  intros Hi Hf [t ER] EH Hle. unfold run_with. rewrite ER. apply register_ok in ER. destruct ER as [ET _].
  rewrite (no_cb_stage t "init" w) by (rewrite ET; now apply no_cb_filter). rewrite EH.
  replace (Z.to_nat (total - itime (w_sim w))) with 0%nat by lia. cbn [steps].
  now rewrite (no_cb_stage t "final" w) by (rewrite ET; now apply no_cb_filter).
Qed.

(** ** fused selection *)
Notation act := (world P -> res (world P)).
Lemma seqr_ext (fs gs : list act) : Forall2 (fun f g => forall w, f w = g w) fs gs -> forall w, seqr fs w = seqr gs w.
Proof.
  induction 1 as [|f g fs gs E H IH]; intro w; auto. rewrite !seqr_cons, E. destruct (g w); cbn [bind]; auto.
Qed.
Lemma for_species_ext f g : (forall i w, f i w = g i w) -> forall w, for_species c f w = for_species c g w.
Proof.
  intros H w. unfold for_species. apply seqr_ext. induction (seq 0 (nspecies c)) as [|i l IH]; cbn [map]; constructor; auto.
  intro w1. now rewrite H.
Qed.
Lemma use_fused_inner t i s : use_fused c t i = true -> In s INNER_STAGES -> t s = [].
Proof.
  unfold use_fused. intros H Hs. repeat (apply andb_prop in H; destruct H as [H ?]).
  destruct (t s) eqn:E; auto. exfalso.
  assert (X : existsb (nonempty t) INNER_STAGES = true).
  { apply existsb_exists. exists s. split; auto. unfold nonempty. now rewrite E. }
  rewrite X in H0. discriminate.
Qed.
Definition fused_is_staged : Prop := forall i p,
  phys c (Fused i) p = phys c (Deposit i) (phys c (PushPos i) (phys c (PushMom i) (phys c (Interp i) (phys c (PushPos i) p)))).
Lemma push_fused t i w : fused_is_staged ->
  push_species c t (use_fused c t) i w = push_species c t (fun _ => false) i w.
Proof.
  intro H. destruct (use_fused c t i) eqn:E; unfold push_species; [|now rewrite E].
  rewrite E. apply seqr_ext. constructor; [reflexivity|]. constructor; [|constructor; [reflexivity|constructor]].
  intro w1. pose proof (use_fused_inner t i) as HI.
  assert (HR : rad c i = false /\ pair c i = false).
  { unfold use_fused in E. repeat (apply andb_prop in E; destruct E as [E ?]). split; apply negb_true_iff; auto. }
  destruct HR as [HR HP].
  rewrite HR, HP. unfold when, do_op.
  repeat (rewrite seqr_cons; try (rewrite (no_cb_stage t) by (apply HI; auto; cbn; tauto));
    cbn [bind w_sim w_disk w_log set_rest rest]).
  rewrite H. reflexivity.
Qed.
Lemma step_fused t w : fused_is_staged -> step c t (use_fused c t) w = step c t (fun _ => false) w.
Proof.
  intro H. unfold step. apply seqr_ext. 
  repeat (constructor; [try reflexivity|]); try constructor.
  intro w1. apply for_species_ext. intros i w2. now apply push_fused.
Qed.
Lemma steps_ext stop signal t f g rcb k : (forall w, step c t f w = step c t g w) -> forall w,
  steps c stop signal k t f rcb w = steps c stop signal k t g rcb w.
Proof.
  intro H. induction k as [|k IH]; intro w; auto. cbn [steps]. rewrite H. destruct (step c t g w); auto.
  destruct (if signal _ then rcb else None); auto. cbv zeta. destruct (stop _); auto.
Qed.
Lemma run_fused stop signal cbs nsteps sim_time w : fused_is_staged ->
  run c stop signal cbs nsteps sim_time w = run_with c stop signal (fun _ _ => false) cbs nsteps sim_time w.
Proof.
  intro H. unfold run, run_with. destruct (register cbs) as [t|]; auto. destruct (run_stage c t "init" w); auto.
  destruct (handle_nsteps _ _ _ _); auto. rewrite (steps_ext stop signal t (use_fused c t) (fun _ => false)); auto.
  intro w1. now apply step_fused.
Qed.

(** ** determinism in the simulation state *)
Definition syncs (f : act) : Prop := forall w w', w_sim w = w_sim w' ->
  match f w, f w' with
  | Ok a, Ok b => w_sim a = w_sim b /\ exists l, w_log a = w_log w ++ l /\ w_log b = w_log w' ++ l
  | Err e, Err e' => e = e'
  | _, _ => False
  end.
Lemma syncs_seq fs : Forall syncs fs -> syncs (seqr fs).
Proof.
  induction 1 as [|f fs Hf Hfs IH]; intros w w' E.
  - cbn. split; auto. exists []. now rewrite !app_nil_r.
  - rewrite !seqr_cons. specialize (Hf w w' E). destruct (f w) as [a|], (f w') as [b|]; cbn [bind]; auto; try tauto.
    destruct Hf as (E1 & l & L1 & L2). specialize (IH a b E1). destruct (seqr fs a) as [a'|], (seqr fs b) as [b'|]; auto; try tauto.
    destruct IH as (E2 & m & M1 & M2). split; auto. exists (l ++ m). rewrite M1, M2, L1, L2. now rewrite <- !app_assoc.
Qed.
Lemma syncs_same (w w' : world P) : w_sim w = w_sim w' -> forall a b : world P, w_sim a = w_sim b -> w_log a = w_log w -> w_log b = w_log w' ->
  w_sim a = w_sim b /\ exists l, w_log a = w_log w ++ l /\ w_log b = w_log w' ++ l.
Proof. intros E a b E1 E2 E3. split; auto. exists []. now rewrite !app_nil_r. Qed.
Lemma syncs_call s cb : syncs (call_cb c s cb).
Proof.
  intros w w' E. unfold call_cb. destruct (validate _); auto. rewrite <- E. destruct (triggered _ _ _).
  - destruct (cb_action cb); cbn; rewrite E; split; eauto.
  - now apply syncs_same.
Qed.
Lemma syncs_stage t s : syncs (run_stage c t s).
Proof.
  apply syncs_seq. apply Forall_forall. intros f Hf. apply in_map_iff in Hf. destruct Hf as (cb & <- & _). apply syncs_call.
Qed.
Lemma syncs_step t fused : syncs (step c t fused).
Proof.
  apply G_step.
  - intros f g E H w w' Hs. rewrite <- !E. now apply H.
  - apply syncs_seq.
  - intros h f g Hf Hg w w' Hs. rewrite Hs. destruct (h (w_sim w')); [now apply Hf|now apply Hg].
  - intros w w' Hs. now apply syncs_same.
  - intros o w w' Hs. unfold do_op. apply syncs_same; cbn; auto. now rewrite Hs.
  - intros o w w' Hs. unfold set_ispec. apply syncs_same; cbn; auto. now rewrite Hs.
  - intros s _ _ _. apply syncs_stage.
Qed.
Lemma syncs_steps t fused rcb k : forall w w', w_sim w = w_sim w' ->
  ends_alike (steps c never no_signal k t fused rcb w) (w_log w) (steps c never no_signal k t fused rcb w') (w_log w').
Proof.
  induction k as [|k IH]; intros w w' E; cbn [steps].
  - cbn. split; auto. exists []. now rewrite !app_nil_r.
  - pose proof (syncs_step t fused w w' E) as S1. destruct (step c t fused w) as [a|], (step c t fused w') as [b|]; cbn; auto; try tauto.
    destruct S1 as (E1 & l & L1 & L2).
    assert (E2 : w_sim (advance_w c a) = w_sim (advance_w c b)) by (cbn; now rewrite E1).
    specialize (IH _ _ E2).
    destruct (steps c never no_signal k t fused rcb (advance_w c a)), (steps c never no_signal k t fused rcb (advance_w c b)); cbn in *; auto; try tauto.
    destruct IH as (E3 & m & M1 & M2). split; auto. exists (l ++ m). rewrite M1, M2, L1, L2. now rewrite <- !app_assoc.
Qed.

(** ** the checkpoint directory during a run *)
Definition keeps_disk (w w' : world P) : Prop :=
  itime (w_sim w') = itime (w_sim w) /\
  (six_digits (itime (w_sim w)) -> disk_upto (itime (w_sim w)) (w_disk w) -> disk_upto (itime (w_sim w')) (w_disk w')).
Lemma kd_refl w : keeps_disk w w. Proof. split; auto. Qed.
Lemma kd_trans a b d : keeps_disk a b -> keeps_disk b d -> keeps_disk a d.
Proof. intros [A1 A2] [B1 B2]. split; [congruence|]. intros H6 H. apply B2; [now rewrite A1|]. now apply A2. Qed.
Hypothesis Hrem : forall n, removable c n = true.
Lemma dump_upto keep k (v : nat -> sim P) d : six_digits k -> disk_upto k d -> disk_upto k (dump (removable c) 1 keep k v d).
Proof.
  intros H6 (sts & H & HN & HS & HL).
  assert (HS' : Forall six_digits (with_step k sts)).
  { unfold with_step. destruct (in_dec _ _ _); auto. apply Forall_app; split; auto. }
  assert (HL' : forall s, In s (with_step k sts) -> s <= k).
  { intros s Hs. unfold with_step in Hs. destruct (in_dec _ _ _); auto. apply in_app_or in Hs. destruct Hs as [Hs|[<-|[]]]; auto. lia. }
  assert (HN' : NoDup (with_step k sts)) by now apply with_step_nodup.
  assert (W : disk_upto k (write_shards 1 (fun _ => Written) (ckpt_name k) v (mkdir (ckpt_name k) d))).
  { exists (with_step k sts). split; auto. apply written_holds; auto. unfold six_digits in H6. lia. }
  destruct keep as [[|n]|]; try exact W.
  exists (retained (S n) (with_step k sts)). split; [now apply dump_holds|]. split; [now apply NoDup_filter|]. split.
  - rewrite Forall_forall in *. intros x Hx. apply HS'. now apply filter_In in Hx.
  - intros s Hs. apply HL'. now apply filter_In in Hs.
Qed.
Lemma kd_call s cb : good keeps_disk (call_cb c s cb).
Proof.
  intros w w'. unfold call_cb. destruct (validate _); [discriminate|]. destruct (triggered _ _ _); intro E; injection E as <-; [|apply kd_refl].
  destruct (cb_action cb) as [f|keep]; split; cbn; auto. intros H6 H. now apply dump_upto.
Qed.
Lemma kd_seq fs : Forall (good keeps_disk) fs -> good keeps_disk (seqr fs).
Proof. apply good_seq; [apply kd_refl|apply kd_trans]. Qed.
Lemma kd_stage t s : good keeps_disk (run_stage c t s).
Proof. apply kd_seq. apply Forall_forall. intros f Hf. apply in_map_iff in Hf. destruct Hf as (cb & <- & _). apply kd_call. Qed.
Lemma kd_step t fused : good keeps_disk (step c t fused).
Proof.
  apply G_step.
  - apply good_ext.
  - apply kd_seq.
  - intros; now apply good_if.
  - apply good_ok, kd_refl.
  - intros o w w' E. injection E as <-. split; auto.
  - intros o w w' E. injection E as <-. split; auto.
  - intros; apply kd_stage.
Qed.

Lemma upto_mono k k' (d : disk (sim P)) : k <= k' -> disk_upto k d -> disk_upto k' d.
Proof. intros H (s & A & B & D & E). exists s. repeat split; try apply A; auto. intros x Hx. specialize (E x Hx). lia. Qed.

Lemma steps_disk signal t fused rcb k : forall w w',
  steps c never signal k t fused rcb w = Finished w' ->
  0 <= itime (w_sim w) -> itime (w_sim w) + Z.of_nat k <= 10 ^ 6 -> disk_upto (itime (w_sim w)) (w_disk w) ->
  disk_upto (itime (w_sim w')) (w_disk w').
Proof.
  induction k as [|k IH]; intros w w' E H0 H6 HD; cbn [steps] in E; [injection E as <-; auto|].
  destruct (step c t fused w) as [w1|] eqn:E1; [|discriminate].
  destruct (if signal (itime (w_sim w1)) then rcb else None); [discriminate|]. cbn [never] in E. cbv zeta in E.
  pose proof (kd_step t fused w w1 E1) as [K1 K2]. unfold never in E.
  apply IH in E; cbn; auto; try lia. rewrite K1. apply (upto_mono (itime (w_sim w))); [lia|]. rewrite <- K1. apply K2; auto.
  unfold six_digits. lia.
Qed.

(** a dump of the newest step can be loaded *)
Lemma dump_loads keep w : six_digits (itime (w_sim w)) -> disk_upto (itime (w_sim w)) (w_disk w) ->
  load_shard (ckpt_name (itime (w_sim w))) 0 (w_disk (dump_sim c keep w)) = Some (w_sim w).
Proof.
  intros H6 (sts & A & B & D & E). cbn.
  apply (newest_loaded (removable c) 1 keep sts (w_disk w) (itime (w_sim w)) (fun _ => w_sim w)); auto.
Qed.

Variable reload : P -> P.
Lemma load_is_advance w w1 t fused : clock_ok c w -> step c t fused w = Ok w1 -> reload (rest (w_sim w1)) = rest (w_sim w1) ->
  load_sim c reload (w_sim w1) = advance c (w_sim w1).
Proof.
  intros Hc E HR. pose proof (advance_time c t fused w w1 Hc E) as HT. unfold load_sim, advance in *. cbn [time] in HT. now rewrite HR, HT.
Qed.
Lemma steps_clock stop signal t fused rcb k : forall w w',
  steps c stop signal k t fused rcb w = Finished w' -> clock_ok c w -> clock_ok c w'.
Proof.
  induction k as [|k IH]; intros w w' E Hc; cbn [steps] in E; [injection E as <-; auto|].
  destruct (step c t fused w) as [w1|] eqn:E1; [|discriminate].
  destruct (if signal (itime (w_sim w1)) then rcb else None); [discriminate|]. cbv zeta in E.
  destruct (stop _); [discriminate|]. apply IH in E; auto. eapply step_clock_ok; eauto.
Qed.

(** a signal-driven dump at some step: split of the interrupted run *)
Lemma steps_dumped signal t fused rcb k : forall w wd,
  steps c never signal k t fused rcb w = Dumped wd -> 
  exists j wk w1 keep, (j < k)%nat /\ rcb = Some keep /\ steps c never signal j t fused rcb w = Finished wk /\
    steps c never no_signal j t fused rcb w = Finished wk /\
    step c t fused wk = Ok w1 /\ wd = dump_sim c keep w1.
Proof.
  induction k as [|k IH]; intros w wd E; cbn [steps] in E; [discriminate|].
  destruct (step c t fused w) as [w1|] eqn:E1; [|discriminate].
  destruct (if signal (itime (w_sim w1)) then rcb else None) as [keep|] eqn:ES.
  - injection E as <-. exists 0%nat, w, w1, keep. split; [lia|]. split; [destruct (signal _); congruence|]. repeat split; auto.
  - unfold never in E at 1. cbv zeta in E. cbn beta iota in E.
    destruct (IH _ _ E) as (j & wk & w2 & keep & Hj & Hr & S1 & S2 & S3 & S4).
    exists (S j), wk, w2, keep. split; [lia|]. split; auto. cbn [steps]. rewrite E1, ES. cbv zeta. unfold never at 1 3.
    split; [exact S1|]. split; [exact S2|]. auto.
Qed.

(** resuming after step [wk -> w1] ends like the uninterrupted run *)
Lemma resume_alike t fused rcb N cbs w j wk w1 d l :
  register cbs = Ok t -> no_callback "init" cbs -> fused = use_fused c t -> rcb = restart_cb cbs -> cfg_nsteps c = Some N ->
  clock_ok c w ->
  (j < Z.to_nat (N - itime (w_sim w)))%nat ->
  steps c never no_signal j t fused rcb w = Finished wk -> step c t fused wk = Ok w1 ->
  reload (rest (w_sim w1)) = rest (w_sim w1) ->
  ends_alike (run c never no_signal cbs None None w) (w_log w1)
             (run c never no_signal cbs None None (mkWorld (load_sim c reload (w_sim w1)) d l)) l.
Proof.
  intros ER Hi Ef Er EN Hc Hj S1 S2 HR. subst fused rcb. unfold run, run_with. rewrite ER.
  pose proof (register_ok _ _ ER) as [ET _].
  rewrite !(no_cb_stage t "init") by (rewrite ET; now apply no_cb_filter).
  unfold handle_nsteps. rewrite EN.
  pose proof (steps_itime _ _ _ _ _ _ _ _ S1) as I1. pose proof (step_clock c _ _ _ _ S2) as [I2 _].
  cbn [w_sim load_sim itime].
  set (k1 := Z.to_nat (N - itime (w_sim w))) in *.
  set (k2 := Z.to_nat (N - (itime (w_sim w1) + 1))).
  assert (Ek : k1 = (j + S k2)%nat) by lia. rewrite Ek, steps_app, S1. cbn [steps]. rewrite S2. unfold no_signal at 1. unfold never at 1.
  cbv zeta. 
  assert (E0 : w_sim (advance_w c w1) = w_sim (mkWorld (load_sim c reload (w_sim w1)) d l)).
  { cbn. symmetry. apply (load_is_advance wk w1 t (use_fused c t)); auto. eapply steps_clock; eauto. }
  pose proof (syncs_steps t (use_fused c t) (restart_cb cbs) k2 _ _ E0) as A.
  destruct (steps c never no_signal k2 t (use_fused c t) (restart_cb cbs) (advance_w c w1)) as [a|a|a|e];
  destruct (steps c never no_signal k2 t (use_fused c t) (restart_cb cbs) (mkWorld (load_sim c reload (w_sim w1)) d l)) as [b|b|b|e'];
    cbn in A; try tauto.
  - destruct A as (A1 & m & M1 & M2). pose proof (syncs_stage t "final" a b A1) as F.
    destruct (run_stage c t "final" a) as [a'|], (run_stage c t "final" b) as [b'|]; cbn; auto; try tauto.
    destruct F as (F1 & n & N1 & N2). split; auto. exists (m ++ n). rewrite N1, N2, M1, M2, <- !app_assoc. auto.
Qed.

Lemma resume_after_signal signal N cbs w wd :
  no_callback "init" cbs -> cfg_nsteps c = Some N ->
  clock_ok c w -> 0 <= itime (w_sim w) -> N <= 10 ^ 6 -> disk_upto (itime (w_sim w)) (w_disk w) ->
  run c never signal cbs None None w = Dumped wd -> reload (rest (w_sim wd)) = rest (w_sim wd) ->
  exists s, load_shard (ckpt_name (itime (w_sim wd))) 0 (w_disk wd) = Some s /\
  forall d l, ends_alike (run c never no_signal cbs None None w) (w_log wd)
                         (run c never no_signal cbs None None (mkWorld (load_sim c reload s) d l)) l.
Proof.
  intros Hi EN Hc H0 HN HD E HR. unfold run, run_with in E. destruct (register cbs) as [t|] eqn:ER; [|discriminate].
  pose proof (register_ok _ _ ER) as [ET _].
  rewrite (no_cb_stage t "init") in E by (rewrite ET; now apply no_cb_filter).
  unfold handle_nsteps in E. rewrite EN in E.
  destruct (steps c never signal (Z.to_nat (N - itime (w_sim w))) t (use_fused c t) (restart_cb cbs) w) as [a|a|a|e] eqn:ES; try discriminate.
  { destruct (run_stage c t "final" a); discriminate. }
  injection E as ->. apply steps_dumped in ES. destruct ES as (j & wk & w1 & keep & Hj & Hr & S1 & S1' & S2 & ->).
  cbn [dump_sim w_sim w_log] in *.
  assert (HDk : disk_upto (itime (w_sim wk)) (w_disk wk)) by (apply (steps_disk _ _ _ _ _ _ _ S1); auto; lia).
  pose proof (kd_step _ _ _ _ S2) as [K1 K2]. pose proof (steps_itime _ _ _ _ _ _ _ _ S1) as I1.
  assert (H6 : six_digits (itime (w_sim w1))) by (unfold six_digits; lia).
  exists (w_sim w1). split.
  - apply (dump_loads keep w1); auto. apply K2; auto. unfold six_digits in *; lia.
  - intros d l. eapply resume_alike; eauto.
Qed.

(** interval-driven dump: the end stage *)
Lemma call_quiet_disk s cb w w' : is_restart cb = false -> call_cb c s cb w = Ok w' -> w_disk w' = w_disk w.
Proof.
  unfold is_restart, call_cb. intro H. destruct (validate _); [discriminate|]. destruct (triggered _ _ _).
  - destruct (cb_action cb); [|discriminate]. intro E. injection E as <-. reflexivity.
  - intro E. now injection E as <-.
Qed.
Lemma harmless_call s cb w w' : harmless cb -> call_cb c s cb w = Ok w' -> w_disk w' = w_disk w /\ w_sim w' = w_sim w.
Proof.
  unfold harmless, call_cb. intro H. destruct (validate _); [discriminate|]. destruct (triggered _ _ _).
  - destruct (cb_action cb); [|destruct H]. intro E. injection E as <-. cbn. rewrite H. split; auto. now destruct (w_sim w).
  - intro E. now injection E as <-.
Qed.
Lemma harmless_seq s cbs : Forall harmless cbs -> forall w w', seqr (map (call_cb c s) cbs) w = Ok w' ->
  w_disk w' = w_disk w /\ w_sim w' = w_sim w.
Proof.
  induction 1 as [|x l Hx Hl IH]; intros w w' E; cbn [map] in E; [now injection E as <-|].
  rewrite seqr_cons in E. destruct (call_cb c s x w) as [w1|] eqn:E1; cbn [bind] in E; [|discriminate].
  apply IH in E. apply (harmless_call s x) in E1; auto. intuition congruence.
Qed.

Lemma step_dumped_at_end t fused rc pre post w w1 :
  t "end" = pre ++ rc :: post -> cb_action rc = Restart (match cb_action rc with Restart k => k | _ => None end) ->
  Forall harmless post -> NoDup (map cb_id (t "end")) ->
  (forall s, s <> "end" -> ~ In (cb_id rc) (map cb_id (t s))) ->
  step c t fused w = Ok w1 ->
  In (mkEv (itime (w_sim w)) "end" (cb_id rc)) (skipn (List.length (w_log w)) (w_log w1)) ->
  six_digits (itime (w_sim w)) -> disk_upto (itime (w_sim w)) (w_disk w) ->
  load_shard (ckpt_name (itime (w_sim w))) 0 (w_disk w1) = Some (w_sim w1).
Proof.
  intros Et Erc Hpost HN Habs E Hev H6 HD.
  assert (HNot : ~ In (cb_id rc) (map cb_id pre) /\ ~ In (cb_id rc) (map cb_id post)).
  { rewrite Et, map_app in HN. cbn [map] in HN. apply NoDup_remove_2 in HN. rewrite in_app_iff in HN. tauto. }
  unfold step in E. match type of E with seqr ?l w = _ => set (L := l) in E end.
  assert (EL : L = firstn 33 L ++ [run_stage c t "end"]) by reflexivity.
  rewrite EL, seqr_app in E. destruct (seqr (firstn 33 L) w) as [wa|] eqn:EA; cbn [bind] in E; [|discriminate].
  rewrite seqr_cons in E. destruct (run_stage c t "end" wa) as [we|] eqn:EE; cbn [bind seqr fold_left] in E; [|discriminate].
  injection E as <-.
  (* before the end stage *)
  assert (Ga : good keeps_disk (seqr (firstn 33 L)) /\ good (quiet (cb_id rc)) (seqr (firstn 33 L))
               /\ good (grows (fun _ => True)) (seqr (firstn 33 L))).
  { assert (GG : forall R : world P -> world P -> Prop, (forall x, R x x) -> (forall x y z, R x y -> R y z -> R x z) ->
      (forall o, good R (do_op c o)) -> (forall i, good R (set_ispec i)) ->
      (forall s, s <> "end" -> good R (run_stage c t s)) -> good R (seqr (firstn 33 L))).
    { intros R Rr Rt Ro Rs Rst. apply good_seq; auto. cbn [firstn L].
      assert (GW : forall b f, good R f -> good R (when b f)) by (intros b f Hf; destruct b; auto; intros x y Exy; injection Exy as <-; auto).
      repeat (constructor; [first [ apply Ro | apply Rs | apply Rst; discriminate | apply GW; apply Ro
           | apply good_for; auto; intro i; apply G_push; [apply good_ext|apply good_seq; auto|apply good_ok; auto|auto|auto|intros s Hs; apply Rst; intros ->; cbn in Hs; intuition discriminate]
           | apply good_for; auto; intro i; apply good_seq; auto; repeat (constructor; [first [apply Rs|apply Ro|apply GW; apply Ro]|]); constructor]|]).
      constructor. }
    split; [|split]; apply GG.
    - apply kd_refl. - apply kd_trans.
    - intros o x y Exy; injection Exy as <-; split; auto.
    - intros o x y Exy; injection Exy as <-; split; auto.
    - intros; apply kd_stage.
    - apply quiet_refl. - apply quiet_trans. - apply quiet_op. - apply quiet_sp. - intros s Hs. apply quiet_stage. auto.
    - apply grows_refl. - apply grows_trans. - apply grows_op. - apply grows_sp.
    - intros s _ x y Exy. apply stage_grows in Exy. eapply grows_weaken; [|exact Exy]. auto. }
  destruct Ga as (Gk & Gq & Gg). pose proof (Gk _ _ EA) as [K1 K2]. pose proof (Gq _ _ EA) as (Q1 & Q2 & Q3).
  pose proof (Gg _ _ EA) as (_ & _ & la & La & _).
  (* the end stage *)
  unfold run_stage in EE. rewrite Et, map_app, seqr_app in EE. cbn [map] in EE.
  destruct (seqr (map (call_cb c "end") pre) wa) as [wb|] eqn:EB; cbn [bind] in EE; [|discriminate].
  rewrite seqr_cons in EE. destruct (call_cb c "end" rc wb) as [wc|] eqn:EC; cbn [bind] in EE; [|discriminate].
  pose proof (stage_calls_absent c pre "end" (cb_id rc) wa wb (proj1 HNot) EB) as (B1 & B2 & B3).
  pose proof (stage_calls_absent c post "end" (cb_id rc) wc we (proj2 HNot) EE) as (D1 & D2 & D3).
  assert (Gb : good keeps_disk (seqr (map (call_cb c "end") pre))).
  { apply kd_seq. apply Forall_forall. intros f Hf. apply in_map_iff in Hf. destruct Hf as (cb & <- & _). apply kd_call. }
  pose proof (Gb _ _ EB) as [KB1 KB2].
  destruct (harmless_seq "end" post Hpost wc we EE) as [P1 P2].
  assert (Tr : triggered (dt c) (w_sim wb) (interval_of rc) = true).
  { destruct (triggered (dt c) (w_sim wb) (interval_of rc)) eqn:T; auto. exfalso.
    apply call_cb_grows in EC. destruct EC as (_ & _ & C3). rewrite T, app_nil_r in C3.
    assert (X : calls_of (cb_id rc) (w_log we) = calls_of (cb_id rc) (w_log w)) by congruence.
    assert (Grow : exists l, w_log we = w_log w ++ l).
    { assert (Gs : forall cbs x y, seqr (map (call_cb c "end") cbs) x = Ok y -> exists l, w_log y = w_log x ++ l).
      { induction cbs as [|z cbs IHz]; intros x y Exy; cbn [map] in Exy; [injection Exy as <-; exists []; now rewrite app_nil_r|].
        rewrite seqr_cons in Exy. destruct (call_cb c "end" z x) as [x1|] eqn:Ez; cbn [bind] in Exy; [|discriminate].
        apply call_cb_grows in Ez. destruct Ez as (_ & _ & Z3). destruct (IHz _ _ Exy) as [l2 L2]. rewrite L2, Z3, <- app_assoc. eauto. }
      destruct (Gs _ _ _ EB) as [l1 L1]. destruct (Gs _ _ _ EE) as [l2 L2]. rewrite L2, C3, L1, La, <- !app_assoc. eauto. }
    destruct Grow as [l Hl]. rewrite Hl in Hev. rewrite skipn_app, skipn_all, Nat.sub_diag in Hev. cbn [skipn app] in Hev.
    rewrite Hl, calls_of_app in X.
    assert (Y : In (mkEv (itime (w_sim w)) "end" (cb_id rc)) (calls_of (cb_id rc) l)).
    { apply filter_In. split; auto. cbn. apply Nat.eqb_refl. }
    assert (Z : calls_of (cb_id rc) l = []) by (apply (app_inv_head (calls_of (cb_id rc) (w_log w))); now rewrite app_nil_r).
    rewrite Z in Y. destruct Y. }
  unfold call_cb in EC. destruct (validate _); [discriminate|]. rewrite Tr, Erc in EC. injection EC as <-.
  cbn [w_sim w_disk] in *. rewrite P1, P2. cbn [w_sim w_disk dump_sim].
  assert (Ei : itime (w_sim wb) = itime (w_sim w)) by congruence.
  rewrite <- Ei. apply (dump_loads _ wb).
  - now rewrite Ei.
  - apply KB2; [now rewrite K1|]. apply K2; auto.
Qed.

Lemma resume_after_interval N cbs rc pre post w j wk w1 t :
  register cbs = Ok t -> no_callback "init" cbs -> unique_ids cbs ->
  cbs = pre ++ rc :: post -> is_restart rc = true -> stage_of rc = "end" ->
  (forall cb, In cb post -> stage_of cb = "end" -> harmless cb) ->
  cfg_nsteps c = Some N -> clock_ok c w -> 0 <= itime (w_sim w) -> N <= 10 ^ 6 -> disk_upto (itime (w_sim w)) (w_disk w) ->
  (j < Z.to_nat (N - itime (w_sim w)))%nat ->
  steps c never no_signal j t (use_fused c t) (restart_cb cbs) w = Finished wk ->
  step c t (use_fused c t) wk = Ok w1 ->
  In (mkEv (itime (w_sim wk)) "end" (cb_id rc)) (skipn (List.length (w_log wk)) (w_log w1)) ->
  reload (rest (w_sim w1)) = rest (w_sim w1) ->
  exists s, load_shard (ckpt_name (itime (w_sim wk))) 0 (w_disk w1) = Some s /\
  forall d l, ends_alike (run c never no_signal cbs None None w) (w_log w1)
                         (run c never no_signal cbs None None (mkWorld (load_sim c reload s) d l)) l.
Proof.
  intros ER Hi HU Ecb Hrc Hst Hpost EN Hc H0 HN HD Hj S1 S2 Hev HR.
  pose proof (register_ok _ _ ER) as [ET _].
  pose proof (steps_itime _ _ _ _ _ _ _ _ S1) as I1.
  assert (HDk : disk_upto (itime (w_sim wk)) (w_disk wk)) by (apply (steps_disk _ _ _ _ _ _ _ S1); auto; lia).
  exists (w_sim w1). split; [|intros d l; eapply resume_alike; eauto].
  set (f := fun cb : callback P => ("end" =? stage_of cb)%string).
  assert (Hin : In rc cbs) by (rewrite Ecb; apply in_or_app; right; now left).
  apply (step_dumped_at_end t (use_fused c t) rc (filter f pre) (filter f post)); auto.
  - rewrite ET, Ecb, filter_app. cbn [filter]. rewrite Hst. reflexivity.
  - unfold is_restart in Hrc. destruct (cb_action rc); [discriminate|reflexivity].
  - apply Forall_forall. intros cb Hcb. apply filter_In in Hcb. destruct Hcb as [H1 H2]. apply Hpost; auto.
    unfold f in H2. apply String.eqb_eq in H2. auto.
  - rewrite ET. now apply filter_nodup_ids.
  - intros s Hs. rewrite ET. apply unique_other; auto. now rewrite Hst.
  - unfold six_digits. lia.
Qed.
End P3.
