(** C20, C21, C22 and the selection part of C24.  Vocabulary: S_RunLoop (and S_Checkpoint for the directory). *)
From Verif Require Import Base M_Checkpoint S_Checkpoint M_Debye M_RunLoop S_RunLoop P_RunLoop P_RunLoop2 P_RunLoop3 P_RunLoop4.
From Coq Require Import QArith String Sorting.Sorted Lqa.
Local Open Scope string_scope.
Local Open Scope list_scope.
Local Open Scope Z_scope.

(** ** C20 *)
(** In a run that ends normally or through stop_callback, a callback with integer interval n on a stage executed once per
    step is called exactly once in each executed step divisible by n, in order, at its own stage. *)
Theorem C20_integer_interval :
  forall (P : Type) (c : config P) stop signal choose cbs nsteps sim_time w o w' cb n,
  run_with c stop signal choose cbs nsteps sim_time w = o -> (o = Finished w' \/ o = StoppedByCallback w') ->
  unique_ids cbs -> In cb cbs -> step_stage (stage_of cb) -> interval_of cb = IInt n -> clock_ok c w ->
  calls_of (cb_id cb) (w_log w') = calls_of (cb_id cb) (w_log w) ++
    map (fun j => mkEv j (stage_of cb) (cb_id cb))
      (filter (due_int n) (zrange (itime (w_sim w)) (Z.to_nat (itime (w_sim w') - itime (w_sim w))))).
Proof. exact @run_calls_int. Qed.

(** Time interval x: called exactly at the executed steps j whose time j*dt lies in the first dt of a period, and, when x is at
    least one step long, exactly once in every period [m x, (m+1) x) covered by the run. *)
Theorem C20_time_interval :
  forall (P : Type) (c : config P) stop signal choose cbs nsteps sim_time w o w' cb x,
  run_with c stop signal choose cbs nsteps sim_time w = o -> (o = Finished w' \/ o = StoppedByCallback w') ->
  unique_ids cbs -> In cb cbs -> step_stage (stage_of cb) -> interval_of cb = IFloat x -> clock_ok c w ->
  (0 < dt c)%Q -> (0 < x)%Q ->
  exists js, calls_of (cb_id cb) (w_log w') = calls_of (cb_id cb) (w_log w) ++ map (fun j => mkEv j (stage_of cb) (cb_id cb)) js /\
  StronglySorted Z.lt js /\
  (forall j, In j js <-> (itime (w_sim w) <= j < itime (w_sim w') /\ due_float x (dt c) j)) /\
  ((dt c <= x)%Q -> forall m, 0 <= m ->
     (inject_Z (itime (w_sim w)) * dt c <= inject_Z m * x)%Q -> (inject_Z (m + 1) * x <= inject_Z (itime (w_sim w')) * dt c)%Q ->
     exists j, In j js /\ (inject_Z m * x <= inject_Z j * dt c /\ inject_Z j * dt c < inject_Z (m + 1) * x)%Q /\
     forall j', In j' js -> (inject_Z m * x <= inject_Z j' * dt c /\ inject_Z j' * dt c < inject_Z (m + 1) * x)%Q -> j' = j).
Proof. exact @run_calls_float. Qed.

(** a time interval no longer than the time step fires in every step *)
Theorem C20_short_time_interval : forall x d j, (0 < x)%Q -> (x <= d)%Q -> due_float x d j.
Proof. exact short_interval_always. Qed.

(** Stages executed inside the species loop: exactly once per enabled species in each due step; in particular a callback on an
    inner push stage is never skipped by the fused push. *)
Theorem C20_species_stages :
  forall (P : Type) (c : config P) stop signal cbs nsteps sim_time w w' cb en,
  (run c stop signal cbs nsteps sim_time w = Finished w' \/ run c stop signal cbs nsteps sim_time w = StoppedByCallback w') ->
  unique_ids cbs -> In cb cbs -> species_stage (stage_of cb) -> clocked (interval_of cb) -> clock_ok c w -> fixed_species c en ->
  calls_of (cb_id cb) (w_log w') = calls_of (cb_id cb) (w_log w) ++
    flat_map (fun j => if triggered (dt c) (mkSim j (Qred (inject_Z j * dt c)) None (rest (w_sim w))) (interval_of cb)
                       then repeat (mkEv j (stage_of cb) (cb_id cb)) (List.length (filter en (seq 0 (nspecies c)))) else [])
         (zrange (itime (w_sim w)) (Z.to_nat (itime (w_sim w') - itime (w_sim w)))).
Proof. exact @run_calls_species. Qed.

(** Every call recorded in a run, at any stage (init and final included) and however the run ends, is a call of a registered
    callback at that callback's own stage in a step its interval asks for. *)
Theorem C20_only_own_stage_and_due_steps :
  forall (P : Type) (c : config P) stop signal choose cbs nsteps sim_time w w',
  out_world (run_with c stop signal choose cbs nsteps sim_time w) = Some w' -> clock_ok c w -> (0 < dt c)%Q ->
  exists l, w_log w' = w_log w ++ l /\
  Forall (fun e => exists cb, In cb cbs /\ cb_id cb = ev_cb e /\ stage_of cb = ev_stage e /\ due (dt c) (ev_step e) cb) l.
Proof. exact @run_due. Qed.

(** A callable interval: the callback body runs iff the callable returns true on the present state. *)
Theorem C20_callable_interval :
  forall (P : Type) (c : config P) stage cb f (w : world P), interval_of cb = ICall f ->
  if f (w_sim w) then exists w', call_cb c stage cb w = Ok w' /\ w_log w' = w_log w ++ [mkEv (itime (w_sim w)) stage (cb_id cb)]
  else call_cb c stage cb w = Ok w.
Proof.
  intros P c stage cb f w H. unfold call_cb. rewrite H. cbn [validate triggered]. destruct (f (w_sim w)); auto.
  eexists. split; [reflexivity|]. destruct (cb_action cb); reflexivity.
Qed.

(** Registration accepts exactly the callbacks whose stage exists. *)
Theorem C20_registration :
  forall (P : Type) (cbs : list (callback P)),
  (exists t, register cbs = Ok t) <-> (forall cb, In cb cbs -> In (stage_of cb) STAGES).
Proof. exact @register_iff. Qed.

Definition ex_cfg : config Z :=
  mkCfg (fun o p => match o with Deposit i => p + 1 | Fused i => p + 1 | _ => p end) (fun _ i => (i <? 2)%nat) 3
        (fun _ => true) (fun _ => false) (fun _ => false) false (1#10) (Some 6) None (fun _ => true).
Definition ex_world : world Z := mkWorld (mkSim 0 (Qred 0) None 0) [] [].
Definition count_cb : callback Z := mkCb 1 (Attr "end") (IInt 2) (User (fun s => 10 * rest s)).
Definition time_cb : callback Z := mkCb 2 (Attr "start") (IFloat (1#4)) (User (fun s => rest s)).
Definition dep_cb : callback Z := mkCb 3 (Attr "_qed") (IInt 3) (User (fun s => rest s)).
Example ex_C20 :
  clock_ok ex_cfg ex_world /\ fixed_species ex_cfg (fun i => (i <? 2)%nat) /\
  match run ex_cfg never no_signal [count_cb; time_cb; dep_cb] None None ex_world with
  | Finished w => map ev_step (calls_of 1 (w_log w)) = [0; 2; 4] /\ map ev_step (calls_of 2 (w_log w)) = [0; 3; 5] /\
                  map ev_step (calls_of 3 (w_log w)) = [0; 0; 3; 3] /\ itime (w_sim w) = 6
  | _ => False
  end.
Proof. vm_compute. repeat split. Qed.

(** ** C21 *)
(** Two runs in a row equal one run: state, disk, log and outcome, with the same stop condition and signals, without init and
    final callbacks (those run once per call of run).  If the first part does not finish, neither does the whole. *)
Theorem C21_run_in_pieces :
  forall (P : Type) (c : config P) stop signal choose cbs a b w,
  no_callback "init" cbs -> no_callback "final" cbs -> 0 <= a -> 0 <= b ->
  run_with c stop signal choose cbs (Some (a + b)) None w =
  match run_with c stop signal choose cbs (Some a) None w with
  | Finished w' => run_with c stop signal choose cbs (Some b) None w'
  | o => o
  end.
Proof. exact @run_pieces. Qed.

(** A finished run(nsteps=n) advanced the step counter by n; run(sim_time=T) goes to the absolute step int(T/dt), or stays where
    it is; without arguments the constructor's total is absolute. *)
Theorem C21_step_numbers :
  forall (P : Type) (c : config P) stop signal choose cbs w w',
  (forall n, 0 <= n -> run_with c stop signal choose cbs (Some n) None w = Finished w' -> itime (w_sim w') = itime (w_sim w) + n) /\
  (forall T, run_with c stop signal choose cbs None (Some T) w = Finished w' ->
     itime (w_sim w') = Z.max (itime (w_sim w)) (qtrunc (T / dt c))) /\
  (forall N, cfg_nsteps c = Some N -> run_with c stop signal choose cbs None None w = Finished w' ->
     itime (w_sim w') = Z.max (itime (w_sim w)) N).
Proof.
  intros P c stop signal choose cbs w w'. split; [|split].
  - intros n Hn E. apply run_itime in E. destruct E as (total & E1 & E2). cbn in E1. injection E1 as <-. lia.
  - intros T E. apply run_itime in E. destruct E as (total & E1 & E2). cbn in E1. injection E1 as <-. exact E2.
  - intros N EN E. apply run_itime in E. destruct E as (total & E1 & E2). cbn in E1. rewrite EN in E1. injection E1 as <-. exact E2.
Qed.

(** run(sim_time=T) does nothing when T is already reached. *)
Theorem C21_time_already_reached :
  forall (P : Type) (c : config P) stop signal choose cbs T w,
  no_callback "init" cbs -> no_callback "final" cbs -> (forall cb, In cb cbs -> In (stage_of cb) STAGES) ->
  (0 < dt c)%Q -> 0 <= itime (w_sim w) -> clock_ok c w -> (T <= time (w_sim w))%Q ->
  run_with c stop signal choose cbs None (Some T) w = Finished w.
Proof.
  intros P c stop signal choose cbs T w Hi Hf Hr Hd H0 Hc HT.
  apply (run_nothing c stop signal choose cbs None (Some T) w (qtrunc (T / dt c))); auto; [now apply register_iff|].
  rewrite Hc, Qred_correct in HT.
  assert (HQ : (T / dt c <= inject_Z (itime (w_sim w)))%Q) by (apply Qle_shift_div_r; auto).
  unfold qtrunc. destruct (T / dt c)%Q as [n d]. cbn [Qnum Qden]. unfold Qle in HQ. cbn in HQ.
  destruct (Z_le_gt_dec 0 n) as [Hn|Hn].
  - rewrite Z.quot_div_nonneg by lia. apply Z.div_le_upper_bound; lia.
  - assert (Z.quot n (Z.pos d) <= 0); [|lia]. pose proof (Z.quot_opp_l n (Z.pos d)) as Hq.
    assert (0 <= Z.quot (-n) (Z.pos d)) by (apply Z.quot_pos; lia). specialize (Hq ltac:(lia)). lia.
Qed.

(** both or neither of nsteps and sim_time (and none in the constructor) is an error *)
Theorem C21_bad_arguments :
  forall (P : Type) (c : config P) n T it,
  handle_nsteps c (Some n) (Some T) it = Err ValueError /\
  (cfg_nsteps c = None -> cfg_time c = None -> handle_nsteps c None None it = Err ValueError).
Proof. intros P c n T it. split; [reflexivity|]. intros E1 E2. cbn. now rewrite E1, E2. Qed.

Example ex_C21 :
  let r k w := run ex_cfg never no_signal [count_cb; time_cb; dep_cb] (Some k) None w in
  match r 2 ex_world with
  | Finished w2 => itime (w_sim w2) = 2 /\ r 3 w2 = r 5 ex_world /\
                   run ex_cfg never no_signal [count_cb] None (Some (1#5)) w2 = Finished w2
  | _ => False
  end.
Proof. vm_compute. repeat split. Qed.

(** ** C22 *)
(** Signal-driven dump at any step of a run to the constructor's total N (below 10^6): the checkpoint can be loaded and running
    the rest ends in the same state with the same remaining callback calls as the run that was not interrupted.
    Hypotheses: unpickling restores the state ([reload]), no init callbacks, no newer checkpoint directories. *)
Theorem C22_resume_after_signal_partial :
  forall (P : Type) (c : config P), (forall n, removable c n = true) ->
  forall reload signal N cbs w wd,
  no_callback "init" cbs -> cfg_nsteps c = Some N ->
  clock_ok c w -> 0 <= itime (w_sim w) -> N <= 10 ^ 6 -> disk_upto (itime (w_sim w)) (w_disk w) ->
  run c never signal cbs None None w = Dumped wd -> reload (rest (w_sim wd)) = rest (w_sim wd) ->
  exists s, load_shard (ckpt_name (itime (w_sim wd))) 0 (w_disk wd) = Some s /\
  forall d l, ends_alike (run c never no_signal cbs None None w) (w_log wd)
                         (run c never no_signal cbs None None (mkWorld (load_sim c reload s) d l)) l.
Proof. exact @resume_after_signal. Qed.

(** Interval-driven dump in step j of the run: same conclusion, if the callbacks registered on "end" after the RestartDump do not
    change the simulation. *)
Theorem C22_resume_after_interval_partial :
  forall (P : Type) (c : config P), (forall n, removable c n = true) ->
  forall reload N cbs rc pre post w j wk w1 t,
  register cbs = Ok t -> no_callback "init" cbs -> unique_ids cbs ->
  cbs = pre ++ rc :: post -> is_restart rc = true -> stage_of rc = "end" ->
  (forall cb, In cb post -> stage_of cb = "end" -> harmless cb) ->
  cfg_nsteps c = Some N -> clock_ok c w -> 0 <= itime (w_sim w) -> N <= 10 ^ 6 -> disk_upto (itime (w_sim w)) (w_disk w) ->
  (j < Z.to_nat (N - itime (w_sim w)))%nat ->
  steps c never no_signal j t (use_fused c t) (restart_cb cbs) w = Finished wk ->
  step c t (use_fused c t) wk = Ok w1 ->
  In (mkEv (itime (w_sim wk)) "end" (cb_id rc)) (skipn (List.length (w_log wk)) (w_log w1)) ->
  reload (rest (w_sim w1)) = rest (w_sim w1) ->
  exists s, load_shard (ckpt_name (itime (w_sim wk))) 0 (w_disk w1) = Some s /\
  forall d l, ends_alike (run c never no_signal cbs None None w) (w_log w1)
                         (run c never no_signal cbs None None (mkWorld (load_sim c reload s) d l)) l.
Proof. exact @resume_after_interval. Qed.

Definition dump_cb : callback Z := mkCb 0 (Attr "end") (IInt 3) (Restart (Some 2%nat)).
Lemma disk_upto_nil {A} k : disk_upto k ([] : disk A).
Proof. exists []. split; [|repeat split; try constructor; intros ? []]. unfold holds_checkpoints. repeat split; try constructor; try (intros ? []); try tauto. Qed.
Example ex_C22 :
  let cbs := [count_cb; dump_cb; time_cb] in
  disk_upto 0 (w_disk ex_world) /\
  match run ex_cfg never no_signal cbs None None ex_world with
  | Finished w => rest (w_sim w) = 2442 /\
      match load_shard (ckpt_name 3) 0 (w_disk w) with
      | Some s => match run ex_cfg never no_signal cbs None None (mkWorld (load_sim ex_cfg (fun p => p) s) [] []) with
                  | Finished w2 => w_sim w2 = w_sim w /\ w_log w2 = skipn 6 (w_log w)
                  | _ => False end
      | None => False end
  | _ => False end /\
  match run ex_cfg never (fun k => k =? 4) cbs None None ex_world with
  | Dumped w => match load_shard (ckpt_name 4) 0 (w_disk w) with Some s => itime s = 4 | None => False end
  | _ => False end.
Proof. split; [apply disk_upto_nil|]. vm_compute. repeat split. Qed.

(** C22 fails for an "end" callback that changes the simulation and is registered after the RestartDump: its effect in the
    dumped step is lost on resume. *)
Theorem C22_callback_after_dump_refuted :
  let cbs := [dump_cb; mkCb 1 (Attr "end") (IInt 1) (User (fun s => 10 * rest s))] in
  match run ex_cfg never no_signal cbs None None ex_world with
  | Finished wF =>
      match load_shard (ckpt_name 3) 0 (w_disk wF) with None => False | Some s =>
      match run ex_cfg never no_signal cbs None None (mkWorld (load_sim ex_cfg (fun p => p) s) (w_disk wF) []) with
      | Finished w2 => rest (w_sim wF) = 2222220 /\ rest (w_sim w2) = 222420
      | _ => False
      end end
  | _ => False
  end.
Proof. vm_compute. repeat split. Qed.

(** C22 fails with collisions: Collision.__setstate__ clears the screening statistics (collision.py:148-151 and 80-94), which
    otherwise accumulate from step to step (C42). *)
Definition coll_cfg : config cellst :=
  mkCfg (fun o p => match o with Collide => debye_step (fun n => n) [(Fin 4, 1%Q)] p | _ => p end) (fun _ _ => true) 1
        (fun _ => true) (fun _ => false) (fun _ => false) true (1#10) (Some 2) None (fun _ => true).
Theorem C22_collision_statistics_refuted :
  let dump1 := mkCb 0 (Attr "end") (IInt 1) (Restart None) in
  let w0 := mkWorld (mkSim 0 (Qred 0) None debye_init) [] [] in
  let reload := fun _ : cellst => debye_init in
  match run coll_cfg never no_signal [dump1] None None w0 with
  | Finished wF =>
      match load_shard (ckpt_name 0) 0 (w_disk wF) with None => False | Some s =>
      match run coll_cfg never no_signal [dump1] None None (mkWorld (load_sim coll_cfg reload s) (w_disk wF) []) with
      | Finished w2 => c_inv (rest (w_sim wF)) = Fin 2%Q /\ c_inv (rest (w_sim w2)) = Fin 1%Q
      | _ => False
      end end
  | _ => False
  end.
Proof. vm_compute. repeat split. Qed.

(** Continuing with the same object after a signal-driven dump (instead of loading) executes the dumped step twice: run returns
    before the step counter is advanced (simulation.py:1122-1130). *)
Theorem C22_continuing_same_object_refuted :
  match run ex_cfg never (fun k => k =? 4) [dump_cb] None None ex_world with
  | Dumped wd =>
      match run ex_cfg never no_signal [] None None wd, run ex_cfg never no_signal [] None None ex_world with
      | Finished a, Finished b => rest (w_sim a) = 14 /\ rest (w_sim b) = 12
      | _, _ => False
      end
  | _ => False
  end.
Proof. vm_compute. repeat split. Qed.

(** ** C24, selection of the fused push *)
(** A species is pushed by the fused kernel only if no callback is registered on any inner stage. *)
Theorem C24_fused_only_without_inner_callbacks :
  forall (P : Type) (c : config P) cbs t i s,
  register cbs = Ok t -> use_fused c t i = true -> In s INNER_STAGES -> no_callback s cbs.
Proof.
  intros P c cbs t i s ER HU Hs cb Hcb Hst. pose proof (use_fused_inner c t i s HU Hs) as E.
  apply register_ok in ER. destruct ER as [ET _]. rewrite ET in E.
  assert (X : In cb (filter (fun cb => (s =? stage_of cb)%string) cbs)) by (apply filter_In; split; auto; rewrite Hst; apply String.eqb_refl).
  rewrite E in X. destruct X.
Qed.
(** If the fused kernel equals the staged kernels, the whole run (state, disk, calls, outcome) is the same with and without it. *)
Theorem C24_run_with_and_without_fused :
  forall (P : Type) (c : config P) stop signal cbs nsteps sim_time w,
  (forall i p, phys c (Fused i) p = phys c (Deposit i) (phys c (PushPos i) (phys c (PushMom i) (phys c (Interp i) (phys c (PushPos i) p))))) ->
  run c stop signal cbs nsteps sim_time w = run_with c stop signal (fun _ _ => false) cbs nsteps sim_time w.
Proof. exact @run_fused. Qed.
Example ex_C24 :
  use_fused ex_cfg (fun _ => []) 0 = true /\
  (forall i p, phys ex_cfg (Fused i) p = phys ex_cfg (Deposit i) (phys ex_cfg (PushPos i) (phys ex_cfg (PushMom i) (phys ex_cfg (Interp i) (phys ex_cfg (PushPos i) p))))).
Proof. split; [reflexivity|]. intros. reflexivity. Qed.

Print Assumptions C20_integer_interval. Print Assumptions C20_time_interval. Print Assumptions C20_species_stages.
Print Assumptions C20_only_own_stage_and_due_steps. Print Assumptions C20_callable_interval. Print Assumptions C20_registration.
Print Assumptions C21_run_in_pieces. Print Assumptions C21_step_numbers. Print Assumptions C21_time_already_reached.
Print Assumptions C22_resume_after_signal_partial. Print Assumptions C22_resume_after_interval_partial.
Print Assumptions C22_callback_after_dump_refuted. Print Assumptions C22_collision_statistics_refuted.
Print Assumptions C22_continuing_same_object_refuted.
Print Assumptions C24_fused_only_without_inner_callbacks. Print Assumptions C24_run_with_and_without_fused.
