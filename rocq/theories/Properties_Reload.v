(** C100: with automatic reloading, what runs is the script as last saved. C101: what happens to scripts that leave
    something implicit, to failing scripts and to unusual modification times. *)
From Verif Require Import Base M_Reload S_Reload P_Reload.
From Coq Require Import String.
Local Open Scope list_scope.
Local Open Scope nat_scope.

Lemma reach_mono op (P R : script -> nat -> nat -> Prop) st : (forall s a b, P s a b -> R s a b) -> reach op P st -> reach op R st.
Proof.
  intros H. induction 1 as [s m h|st h IH|st s m h IH hs];
    [apply R_init; auto|apply R_act; auto|apply R_save; auto].
Qed.

(** Whatever is saved and whenever, every run that is started is the complete plan of a saved script, begun at step 0. *)
Theorem C100_every_run x op st p k :
  reach op (newer (explicit x)) st -> In (Start p k) (log st) ->
  k = 0 /\ exists s, explicit x s /\ runs_alone x s p.
Proof.
  intros H Hin. apply (reach_inv x op (explicit x) (fun s h => h)) in H as (_ & F & _).
  rewrite Forall_forall in F. exact (F _ Hin).
Qed.

(** When the runner has finished and sees no modification, the last thing it did was the whole run of the file on disk. *)
Theorem C100_settled x op st :
  reach op (newer (explicit x)) st ->
  at_ st <> Begin -> at_ st <> Crashed -> at_ st <> Aborted ->
  finished st = true -> modified st = false -> mtime st <= last st ->
  exists l p, log st = l ++ whole_run p /\ runs_alone x (disk st) p.
Proof.
  intros H n1 n2 n3 Hf Hm Hl. apply (reach_inv x op (explicit x) (fun s h => h)) in H.
  apply (settled_run x op (explicit x) (fun s h => h) st H); auto. repeat split; auto.
Qed.

(** From every reachable state, if the user stops saving, the runner completes the run of the file on disk. *)
Theorem C100_settles x op st :
  exit_on_finish op = false ->
  reach op (newer (fun s => explicit x s /\ forall p, runs_alone x s p -> p_raises p = None)) st ->
  exists n l p, log (acts op n st) = l ++ whole_run p /\ runs_alone x (disk st) p /\
    finished (acts op n st) = true /\ modified (acts op n st) = false /\ mtime st <= last (acts op n st).
Proof.
  intros Ho H. set (Q := fun s => explicit x s /\ forall p, runs_alone x s p -> p_raises p = None) in *.
  assert (HQ : forall s, Q s -> explicit x s) by (intros s [h _]; exact h).
  apply (reach_inv x op Q HQ) in H.
  destruct (always_settles x op Q HQ) with (st := st) as (n & Hs & Hl); auto.
  { intros s p [_ h]. apply h. }
  pose proof (inv_acts x op Q HQ n st H) as Hi.
  destruct (settled_run x op Q HQ (acts op n st) Hi Hs) as (l & p & Hlog & RA); try apply Hl.
  destruct (acts_file op Ho n st) as [Hd Hm]. rewrite Hd in RA. destruct Hs as (a & b & c). rewrite Hm in c.
  exists n, l, p. auto.
Qed.

(** A save is noticed after the step being made; the next run is the new script's, from its beginning. *)
Theorem C100_reacts x op st o :
  reach op (newer (explicit x)) st -> at_ st = Stepping o -> last st < mtime st ->
  log (act op st) = log st ++ [Failed] \/
  exists k p rest, log (acts op 4 st) = log st ++ Step k :: Stopped :: Start p 0 :: rest /\ runs_alone x (disk st) p /\
    (rest = [] \/ rest = [Finished]).
Proof.
  intros H. apply (reach_inv x op (explicit x) (fun s h => h)) in H. now apply (reacts x op (explicit x) (fun s h => h)).
Qed.

(** In a single process, unless told to exit on errors, the runner survives every error of the script. *)
Theorem C100_survives x op st :
  exit_on_error op = false -> several_processes op = false ->
  reach op (newer (explicit x)) st -> at_ st <> Crashed /\ at_ st <> Aborted.
Proof.
  intros h1 h2 H. apply (reach_inv x op (explicit x) (fun s h => h)) in H as (_ & _ & H).
  split; intro E; rewrite E in H; destruct H as [[h|h] _]; congruence.
Qed.

(** a script with one species, one simulation and callbacks; two versions *)
Definition demo (x : string) (n : nat) (r : option nat) (cb : list nat) : script :=
  [MkSpecies "e" 7; MkSim x n r; AddSpecies x ["e"%string]; SetCallbacks cb].
Lemma demo_alone n r cb : runs_alone "sim" (demo "sim" n r cb) (mkPlan n r [7] cb).
Proof.
  eexists _, _, _. split; [reflexivity|]. split; [reflexivity|]. split; [|split; [reflexivity|reflexivity]].
  intros y o. cbn [fst ns]. rewrite !lookup_bind.
  destruct (String.eqb y "callbacks"); [discriminate|]. destruct (String.eqb_spec y "sim"); [auto|].
  destruct (String.eqb y "e"); discriminate.
Qed.
Lemma demo_explicit n r cb : explicit "sim" (demo "sim" n r cb).
Proof.
  split; [exists (mkPlan n r [7] cb); apply demo_alone|]. split; [|split].
  - intros i o ob E Lx No. injection E as <-. cbn in Lx. injection Lx as <-. cbn in No. injection No as <-. discriminate.
  - intros y n0 r0 [H|[H|[H|[H|[]]]]]; congruence.
  - exists cb. cbn. auto.
Qed.
Definition stay := mkOpt false false false.
(** the second version is saved while step 1 of the first one runs *)
Definition edited : state :=
  save (demo "sim" 3 None [5]) 11 (acts stay 5 (init (demo "sim" 6 None []) 10)).
Example C100_case :
  reach stay (newer (fun s => explicit "sim" s /\ forall p, runs_alone "sim" s p -> p_raises p = None)) edited /\
  log (acts stay 20 edited) =
    [Start (mkPlan 6 None [7] []) 0; Step 0; Step 1; Stopped;
     Start (mkPlan 3 None [7] [5]) 0; Step 0; Step 1; Step 2; Finished].
Proof.
  split; [|vm_compute; reflexivity].
  assert (D : forall n cb, explicit "sim" (demo "sim" n None cb) /\
              forall p, runs_alone "sim" (demo "sim" n None cb) p -> p_raises p = None).
  { intros n cb. split; [apply demo_explicit|]. intros p (i & o & ob & E & Lx & _ & No & ->).
    destruct (demo_alone n None cb) as (i' & o' & ob' & E' & Lx' & _ & No' & Ep').
    rewrite E in E'. injection E' as ->. rewrite Lx in Lx'. injection Lx' as ->. rewrite No in No'. injection No' as ->.
    injection Ep' as _ Hr _ _. cbn [p_raises]. congruence. }
  apply R_save; [|split; [apply D|cbn; lia]]. do 5 apply R_act. apply R_init. split; [apply D|lia].
Qed.

(** ** C101 *)
(** a script that runs by itself *)
Definition runnable (s : script) : Prop := exists x p, runs_alone x s p.
(** [finished] and unaware of any modification, but the last run is not that of the file on disk *)
Definition stale (st : state) : Prop :=
  finished st = true /\ modified st = false /\ at_ st = Top /\
  forall x p, runs_alone x (disk st) p -> forall l, log st <> l ++ whole_run p.

Lemma alone_det x y s p q : runs_alone x s p -> runs_alone y s q -> x = y /\ p = q.
Proof.
  intros (i & o & ob & E & Lx & Hall & No & ->) (i' & o' & ob' & E' & Lx' & Hall' & No' & ->).
  rewrite E in E'. injection E' as <-. pose proof (Hall' _ _ Lx) as ->. rewrite Lx in Lx'. injection Lx' as ->.
  rewrite No in No'. injection No' as ->. auto.
Qed.
Lemma stale_if st x0 p0 : finished st = true -> modified st = false -> at_ st = Top -> runs_alone x0 (disk st) p0 ->
  ~ In (Start p0 0) (log st) -> stale st.
Proof.
  intros h1 h2 h3 RA Hno. repeat (split; auto). intros x p Hp l H. destruct (alone_det _ _ _ _ _ Hp RA) as [_ ->].
  apply Hno. rewrite H. apply in_or_app. right. now left.
Qed.
Ltac alone x := eexists _, _, _; split; [reflexivity|]; split; [reflexivity|]; split; [|split; [reflexivity|reflexivity]];
  let y := fresh in let o := fresh in intros y o; cbn [fst ns]; rewrite !lookup_bind;
  repeat match goal with
  | |- (if (?a =? x)%string then _ else _) = _ -> _ => destruct (String.eqb_spec a x); [auto|]
  | |- (if ?b then _ else _) = _ -> _ => destruct b; [discriminate|]
  end; discriminate.
Ltac absent := vm_compute; let H := fresh in intro H; repeat (destruct H as [H|H]; [discriminate|]); exact H.

(** every script that runs by itself is eventually run in the same way — false: after renaming the variable from "a" to "b"
    the old simulation object is still in the module and is the one that is found *)
Theorem C101_renamed_simulation_refuted :
  exists st, reach stay (newer runnable) st /\ mtime st <= last st /\ stale st.
Proof.
  pose (st0 := acts stay 7 (init (demo "a" 2 None []) 1)).
  pose (st := acts stay 6 (save (demo "b" 5 None []) 2 st0)).
  assert (RA : runs_alone "a" (demo "a" 2 None []) (mkPlan 2 None [7] [])) by alone "a"%string.
  assert (RB : runs_alone "b" (demo "b" 5 None []) (mkPlan 5 None [7] [])) by alone "b"%string.
  exists st. split; [|split; [vm_compute; lia|]].
  - unfold st, st0. do 6 apply R_act. apply R_save; [|split; [eexists _, _; exact RB|vm_compute; lia]].
    do 7 apply R_act. apply R_init. split; [eexists _, _; exact RA|lia].
  - apply (stale_if st _ _ eq_refl eq_refl eq_refl RB). absent.
Qed.

(** ... false as well for scripts that rely on species being picked up without [add_species]: the species of the versions loaded
    before are picked up too *)
Definition implicit (d : nat) : script := [MkSpecies "e" d; MkSim "sim" 2 None; SetCallbacks []].
Theorem C101_implicit_species_refuted :
  exists st, reach stay (newer runnable) st /\ mtime st <= last st /\ stale st /\
    In (Start (mkPlan 2 None [7; 8] []) 0) (log st).
Proof.
  pose (st0 := acts stay 7 (init (implicit 7) 1)).
  pose (st := acts stay 8 (save (implicit 8) 2 st0)).
  assert (RA : runs_alone "sim" (implicit 7) (mkPlan 2 None [7] [])) by alone "sim"%string.
  assert (RB : runs_alone "sim" (implicit 8) (mkPlan 2 None [8] [])) by alone "sim"%string.
  exists st. split; [|split; [vm_compute; lia|split]].
  - unfold st, st0. do 8 apply R_act. apply R_save; [|split; [eexists _, _; exact RB|vm_compute; lia]].
    do 7 apply R_act. apply R_init. split; [eexists _, _; exact RA|lia].
  - apply (stale_if st _ _ eq_refl eq_refl eq_refl RB). absent.
  - vm_compute. auto 10.
Qed.

(** ... and for a script whose [callbacks] were deleted: the old ones stay in use *)
Definition no_callbacks : script := [MkSpecies "e" 7; MkSim "sim" 2 None; AddSpecies "sim" ["e"%string]].
Theorem C101_deleted_callbacks_refuted :
  exists st, reach stay (newer runnable) st /\ mtime st <= last st /\ stale st /\ callbacks_of (ns (int st)) = [5].
Proof.
  pose (st0 := acts stay 7 (init (demo "sim" 2 None [5]) 1)).
  pose (st := acts stay 8 (save no_callbacks 2 st0)).
  assert (RA : runs_alone "sim" (demo "sim" 2 None [5]) (mkPlan 2 None [7] [5])) by alone "sim"%string.
  assert (RB : runs_alone "sim" no_callbacks (mkPlan 2 None [7] [])) by alone "sim"%string.
  exists st. split; [|split; [vm_compute; lia|split]].
  - unfold st, st0. do 8 apply R_act. apply R_save; [|split; [eexists _, _; exact RB|vm_compute; lia]].
    do 7 apply R_act. apply R_init. split; [eexists _, _; exact RA|lia].
  - apply (stale_if st _ _ eq_refl eq_refl eq_refl RB). absent.
  - vm_compute. reflexivity.
Qed.

(** every saved change is noticed — false when the modification time does not grow (restoring an older file, coarse clocks) *)
Theorem C101_older_file_refuted :
  exists st, reach stay (fun s _ _ => explicit "sim" s) st /\ mtime st <= last st /\ stale st /\
    forall n, log (acts stay n st) = log st.
Proof.
  pose (st := save (demo "sim" 3 None []) 9 (acts stay 7 (init (demo "sim" 2 None []) 10))).
  assert (RB : runs_alone "sim" (demo "sim" 3 None []) (mkPlan 3 None [7] [])) by alone "sim"%string.
  exists st. split; [|split; [vm_compute; lia|split]].
  - unfold st. apply R_save; [|apply demo_explicit]. do 7 apply R_act. apply R_init. apply demo_explicit.
  - apply (stale_if st _ _ eq_refl eq_refl eq_refl RB). absent.
  - assert (C : forall n a, a = st \/ a = act stay st \/ a = act stay (act stay st) -> log (acts stay n a) = log st).
    { assert (L1 : log (act stay st) = log st) by (vm_compute; reflexivity).
      assert (L2 : log (act stay (act stay st)) = log st) by (vm_compute; reflexivity).
      assert (L3 : act stay (act stay (act stay st)) = st) by (vm_compute; reflexivity).
      clearbody st. induction n as [|n IH]; intros a Ha; cbn [acts].
      - destruct Ha as [->|[->| ->]]; auto.
      - apply IH. destruct Ha as [->|[->| ->]]; auto. }
    intro n. apply C. now left.
Qed.

(** every run begins at step 0 — false after saving a script that does not load: the old simulation is set up again but
    its step counter goes on, so the repeated run makes only the remaining steps *)
Theorem C101_broken_script_refuted :
  exists st p, reach stay (newer (fun _ => True)) st /\ finished st = true /\ modified st = false /\ mtime st <= last st /\
    log st = [Start p 0; Step 0; Step 1; Stopped; Start p 2; Step 2; Finished].
Proof.
  exists (acts stay 7 (save [Raise] 2 (acts stay 5 (init (demo "sim" 3 None []) 1)))), (mkPlan 3 None [7] []).
  split; [|vm_compute; auto].
  do 7 apply R_act. apply R_save; [|split; [exact Logic.I|vm_compute; lia]]. do 5 apply R_act. apply R_init. split; [exact Logic.I|lia].
Qed.

(** an error is survived — false with several processes: the whole job is aborted *)
Theorem C101_error_with_processes_refuted :
  exists st, reach (mkOpt false false true) (newer (explicit "sim")) st /\ at_ st = Aborted.
Proof.
  exists (acts (mkOpt false false true) 6 (init (demo "sim" 3 (Some 1) []) 1)). split; [|vm_compute; reflexivity].
  do 6 apply R_act. apply R_init. split; [apply demo_explicit|lia].
Qed.

Print Assumptions C100_every_run.
Print Assumptions C100_settled.
Print Assumptions C100_settles.
Print Assumptions C100_reacts.
Print Assumptions C100_survives.
Print Assumptions C100_case.
Print Assumptions C101_renamed_simulation_refuted.
Print Assumptions C101_implicit_species_refuted.
Print Assumptions C101_deleted_callbacks_refuted.
Print Assumptions C101_older_file_refuted.
Print Assumptions C101_broken_script_refuted.
Print Assumptions C101_error_with_processes_refuted.
