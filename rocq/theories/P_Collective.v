(** Proofs about the collective calls of a run. *)
From Verif Require Import Base M_Collective S_Collective.
From Coq Require Import QArith.
Local Open Scope list_scope.

Section Lockstep.
Variable size : nat.
Variables (thr0 dec inc : Q).
Variable vs : list view.
(** [completes] or [blocks] *)
Variable R : list prog -> list op -> Prop.
Hypothesis R_coll : forall o (vks : list (Q * (list Q -> prog))) t,
  R (map (fun vk => snd vk (map fst vks)) vks) t -> R (map (fun vk => Coll o (fst vk) (snd vk)) vks) (o :: t).
Lemma coll_map : forall (l : list view) o (f : view -> Q) (k : view -> list Q -> prog) t,
  R (map (fun i => k i (map f l)) l) t -> R (map (fun i => Coll o (f i) (k i)) l) (o :: t).
Proof.
  intros l o f k t H.
  pose proof (R_coll o (map (fun i => (f i, k i)) l) t) as C.
  rewrite !map_map in C. cbn [fst snd] in C. exact (C H).
Qed.

(** [goes K]: whatever the common state, the processes that continue with [K] finish together *)
Definition goes (K : view -> st -> prog) : Prop := forall s, exists t, R (map (fun v => K v s) vs) t.
Definition goes1 (K : view -> prog) : Prop := exists t, R (map K vs) t.

Lemma goes1_call : forall o K, goes1 K -> goes1 (fun v => call_ o (K v)).
Proof. intros o K (t & C). exists (o :: t). unfold call_. apply coll_map with (k := fun v _ => K v). exact C. Qed.
Lemma goes1_ext : forall K K' : view -> prog, (forall v, In v vs -> K v = K' v) -> goes1 K -> goes1 K'.
Proof. intros K K' E (t & C). exists t. rewrite <- (map_ext_in K K'); auto. Qed.

Lemma goes_start : forall K, goes K -> goes (fun v s => sync_start size s (K v)).
Proof.
  intros K G s. unfold sync_start. destruct (synced s || pending s); [apply G|].
  apply (goes1_call Barrier (fun v => K v _)). apply G.
Qed.
Lemma goes_wait : forall K, goes K -> goes (fun v s => sync_wait s (K v)).
Proof. intros K G s. unfold sync_wait. destruct (pending s); apply G. Qed.
Lemma goes_call : forall c K, goes K -> goes (fun v s => do_call size c s (K v)).
Proof.
  intros c K G s. destruct c as [o| | |]; cbn [do_call].
  - apply (goes1_call o (fun v => K v s)). apply G.
  - destruct (synced s); [apply G|]. apply (goes_start (fun v s => sync_wait s (K v))). now apply goes_wait.
  - now apply goes_start.
  - now apply goes_wait.
Qed.
Lemma goes_calls : forall cs K, goes K -> goes (fun v s => do_calls size cs s (K v)).
Proof.
  induction cs as [|c cs IH]; intros K G; [exact G|].
  intro s. cbn [do_calls]. apply (goes_call c (fun v s => do_calls size cs s (K v))). now apply IH.
Qed.
Lemma goes_stage : forall bs K, goes K -> goes (fun v s => run_stage size bs s (K v)).
Proof.
  induction bs as [|b bs IH]; intros K G; [exact G|].
  intro s. cbn [run_stage]. apply (goes_calls (b ++ [CColl Barrier]) (fun v s => run_stage size bs s (K v))). now apply IH.
Qed.

Hypothesis HA : agree_but_signals vs.
Variable v0 : view.
Hypothesis I0 : In v0 vs.
Lemma goes_ext : forall K K' : view -> st -> prog, (forall v s, In v vs -> K v s = K' v s) -> goes K -> goes K'.
Proof. intros K K' E G s. apply (goes1_ext (fun v => K v s)); [intros v I; now apply E|apply G]. Qed.
(** the callbacks due on a stage are those of any process *)
Lemma goes_due : forall it sg K, goes K -> goes (fun v s => run_stage size (due v it sg) s (K v)).
Proof.
  intros it sg K G. 
  apply goes_ext with (K := fun v s => run_stage size (due v0 it sg) s (K v)).
  - intros v s I. destruct (HA v v0 I I0 it) as (D & _). rewrite D. reflexivity.
  - now apply goes_stage.
Qed.
Lemma goes_unsync : forall K, goes K -> goes (fun v s => K v (unsync s)).
Proof. intros K G s. apply G. Qed.
Lemma goes_species : forall it is K, goes K -> goes (fun v s => species_loop size v it is s (K v)).
Proof.
  induction is as [|i is IH]; intros K G; [exact G|].
  cbn [species_loop].
  apply (goes_due it (Inner 1 i) (fun v s => run_stage size (due v it (Inner 2 i)) s (fun s =>
      run_stage size (due v it (Inner 3 i)) s (fun s => run_stage size (due v it (Inner 4 i)) s (fun s =>
      run_stage size (due v it (Inner 5 i)) s (fun s =>
      run_stage size (due v it (CurrentDeposition i)) (unsync s) (fun s => species_loop size v it is s (K v)))))))).
  apply (goes_due it (Inner 2 i) (fun v s => 
      run_stage size (due v it (Inner 3 i)) s (fun s => run_stage size (due v it (Inner 4 i)) s (fun s =>
      run_stage size (due v it (Inner 5 i)) s (fun s =>
      run_stage size (due v it (CurrentDeposition i)) (unsync s) (fun s => species_loop size v it is s (K v))))))).
  apply (goes_due it (Inner 3 i) (fun v s => run_stage size (due v it (Inner 4 i)) s (fun s =>
      run_stage size (due v it (Inner 5 i)) s (fun s =>
      run_stage size (due v it (CurrentDeposition i)) (unsync s) (fun s => species_loop size v it is s (K v)))))).
  apply (goes_due it (Inner 4 i) (fun v s => 
      run_stage size (due v it (Inner 5 i)) s (fun s =>
      run_stage size (due v it (CurrentDeposition i)) (unsync s) (fun s => species_loop size v it is s (K v))))).
  apply (goes_due it (Inner 5 i) (fun v s => 
      run_stage size (due v it (CurrentDeposition i)) (unsync s) (fun s => species_loop size v it is s (K v)))).
  apply (goes_unsync (fun v s => 
      run_stage size (due v it (CurrentDeposition i)) s (fun s => species_loop size v it is s (K v)))).
  apply (goes_due it (CurrentDeposition i) (fun v s => species_loop size v it is s (K v))).
  now apply IH.
Qed.
Lemma goes_should : forall (ld : view -> list Q) (s : st) (K : view -> bool -> prog),
  (forall v, In v vs -> ld v <> []) -> (forall b, goes1 (fun v => K v b)) -> goes1 (fun v => should_rebalance (ld v) s (K v)).
Proof.
  intros ld s K N G.
  destruct (G (unbalanced (threshold s) (map (fun v => qsum (ld v)) vs))) as (t & C).
  apply goes1_ext with (K := fun v => Coll Allgather (qsum (ld v)) (fun totals => K v (unbalanced (threshold s) totals))).
  - intros v I. unfold should_rebalance. specialize (N v I). destruct (ld v); [congruence|reflexivity].
  - exists (Allgather :: t). apply coll_map with (k := fun v totals => K v (unbalanced (threshold s) totals)). exact C.
Qed.
Lemma goes_balance : forall it K,
  ((1 < size)%nat -> forall v, In v vs -> loads v it <> [] /\ loads_after v it <> []) -> goes K -> goes (fun v s => balance size thr0 dec inc v it s (K v)).
Proof.
  intros it K HP G s. unfold balance. destruct (1 <? size)%nat eqn:E; [|apply G].
  apply Nat.ltb_lt in E. pose proof (HP E) as H.
  apply (goes_should (fun v => loads v it) s (fun v b => if b then rebalance thr0 dec inc (loads_after v it) s (K v) else K v s)).
  - intros v I. now apply H.
  - intros [|]; [|apply G].
    unfold rebalance.
    apply (goes1_call Gather (fun v => _)), (goes1_call Gather (fun v => _)), (goes1_call Gather (fun v => _)),
      (goes1_call Scatter (fun v => _)), (goes1_call Bcast (fun v => _)), (goes1_call Allgather (fun v => _)).
    apply (goes_should (fun v => loads_after v it) s (fun v b => K v (set_threshold s (if b then threshold s * inc
                           else if negb (Qle_bool (threshold s) thr0) then threshold s * dec
                           else threshold s)%Q))).
    + intros v I. now apply H.
    + intro b. apply G.
Qed.
Lemma goes_end : forall it K, (forall v, In v vs -> signal v it = false /\ stop v it = false) -> goes K ->
  goes (fun v s => if signal v it then call_ Barrier (call_ Barrier (call_ Barrier Done)) else if stop v it then Done else K v s).
Proof.
  intros it K E G. apply goes_ext with (K := K); [|exact G].
  intros v s I. destruct (E v I) as (-> & ->). reflexivity.
Qed.
(** the stages of a step up to the load balancing *)
Definition before_balance (v : view) (it : nat) (s : st) (k : st -> prog) : prog :=
  run_stage size (due v it Start) s (fun s =>
  run_stage size (due v it Maxwell1) s (fun s =>
  species_loop size v it (enabled v it) (unsync s) (fun s =>
  sync_start size s (fun s => sync_wait s k)))).
Definition after_balance (v : view) (it : nat) (s : st) (k : st -> prog) : prog :=
  run_stage size (due v it QedCreate) s (fun s =>
  run_stage size (due v it Laser) s (fun s =>
  run_stage size (due v it Maxwell2) s (fun s =>
  run_stage size (due v it End) s k))).
Lemma step_parts : forall v it s k, step size thr0 dec inc v it s k =
  before_balance v it s (fun s => balance size thr0 dec inc v it s (fun s => after_balance v it s (fun s =>
    if signal v it then call_ Barrier (call_ Barrier (call_ Barrier Done)) else if stop v it then Done else k s))).
Proof. reflexivity. Qed.
Lemma goes_before : forall it K, goes K -> goes (fun v s => before_balance v it s (K v)).
Proof.
  intros it K G. unfold before_balance.
  apply (goes_due it Start (fun v s => run_stage size (due v it Maxwell1) s (fun s =>
    species_loop size v it (enabled v it) (unsync s) (fun s => sync_start size s (fun s => sync_wait s (K v)))))).
  apply (goes_due it Maxwell1 (fun v s => species_loop size v it (enabled v it) (unsync s) (fun s => sync_start size s (fun s => sync_wait s (K v))))).
  apply (goes_unsync (fun v s => species_loop size v it (enabled v it) s (fun s => sync_start size s (fun s => sync_wait s (K v))))).
  apply goes_ext with (K := fun v s => species_loop size v it (enabled v0 it) s (fun s => sync_start size s (fun s => sync_wait s (K v)))).
  - intros v s I. destruct (HA v v0 I I0 it) as (_ & -> & _). reflexivity.
  - apply (goes_species it (enabled v0 it) (fun v s => sync_start size s (fun s => sync_wait s (K v)))).
    apply (goes_start (fun v s => sync_wait s (K v))). now apply goes_wait.
Qed.
Lemma goes_after : forall it K, goes K -> goes (fun v s => after_balance v it s (K v)).
Proof.
  intros it K G. unfold after_balance.
  apply (goes_due it QedCreate (fun v s => run_stage size (due v it Laser) s (fun s =>
    run_stage size (due v it Maxwell2) s (fun s => run_stage size (due v it End) s (K v))))).
  apply (goes_due it Laser (fun v s => 
    run_stage size (due v it Maxwell2) s (fun s => run_stage size (due v it End) s (K v)))).
  apply (goes_due it Maxwell2 (fun v s => run_stage size (due v it End) s (K v))).
  now apply goes_due.
Qed.
Lemma goes_step : forall it K,
  ((1 < size)%nat -> forall v, In v vs -> loads v it <> [] /\ loads_after v it <> []) ->
  goes (fun v s => if signal v it then call_ Barrier (call_ Barrier (call_ Barrier Done)) else if stop v it then Done else K v s) ->
  goes (fun v s => step size thr0 dec inc v it s (K v)).
Proof.
  intros it K HP G.
  apply goes_ext with (K := fun v s => before_balance v it s (fun s => balance size thr0 dec inc v it s (fun s => after_balance v it s (fun s =>
    if signal v it then call_ Barrier (call_ Barrier (call_ Barrier Done)) else if stop v it then Done else K v s)))).
  { intros. symmetry. apply step_parts. }
  apply (goes_before it (fun v s => balance size thr0 dec inc v it s (fun s => after_balance v it s (fun s =>
    if signal v it then call_ Barrier (call_ Barrier (call_ Barrier Done)) else if stop v it then Done else K v s)))).
  apply (goes_balance it (fun v s => after_balance v it s (fun s =>
    if signal v it then call_ Barrier (call_ Barrier (call_ Barrier Done)) else if stop v it then Done else K v s))); [exact HP|].
  apply (goes_after it (fun v s =>
    if signal v it then call_ Barrier (call_ Barrier (call_ Barrier Done)) else if stop v it then Done else K v s)).
  exact G.
Qed.
(** [j] uneventful steps, then the rest *)
Lemma goes_steps : forall j it n K,
  (forall i, (i < j)%nat -> (1 < size)%nat -> forall v, In v vs -> loads v (it + i)%nat <> [] /\ loads_after v (it + i)%nat <> []) ->
  (forall i v, (i < j)%nat -> In v vs -> signal v (it + i)%nat = false /\ stop v (it + i)%nat = false) ->
  goes (fun v s => steps size thr0 dec inc v n (it + j) s (K v)) ->
  goes (fun v s => steps size thr0 dec inc v (j + n) it s (K v)).
Proof.
  induction j as [|j IH]; intros it n K HP HS G.
  - rewrite Nat.add_0_r in G. exact G.
  - cbn [Nat.add steps].
    apply (goes_step it (fun v s => steps size thr0 dec inc v (j + n) (S it) s (K v))).
    + intros E v I. specialize (HP 0%nat ltac:(lia) E v I). rewrite Nat.add_0_r in HP. exact HP.
    + apply (goes_end it (fun v s => steps size thr0 dec inc v (j + n) (S it) s (K v))).
      * intros v I. specialize (HS 0%nat v ltac:(lia) I). rewrite Nat.add_0_r in HS. exact HS.
      * apply IH.
        -- intros i L E v I. specialize (HP (S i) ltac:(lia) E v I). rewrite <- plus_n_Sm in HP. exact HP.
        -- intros i v L I. specialize (HS (S i) v ltac:(lia) I). rewrite <- plus_n_Sm in HS. exact HS.
        -- rewrite <- plus_n_Sm in G. exact G.
Qed.
Lemma goes_run : forall n it s,
  goes (fun v s => steps size thr0 dec inc v n it s (fun s =>
    call_ Barrier (run_stage size (due v (it + n) Final) s (fun _ => Done)))) ->
  goes1 (fun v => run size thr0 dec inc v n it s).
Proof.
  intros n it s G. unfold run.
  apply (goes_due it Init (fun v s => call_ Barrier (steps size thr0 dec inc v n it s (fun s =>
    call_ Barrier (run_stage size (due v (it + n) Final) s (fun _ => Done)))))).
  clear s. intro s. apply (goes1_call Barrier (fun v => steps size thr0 dec inc v n it s (fun s =>
    call_ Barrier (run_stage size (due v (it + n) Final) s (fun _ => Done))))). apply G.
Qed.
End Lockstep.

Lemma agree_weak : forall vs, agree vs -> agree_but_signals vs.
Proof. intros vs H v w Iv Iw it. destruct (H v w Iv Iw it) as (A & B & _ & D). auto. Qed.

(** ** all finish together *)
Section Finish.
Variables (size : nat) (thr0 dec inc : Q) (vs : list view).
Hypothesis HA : agree vs.
Variable v0 : view.
Hypothesis I0 : In v0 vs.
Hypothesis HP : (1 < size)%nat -> all_hold_patches vs.
Let G1 := goes1 vs completes.
Let G := goes vs completes.
Lemma done1 : G1 (fun _ => Done).
Proof.
  exists []. constructor. apply Forall_forall. intros p I. apply in_map_iff in I. destruct I as (v & E & _). auto.
Qed.
Lemma finish_end : forall it K, G K ->
  G (fun v s => if signal v it then call_ Barrier (call_ Barrier (call_ Barrier Done)) else if stop v it then Done else K v s).
Proof.
  intros it K H s.
  apply goes1_ext with (K := fun v => if signal v0 it then call_ Barrier (call_ Barrier (call_ Barrier Done))
    else if stop v0 it then Done else K v s).
  - intros v I. destruct (HA v0 v I0 I it) as (_ & _ & -> & ->). reflexivity.
  - destruct (signal v0 it); [do 3 (apply goes1_call; [exact C_coll|]); apply done1|].
    destruct (stop v0 it); [apply done1|apply H].
Qed.
Lemma finish_steps : forall n it K, G K -> G (fun v s => steps size thr0 dec inc v n it s (K v)).
Proof.
  induction n as [|n IH]; intros it K H; [exact H|].
  cbn [steps].
  apply (goes_step size thr0 dec inc vs completes C_coll (agree_weak vs HA) v0 I0 it (fun v s => steps size thr0 dec inc v n (S it) s (K v))).
  - intros E v I. now apply HP.
  - apply (finish_end it (fun v s => steps size thr0 dec inc v n (S it) s (K v))). now apply IH.
Qed.
Theorem lockstep : forall n it s, exists t, completes (map (fun v => run size thr0 dec inc v n it s) vs) t.
Proof.
  intros n it s. apply (goes_run size thr0 dec inc vs completes C_coll (agree_weak vs HA) v0 I0). clear s.
  apply (finish_steps n it (fun v s => call_ Barrier (run_stage size (due v (it + n) Final) s (fun _ => Done)))).
  intro s. apply (goes1_call vs completes C_coll Barrier (fun v => run_stage size (due v (it + n) Final) s (fun _ => Done))).
  apply (goes_due size vs completes C_coll (agree_weak vs HA) v0 I0 (it + n) Final (fun v _ => Done)). intro s'. apply done1.
Qed.
End Finish.
