(** Proofs: runs that block. *)
From Verif Require Import Base M_Collective S_Collective P_Collective.
From Coq Require Import QArith.
Local Open Scope list_scope.

Definition bonly (b : list call) : Prop := forall o, In (CColl o) b -> o = Barrier.
Lemma calls_barrier : forall k, calls Barrier (call_ Barrier k).
Proof. intro k. exists 0%Q, (fun _ => k). reflexivity. Qed.

Section Heads.
Variables (size : nat) (thr0 dec inc : Q).
(** the first call of a callback body followed by its barrier is a barrier *)
Lemma body_head : forall b s k, bonly b -> calls Barrier (do_calls size (b ++ [CColl Barrier]) s k).
Proof.
  induction b as [|c b IH]; intros s k H.
  - cbn [app do_calls do_call]. apply calls_barrier.
  - cbn [app do_calls]. assert (bonly b) as Hb by (intros o I; apply H; now right).
    destruct c as [o| | |]; cbn [do_call].
    + rewrite (H o (or_introl eq_refl)). apply calls_barrier.
    + destruct (synced s); [now apply IH|]. unfold sync_start.
      destruct (synced s || pending s); [|apply calls_barrier].
      unfold sync_wait. destruct (pending s); now apply IH.
    + unfold sync_start. destruct (synced s || pending s); [now apply IH|apply calls_barrier].
    + unfold sync_wait. destruct (pending s); now apply IH.
Qed.
Lemma stage_head : forall bs s k, (forall b, In b bs -> bonly b) ->
  bs = [] \/ calls Barrier (run_stage size bs s k).
Proof.
  intros [|b bs] s k H; [now left|right]. cbn [run_stage]. apply body_head. apply H. now left.
Qed.
(** a stage either starts with a barrier or does nothing *)
Lemma stage_skip : forall (T : prog -> Prop) v it sg s k, barriers_only v -> (forall p, calls Barrier p -> T p) ->
  T (k s) -> T (run_stage size (due v it sg) s k).
Proof.
  intros T v it sg s k B TB H.
  destruct (stage_head (due v it sg) s k) as [E|E].
  - intros b I o J. exact (B it sg b o I J).
  - rewrite E. exact H.
  - apply TB, E.
Qed.
Lemma species_skip : forall (T : prog -> Prop) v it is s k, barriers_only v -> (forall p, calls Barrier p -> T p) ->
  synced s = false -> T (k s) -> T (species_loop size v it is s k).
Proof.
  intros T v it is s k B TB E H. induction is as [|i is IH]; [exact H|].
  cbn [species_loop].
  do 5 (apply stage_skip; [exact B|exact TB|]).
  apply stage_skip; [exact B|exact TB|].
  replace (unsync s) with s; [exact IH|].
  unfold unsync. destruct s as [a b c]. cbn in *. subst a. reflexivity.
Qed.
Definition quiet (p : prog) : Prop := p = Done \/ calls Barrier p.
Lemma quiet_bar : forall p, calls Barrier p -> quiet p.
Proof. intros p H. now right. Qed.
Lemma before_head : forall v it s k, barriers_only v -> pending s = false -> calls Barrier (before_balance size v it s k).
Proof.
  intros v it s k B E. unfold before_balance.
  do 2 (apply stage_skip; [exact B|auto|]).
  apply species_skip; [exact B|auto|reflexivity|].
  unfold sync_start, unsync. cbn [synced pending]. rewrite E. cbn [orb]. apply calls_barrier.
Qed.
Lemma steps_head : forall v n it s k, barriers_only v -> pending s = false -> (forall s, calls Barrier (k s)) ->
  calls Barrier (steps size thr0 dec inc v n it s k).
Proof.
  intros v [|n] it s k B E H; [apply H|]. cbn [steps]. rewrite step_parts. now apply before_head.
Qed.
Lemma after_head : forall v it s k, barriers_only v -> quiet (k s) -> quiet (after_balance size v it s k).
Proof.
  intros v it s k B H. unfold after_balance. do 4 (apply stage_skip; [exact B|exact quiet_bar|]). exact H.
Qed.
End Heads.

Lemma not_quiet_allgather : forall v k, ~ quiet (Coll Allgather v k).
Proof. intros v k [E|(v' & k' & E)]; discriminate. Qed.

Section Blocked.
Variables (size : nat) (thr0 dec inc : Q) (vs : list view).
Hypothesis Hs : (1 < size)%nat.
Hypothesis HB : forall v, In v vs -> barriers_only v.
Definition fin (n : nat) (v : view) (s : st) : prog :=
  call_ Barrier (run_stage size (due v n Final) s (fun _ => Done)).

Lemma empty_blocks : forall n it m v w s, In v vs -> In w vs -> loads v it = [] -> loads w it <> [] -> pending s = false ->
  exists t, blocks (map (fun v => balance size thr0 dec inc v it s (fun s => after_balance size v it s (fun s =>
    if signal v it then call_ Barrier (call_ Barrier (call_ Barrier Done)) else if stop v it then Done
    else steps size thr0 dec inc v n (S it) s (fin m v)))) vs) t.
Proof.
  intros n it m v w s Iv Iw Lv Lw E.
  set (K := fun v => balance size thr0 dec inc v it s (fun s => after_balance size v it s (fun s =>
    if signal v it then call_ Barrier (call_ Barrier (call_ Barrier Done)) else if stop v it then Done
    else steps size thr0 dec inc v n (S it) s (fin m v)))).
  assert (quiet (K v)) as Q1.
  { unfold K, balance. destruct (Nat.ltb_spec 1 size) as [_|L]; [|lia]. rewrite Lv. cbn [should_rebalance].
    apply after_head; [now apply HB|].
    destruct (signal v it); [right; apply calls_barrier|].
    destruct (stop v it); [now left|right].
    apply steps_head; [now apply HB|exact E|]. intro s'. apply calls_barrier. }
  assert (exists x k, K w = Coll Allgather x k) as (x & k & Ew).
  { unfold K, balance. destruct (Nat.ltb_spec 1 size) as [_|L]; [|lia].
    unfold should_rebalance. destruct (loads w it) as [|q l] eqn:El; [congruence|]. eexists _, _. reflexivity. }
  exists []. constructor.
  - intro F. rewrite Forall_forall in F. specialize (F (K w) (in_map K vs w Iw)). unfold is_done in F. congruence.
  - intros o F. rewrite Forall_forall in F.
    pose proof (F (K w) (in_map K vs w Iw)) as (v1 & k1 & E1).
    pose proof (F (K v) (in_map K vs v Iv)) as (v2 & k2 & E2).
    rewrite Ew in E1. injection E1 as <- _ _.
    apply (not_quiet_allgather v2 k2). rewrite <- E2. exact Q1.
Qed.
End Blocked.

(** the state after the current exchange has no pending exchange *)
Definition calm (K : view -> st -> prog) (vs : list view) (R : list prog -> list op -> Prop) : Prop :=
  forall s, pending s = false -> exists t, R (map (fun v => K v s) vs) t.

Section Blocked2.
Variables (size : nat) (thr0 dec inc : Q) (vs : list view).
Hypothesis Hs : (1 < size)%nat.
Hypothesis HA : agree_but_signals vs.
Hypothesis HB : forall v, In v vs -> barriers_only v.
Lemma blocks_calm : forall (K : view -> st -> prog), calm K vs blocks ->
  goes vs blocks (fun v s => sync_start size s (fun s => sync_wait s (K v))).
Proof.
  intros K C s. unfold sync_start, sync_wait.
  destruct (synced s) eqn:Es, (pending s) eqn:Ep; cbn [orb].
  - apply C. reflexivity.
  - apply C. exact Ep.
  - apply C. reflexivity.
  - replace (size =? 1)%nat with false by (symmetry; apply Nat.eqb_neq; lia). cbn [pending threshold].
    apply (goes1_call vs blocks B_coll Barrier (fun v => K v (mkSt true false (threshold s)))). apply C. reflexivity.
Qed.
Lemma goes_before_calm : forall v0 it K, In v0 vs -> calm K vs blocks -> goes vs blocks (fun v s => before_balance size v it s (K v)).
Proof.
  intros v0 it K I0 C. unfold before_balance.
  apply (goes_due size vs blocks B_coll HA v0 I0 it Start (fun v s => run_stage size (due v it Maxwell1) s (fun s =>
    species_loop size v it (enabled v it) (unsync s) (fun s => sync_start size s (fun s => sync_wait s (K v)))))).
  apply (goes_due size vs blocks B_coll HA v0 I0 it Maxwell1 (fun v s => species_loop size v it (enabled v it) (unsync s) (fun s => sync_start size s (fun s => sync_wait s (K v))))).
  apply (goes_unsync vs blocks (fun v s => species_loop size v it (enabled v it) s (fun s => sync_start size s (fun s => sync_wait s (K v))))).
  apply goes_ext with (K := fun v s => species_loop size v it (enabled v0 it) s (fun s => sync_start size s (fun s => sync_wait s (K v)))).
  - intros v s I. destruct (HA v v0 I I0 it) as (_ & -> & _). reflexivity.
  - apply (goes_species size vs blocks B_coll HA v0 I0 it (enabled v0 it) (fun v s => sync_start size s (fun s => sync_wait s (K v)))).
    now apply blocks_calm.
Qed.

(** [j] uneventful steps, then a step in which a process has no patches and another has some *)
Theorem empty_process_blocks : forall n it j s v w,
  (forall i, (i < j)%nat -> forall u, In u vs -> loads u (it + i)%nat <> [] /\ loads_after u (it + i)%nat <> []) ->
  (forall i u, (i < j)%nat -> In u vs -> signal u (it + i)%nat = false /\ stop u (it + i)%nat = false) ->
  (j < n)%nat -> In v vs -> In w vs -> loads v (it + j)%nat = [] -> loads w (it + j)%nat <> [] ->
  exists t, blocks (map (fun v => run size thr0 dec inc v n it s) vs) t.
Proof.
  intros n it j s v w HP HS L Iv Iw Lv Lw.
  apply (goes_run size thr0 dec inc vs blocks B_coll HA v Iv). clear s.
  replace n with (j + S (n - j - 1))%nat by lia.
  apply (goes_steps size thr0 dec inc vs blocks B_coll HA v Iv j it (S (n - j - 1))
    (fun v s => call_ Barrier (run_stage size (due v (it + (j + S (n - j - 1))) Final) s (fun _ => Done)))).
  - intros i Li _ u I. now apply HP.
  - intros i u Li I. now apply HS.
  - cbn [steps].
    apply goes_ext with (K := fun v s => before_balance size v (it + j) s (fun s => balance size thr0 dec inc v (it + j) s (fun s => after_balance size v (it + j) s (fun s =>
      if signal v (it + j)%nat then call_ Barrier (call_ Barrier (call_ Barrier Done)) else if stop v (it + j)%nat then Done
      else steps size thr0 dec inc v (n - j - 1) (S (it + j)) s (fun s => fin size (it + (j + S (n - j - 1))) v s))))).
    { intros u s I. rewrite step_parts. reflexivity. }
    apply (goes_before_calm v (it + j) (fun v s => balance size thr0 dec inc v (it + j) s (fun s => after_balance size v (it + j) s (fun s =>
      if signal v (it + j)%nat then call_ Barrier (call_ Barrier (call_ Barrier Done)) else if stop v (it + j)%nat then Done
      else steps size thr0 dec inc v (n - j - 1) (S (it + j)) s (fun s => fin size (it + (j + S (n - j - 1))) v s))))); [exact Iv|].
    intros s E. apply (empty_blocks size thr0 dec inc vs Hs HB (n - j - 1) (it + j) (it + (j + S (n - j - 1))) v w s Iv Iw Lv Lw E).
Qed.
End Blocked2.

(** ** a signal that reaches only some processes *)
Fixpoint bar (m : nat) : prog := match m with O => Done | S m => call_ Barrier (bar m) end.
(** barriers until an allgather *)
Inductive ag : prog -> Prop :=
| ag_all : forall v k, ag (Coll Allgather v k)
| ag_bar : forall v k, (forall l, ag (k l)) -> ag (Coll Barrier v k).

Section Ag.
Variables (size : nat) (thr0 dec inc : Q).
Lemma ag_call_ : forall p, ag p -> ag (call_ Barrier p).
Proof. intros p H. unfold call_. constructor. auto. Qed.
Lemma ag_start : forall s k, (forall s, ag (k s)) -> ag (sync_start size s k).
Proof. intros s k H. unfold sync_start. destruct (_ || _); [apply H|]. apply ag_call_, H. Qed.
Lemma ag_wait : forall s k, (forall s, ag (k s)) -> ag (sync_wait s k).
Proof. intros s k H. unfold sync_wait. destruct (pending s); apply H. Qed.
Lemma ag_calls : forall b s k, bonly b -> (forall s, ag (k s)) -> ag (do_calls size b s k).
Proof.
  induction b as [|c b IH]; intros s k B H; [apply H|].
  cbn [do_calls]. assert (bonly b) as Hb by (intros o I; apply B; now right).
  assert (forall s, ag (do_calls size b s k)) as H' by (intro; now apply IH).
  destruct c as [o| | |]; cbn [do_call].
  - rewrite (B o (or_introl eq_refl)). now apply ag_call_.
  - destruct (synced s); [apply H'|]. apply ag_start. intro. now apply ag_wait.
  - now apply ag_start.
  - now apply ag_wait.
Qed.
Lemma ag_stage : forall bs s k, (forall b, In b bs -> bonly b) -> (forall s, ag (k s)) -> ag (run_stage size bs s k).
Proof.
  induction bs as [|b bs IH]; intros s k B H; [apply H|].
  cbn [run_stage]. apply ag_calls.
  - intros o I. apply in_app_or in I. destruct I as [I|[E|[]]]; [|congruence]. exact (B b (or_introl eq_refl) o I).
  - intro. apply IH; [|exact H]. intros b' I. apply B. now right.
Qed.
Lemma ag_due : forall v it sg s k, barriers_only v -> (forall s, ag (k s)) -> ag (run_stage size (due v it sg) s k).
Proof. intros v it sg s k B H. apply ag_stage; [|exact H]. intros b I o J. exact (B it sg b o I J). Qed.
Lemma ag_species : forall v it is s k, barriers_only v -> (forall s, ag (k s)) -> ag (species_loop size v it is s k).
Proof.
  intros v it is s k B H. revert s. induction is as [|i is IH]; intro s; [apply H|].
  cbn [species_loop]. do 6 (apply ag_due; [exact B|intro]). apply IH.
Qed.
Lemma ag_steps : forall v n it s k, (1 < size)%nat -> barriers_only v -> loads v it <> [] ->
  ag (steps size thr0 dec inc v (S n) it s k).
Proof.
  intros v n it s k Hs B L. cbn [steps]. rewrite step_parts. unfold before_balance.
  do 2 (apply ag_due; [exact B|intro]). apply ag_species; [exact B|intro].
  apply ag_start. intro. apply ag_wait. intro. unfold balance.
  destruct (Nat.ltb_spec 1 size) as [_|]; [|lia]. unfold should_rebalance.
  destruct (loads v it); [congruence|]. constructor.
Qed.
End Ag.

Lemma as_map : forall o ps, Forall (calls o) ps -> exists vks, ps = map (fun vk => Coll o (fst vk) (snd vk)) vks.
Proof.
  induction 1 as [|p ps (v & k & E) _ (vks & IH)]; [now exists []|].
  exists ((v, k) :: vks). cbn. now rewrite E, IH.
Qed.
Lemma mixture_blocks : forall m ps, Forall (fun p => p = bar m \/ ag p) ps ->
  In (bar m) ps -> (exists p, In p ps /\ ag p) -> exists t, blocks ps t.
Proof.
  induction m as [|m IH]; intros ps F B (p & Ip & Ap).
  - exists []. constructor.
    + intro D. rewrite Forall_forall in D. specialize (D p Ip). unfold is_done in D. subst p. inversion Ap.
    + intros o D. rewrite Forall_forall in D. destruct (D _ B) as (v & k & E). discriminate.
  - assert (Forall (calls Barrier) ps \/ exists v k, In (Coll Allgather v k) ps) as [C|(v & k & I)].
    { clear - F. induction F as [|q l Hq _ IH]; [now left|].
      assert (calls Barrier q \/ exists v k, q = Coll Allgather v k) as [Cq|(v & k & ->)].
      { destruct Hq as [->|Aq]; [left; apply calls_barrier|].
        destruct Aq as [v k|v k _]; [right; now exists v, k|left; now exists v, k]. }
      - destruct IH as [C|(v & k & I)]; [left; now constructor|right]. exists v, k. now right.
      - right. exists v, k. now left. }
    + destruct (as_map _ _ C) as (vks & ->).
      set (rs := map fst vks).
      destruct (IH (map (fun vk => snd vk rs) vks)) as (t & H).
      * rewrite Forall_forall in F |- *. intros q Iq. apply in_map_iff in Iq. destruct Iq as (vk & <- & Ik).
        assert (In (Coll Barrier (fst vk) (snd vk)) (map (fun vk => Coll Barrier (fst vk) (snd vk)) vks)) as J.
        { apply in_map_iff. exists vk. auto. }
        destruct (F _ J) as [E|A].
        -- left. cbn [bar] in E. unfold call_ in E. injection E as _ ->. reflexivity.
        -- right. inversion A as [|v k Hk]. subst. apply Hk.
      * apply in_map_iff in B. destruct B as (vk & E & Ik). apply in_map_iff. exists vk. split; [|exact Ik].
        cbn [bar] in E. unfold call_ in E. injection E as _ ->. reflexivity.
      * apply in_map_iff in Ip. destruct Ip as (vk & <- & Ik). exists (snd vk rs). split.
        -- apply in_map_iff. exists vk. auto.
        -- inversion Ap as [|v k Hk]. subst. apply Hk.
      * exists (Barrier :: t). apply B_coll. exact H.
    + exists []. constructor.
      * intro D. rewrite Forall_forall in D. specialize (D _ I). discriminate D.
      * intros o D. rewrite Forall_forall in D. destruct (D _ B) as (v1 & k1 & E1). destruct (D _ I) as (v2 & k2 & E2).
        cbn [bar] in E1. unfold call_ in E1. injection E1 as <- _ _. discriminate E2.
Qed.

Section Blocked3.
Variables (size : nat) (thr0 dec inc : Q) (vs : list view).
Hypothesis Hs : (1 < size)%nat.
Hypothesis HA : agree_but_signals vs.
Hypothesis HB : forall v, In v vs -> barriers_only v.
Hypothesis HP : all_hold_patches vs.
Theorem signal_blocks : forall n it j s v w,
  (forall i u, (i < j)%nat -> In u vs -> signal u (it + i)%nat = false /\ stop u (it + i)%nat = false) ->
  (S j < n)%nat -> In v vs -> In w vs -> signal v (it + j)%nat = true -> signal w (it + j)%nat = false ->
  exists t, blocks (map (fun v => run size thr0 dec inc v n it s) vs) t.
Proof.
  intros n it j s v w HS L Iv Iw Sv Sw.
  apply (goes_run size thr0 dec inc vs blocks B_coll HA v Iv). clear s.
  replace n with (j + S (S (n - j - 2)))%nat by lia.
  set (N := (it + (j + S (S (n - j - 2))))%nat). set (n' := (n - j - 2)%nat) in *.
  apply (goes_steps size thr0 dec inc vs blocks B_coll HA v Iv j it (S (S n'))
    (fun v s => call_ Barrier (run_stage size (due v N Final) s (fun _ => Done)))).
  - intros i Li _ u I. now apply HP.
  - intros i u Li I. now apply HS.
  - remember (S n') as n1 eqn:En1. cbn [steps].
    apply (goes_step size thr0 dec inc vs blocks B_coll HA v Iv (it + j) (fun v s => steps size thr0 dec inc v n1 (S (it + j)) s
      (fun s => call_ Barrier (run_stage size (due v N Final) s (fun _ => Done))))).
    + intros _ u I. now apply HP.
    + intro s. set (K := fun u : view => if signal u (it + j)%nat then call_ Barrier (call_ Barrier (call_ Barrier Done))
        else if stop u (it + j)%nat then Done
        else steps size thr0 dec inc u n1 (S (it + j)) s (fun s => call_ Barrier (run_stage size (due u N Final) s (fun _ => Done)))).
      assert (K v = bar 3) as Kv by (unfold K; rewrite Sv; reflexivity).
      destruct (stop v (it + j)%nat) eqn:Ev.
      * assert (K w = Done) as Kw.
        { unfold K. rewrite Sw. destruct (HA v w Iv Iw (it + j)%nat) as (_ & _ & E). rewrite <- E, Ev. reflexivity. }
        exists []. constructor.
        -- intro D. rewrite Forall_forall in D. specialize (D _ (in_map K vs v Iv)). rewrite Kv in D. discriminate D.
        -- intros o D. rewrite Forall_forall in D. destruct (D _ (in_map K vs w Iw)) as (a & b & E). rewrite Kw in E. discriminate E.
      * assert (forall u, In u vs -> K u = bar 3 \/ signal u (it + j)%nat = false /\ ag (K u)) as KK.
        { intros u Iu. unfold K. destruct (signal u (it + j)%nat) eqn:E; [now left|right]. split; [reflexivity|].
          destruct (HA v u Iv Iu (it + j)%nat) as (_ & _ & E'). rewrite <- E', Ev. rewrite En1.
          apply ag_steps; [exact Hs|now apply HB|]. now apply HP. }
        apply (mixture_blocks 3).
        -- apply Forall_forall. intros p Ip. apply in_map_iff in Ip. destruct Ip as (u & <- & Iu).
           destruct (KK u Iu) as [->|(_ & A)]; [now left|now right].
        -- rewrite <- Kv. apply (in_map K vs v Iv).
        -- exists (K w). split; [apply (in_map K vs w Iw)|]. destruct (KK w Iw) as [E|(_ & A)]; [|exact A].
           exfalso. clear - E Sw HA Iv Iw Ev En1 Hs HB HP. unfold K in E. rewrite Sw in E.
           destruct (HA v w Iv Iw (it + j)%nat) as (_ & _ & E'). rewrite <- E', Ev in E.
           assert (ag (bar 3)) as A.
           { rewrite <- E, En1. apply ag_steps; [exact Hs|now apply HB|]. now apply HP. }
           do 3 (inversion A as [|x k Hk]; clear A; pose proof (Hk []) as A; subst; clear Hk). inversion A.
Qed.
End Blocked3.
