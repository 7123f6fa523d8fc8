(** C137: no random number is used twice, and seeded runs without QED are reproducible.  C138: where the seed does not reach. *)
From Verif Require Import Base M_Random S_Random P_Random.
Local Open Scope list_scope.
Local Open Scope nat_scope.

Lemma rank_gen_root seed run size rank g : rank_gen seed run size rank = Some g ->
  gid g = match seed with Some s => (Seed s, [rank]) | None => (System run rank 0, []) end.
Proof.
  destruct seed as [s|]; cbn [rank_gen]; [|intros [= <-]; reflexivity]. unfold spawn. cbn [fst]. intro E.
  assert (rank < size) as L by (assert (nth_error (map (fun i => mkGen (g_source (default_rng (Seed s))) (g_key (default_rng (Seed s)) ++ [i]) 0 0) (seq (g_children (default_rng (Seed s))) size)) rank <> None) as H by congruence; apply nth_error_Some in H; rewrite map_length, seq_length in H; exact H).
  rewrite (map_nth_error _ _ _ (d := rank)) in E; [injection E as <-; reflexivity|]. cbn [default_rng g_children]. rewrite (nth_error_nth' _ 0); [f_equal; rewrite seq_nth by exact L; reflexivity|rewrite seq_length; exact L].
Qed.
Definition root_of (seed : option nat) (run rank : nat) : source * list nat := match seed with Some s => (Seed s, [rank]) | None => (System run rank 0, []) end.
Lemma start_inv seed run size rank threads np p : start seed run size rank threads np = Some p ->
  inv (fst (root_of seed run rank)) (snd (root_of seed run rank)) rank [run] [] p /\ current rank run p.
Proof.
  unfold start. destruct (rank_gen seed run size rank) as [g|] eqn:E; [|discriminate]. intros [= <-]. apply rank_gen_root in E.
  assert (forall h, In h (map (fun t => default_rng (System run rank (S t))) (seq 0 threads)) -> exists t, gid h = (System run rank (S t), [])) as T.
  { intros h I. apply in_map_iff in I. destruct I as (t & <- & _). exists t. reflexivity. }
  split; [|exact T]. constructor; cbn [p_gen p_coll p_threads colls].
  - constructor.
  - rewrite E. unfold root_of. destruct seed; reflexivity.
  - intros ? [].
  - split; [constructor|intros ? ? []].
  - intros ? [].
  - split; [|intros ? ? ? []]. rewrite map_map. apply FinFun.Injective_map_NoDup; [|apply seq_NoDup]. intros a b Eab. unfold gid in Eab. cbn in Eab. injection Eab as Eab. exact Eab.
  - intros h I. destruct (T h I) as (t & Et). exists run, t. split; [left; reflexivity|exact Et].
Qed.
(** the streams of one process *)
Lemma drawn_streams seed run size threads rank np es : NoDup (run :: later_runs es) ->
  NoDup (drawn_by seed run size threads rank np es) /\
  (forall u, In u (drawn_by seed run size threads rank np es) ->
     (exists i, fst u = (fst (root_of seed run rank), snd (root_of seed run rank) ++ [i])) \/ (exists r t, fst u = (System r rank (S t), []))).
Proof.
  intro N. unfold drawn_by. destruct (start seed run size rank threads np) as [p|] eqn:E; [|split; [constructor|intros ? []]].
  destruct (start_inv _ _ _ _ _ _ _ E) as [V C]. inversion N as [|? ? H1 H2]; subst.
  destruct (happenings_inv _ _ _ es [run] [] p run V C H2) as (R' & V'). { intros r I [<- |[]]. exact (H1 I). }
  cbn [app] in V'. split; [apply V'|]. intros u I. destruct (i_uses _ _ _ _ _ _ V' u I) as [(i & _ & Ei)|(r & t & _ & Et)]; [left; exists i; exact Ei|right; exists r, t; exact Et].
Qed.

(** ** every random number is used once: whatever the processes do, in whatever order, no value of any stream is drawn by two
    patches, species, threads, processes or steps *)
Theorem C137_once : forall seed run threads hist, (forall h, In h hist -> NoDup (run :: later_runs (snd h))) -> NoDup (drawn_in seed run threads hist).
Proof.
  intros seed run threads hist H. unfold drawn_in. generalize (length hist) at 1 as size. intro size.
  assert (forall l from, (forall h, In h l -> NoDup (run :: later_runs (snd h))) ->
    NoDup (flat_map (fun rh => drawn_by seed run size threads (fst rh) (fst (snd rh)) (snd (snd rh))) (combine (seq from (length l)) l)) /\
    forall u, In u (flat_map (fun rh => drawn_by seed run size threads (fst rh) (fst (snd rh)) (snd (snd rh))) (combine (seq from (length l)) l)) ->
      exists rank, from <= rank /\ ((exists i, fst u = (fst (root_of seed run rank), snd (root_of seed run rank) ++ [i])) \/ (exists r t, fst u = (System r rank (S t), [])))) as G.
  { induction l as [|h l IH]; intros from Hl; [split; [constructor|intros ? []]|]. cbn [length seq combine flat_map fst snd].
    destruct (drawn_streams seed run size threads from (fst h) (snd h) (Hl h (or_introl eq_refl))) as [A B].
    destruct (IH (S from)) as [A' B']; [intros; apply Hl; right; assumption|]. split.
    - apply NoDup_app_intro; [exact A|exact A'|]. intros u I I'. destruct (B' u I') as (rank & L & K'). pose proof (B u I) as K.
      unfold root_of in *. destruct seed as [s|]; cbn [fst snd app] in *; destruct K as [(i & K)|(r & t & K)], K' as [(i' & K')|(r' & t' & K')]; rewrite K in K'; try discriminate; injection K'; intros; lia.
    - intros u I. apply in_app_or in I. destruct I as [I|I]; [exists from; split; [lia|apply B; exact I]|]. destruct (B' u I) as (rank & L & K). exists rank. split; [lia|exact K]. }
  exact (proj1 (G hist 0 H)).
Qed.

(** ** with a seed and without QED, a run draws the same numbers each time it is started *)
Definition alike (p q : proc) : Prop := p_gen p = p_gen q /\ p_patches p = p_patches q /\ p_coll p = p_coll q.
Lemma renew_alike p q : alike p q -> alike (renew p) (renew q).
Proof. intros (A & B & C). unfold alike, renew. rewrite A, B. destruct (spawn (p_gen q) (p_patches q)). auto. Qed.
Lemma happen_alike p q ev : alike p q -> (forall c, ev <> Qed c) -> fst (happen p ev) = fst (happen q ev) /\ alike (snd (happen p ev)) (snd (happen q ev)).
Proof.
  intros L N. pose proof L as (A & B & C). destruct ev as [rounds|rounds|n| |rounds|n|run|counts]; cbn [happen]; rewrite ?A, ?B, ?C.
  - destruct (spawn (p_gen q) (p_patches q)). split; [reflexivity|]. unfold alike. auto.
  - destruct (window_rounds (p_gen q) rounds). split; [reflexivity|]. unfold alike. auto.
  - destruct (spawn (p_gen q) 1). split; [reflexivity|]. unfold alike. auto.
  - split; [reflexivity|]. apply renew_alike. exact L.
  - destruct (p_coll q) as [gs|] eqn:E; [|split; [reflexivity|exact L]]. destruct (draw_rounds gs rounds). split; [reflexivity|]. unfold alike. auto.
  - split; [reflexivity|]. destruct (p_coll q); cbn [snd]; [apply renew_alike|]; unfold alike; auto.
  - split; [reflexivity|]. destruct (p_coll q); cbn [snd]; [apply renew_alike|]; unfold alike; auto.
  - destruct (N counts eq_refl).
Qed.
Lemma happenings_alike es : forall p q, alike p q -> no_qed es -> fst (happenings p es) = fst (happenings q es).
Proof.
  induction es as [|ev es IH]; intros p q L N; [reflexivity|]. cbn [happenings].
  destruct (happen_alike p q ev L) as [A B]; [intros c ->; exact (N c (or_introl eq_refl))|]. destruct (happen p ev) as [u p'], (happen q ev) as [u' q']. cbn [fst snd] in *. subst u'.
  specialize (IH p' q' B (fun c I => N c (or_intror I))). destruct (happenings p' es), (happenings q' es). cbn [fst] in *. congruence.
Qed.
Theorem C137_reproducible : forall s run run' threads threads' hist, (forall h, In h hist -> no_qed (snd h)) -> drawn_in (Some s) run threads hist = drawn_in (Some s) run' threads' hist.
Proof.
  intros s run run' threads threads' hist H. unfold drawn_in. generalize (length hist) at 1 3 as size. intro size. generalize 0 as from.
  induction hist as [|h l IH]; intro from; [reflexivity|]. cbn [length seq combine flat_map fst snd]. f_equal; [|apply IH; intros; apply H; right; assumption].
  unfold drawn_by, start. cbn [rank_gen]. destruct (nth_error (fst (spawn (default_rng (Seed s)) size)) from) as [g|]; [|reflexivity].
  apply happenings_alike; [unfold alike; auto|apply H; left; reflexivity].
Qed.

(** ** C138: the seed fixes the run *)
(** the same patch draws other numbers when the processes are counted differently *)
Theorem C138_processes_refuted : forall s run threads n, let one_process := drawn_by (Some s) run 1 threads 0 2 [Fill [[0; S n]]] in let two_processes := drawn_by (Some s) run 2 threads 1 1 [Fill [[S n]]] in
  length one_process = length two_processes /\ (forall u, In u one_process -> stream_of u = (Seed s, [0; 1])) /\ (forall u, In u two_processes -> stream_of u = (Seed s, [1; 0])).
Proof.
  intros s run threads n one_process two_processes. 
  assert (one_process = map (fun j => (Seed s, [0; 1], j)) (seq 0 (S n))) as -> by (unfold one_process, drawn_by, start; cbn; rewrite ?app_nil_r; reflexivity).
  assert (two_processes = map (fun j => (Seed s, [1; 0], j)) (seq 0 (S n))) as -> by (unfold two_processes, drawn_by, start; cbn; rewrite ?app_nil_r; reflexivity).
  rewrite !map_length. split; [reflexivity|].
  split; intros u I; apply in_map_iff in I; destruct I as (j & <- & _); reflexivity.
Qed.

(** the QED kernels do not use the seed at all: another start of the program draws other numbers *)
Theorem C138_qed_refuted : forall s run run' threads size rank np n, run <> run' -> rank < size ->
  let first := drawn_by (Some s) run size (S threads) rank np [Qed [S n]] in let second := drawn_by (Some s) run' size (S threads) rank np [Qed [S n]] in
  length first = S n /\ length second = S n /\ (forall u v, In u first -> In v second -> stream_of u <> stream_of v).
Proof.
  intros s run run' threads size rank np n D L.
  assert (forall r, drawn_by (Some s) r size (S threads) rank np [Qed [S n]] = map (fun j => (System r rank 1, [], j)) (seq 0 (S n))) as F.
  { intro r. unfold drawn_by, start. destruct (rank_gen (Some s) r size rank) as [g|] eqn:E.
    - cbn. destruct (map (fun t => default_rng (System r rank (S t))) (seq 1 threads)); cbn; rewrite ?app_nil_r; reflexivity.
    - cbn [rank_gen] in E. apply nth_error_None in E. unfold spawn in E. cbn [fst] in E. rewrite map_length, seq_length in E. lia. }
  cbv zeta. rewrite !F, !map_length, !seq_length. split; [reflexivity|]. split; [reflexivity|]. intros u v I I'. apply in_map_iff in I, I'. destruct I as (a & <- & _), I' as (b & <- & _). unfold stream_of. cbn [fst]. congruence.
Qed.

(** a resumed run with collisions leaves the streams of the run that was not interrupted, whatever happened before *)
Theorem C138_resumed_refuted : forall seed run size rank threads np p es run' rounds, start seed run size rank threads np = Some p -> NoDup (run :: later_runs es) ->
  let q := snd (happenings p es) in let r := snd (happen q (Resume run')) in
  forall u v, In u (fst (happen q (Collide rounds))) -> In v (fst (happen r (Collide rounds))) -> stream_of u <> stream_of v.
Proof.
  intros seed run size rank threads np p es run' rounds E N q r u v I I'. destruct (start_inv _ _ _ _ _ _ _ E) as [V C]. inversion N as [|? ? H1 H2]; subst.
  destruct (happenings_inv _ _ _ es [run] [] p run V C H2) as (R' & V'). { intros x Ix [<- |[]]. exact (H1 Ix). } fold q in V'. cbn [app] in V'.
  pose proof (i_coll _ _ _ _ _ _ V') as L. pose proof (i_coll_ids _ _ _ _ _ _ V') as LI. pose proof (i_root _ _ _ _ _ _ V') as Rt. unfold r in I'. cbn [happen] in I, I'. unfold colls in L, LI. destruct (p_coll q) as [gs|] eqn:Ec; [|destruct I].
  cbn [snd] in I'. unfold renew in I'. cbn [p_gen p_patches p_coll p_threads] in I'.
  pose proof (young_nodup _ _ (p_gen q) (p_patches q) Rt) as Y. pose proof (fun x => young_new _ _ (p_gen q) (p_patches q) x Rt) as W. unfold young in Y, W.
  destruct (spawn (p_gen q) (p_patches q)) as [gs' g']. cbn [fst p_coll] in *.
  pose proof (draw_rounds_adv rounds gs (proj1 L)) as (_ & _ & K). pose proof (draw_rounds_adv rounds gs' Y) as (_ & _ & K').
  destruct (draw_rounds gs rounds) as [us a], (draw_rounds gs' rounds) as [us' a']. cbn [fst] in *. apply K in I. apply K' in I'.
  apply in_map_iff in I. destruct I as (h & Eh & Ih). destruct (LI h Ih) as (i & Hi & Ei). destruct (W _ I') as (i' & Hi' & Ei'). unfold stream_of. rewrite <- Eh, Ei, Ei'. intro X. apply child_inj in X. lia.
Qed.

(** ** a case: two processes with two patches and one; the first loses a patch and both are resumed *)
Definition rn_events (n : nat) : list event := [Fill [[n; 2]; [1; n]]; AddCollisions; Temperature n; Collide [[n; 1]; [0; 2]]; Rebalance 1; Collide [[3]]; Qed [1]; Resume 9; Collide [[2]]; Qed [n]].
Example C137_case : NoDup (drawn_in (Some 5) 0 2 [(2, rn_events 4); (1, rn_events 3)]) /\ length (drawn_in (Some 5) 0 2 [(2, rn_events 4); (1, rn_events 3)]) = 51.
Proof.
  split; [|reflexivity]. apply C137_once. intros h [<- |[<- |[]]]; cbn; repeat constructor; cbn; intuition discriminate.
Qed.
(** the streams of the collisions of process 1 of two before and after *)
Example C138_case : match start (Some 5) 0 2 1 1 1 with Some p =>
    let q := snd (happenings p [Fill [[2]]; AddCollisions; Collide [[2]]]) in
    fst (happen q (Collide [[2]])) = [(Seed 5, [1; 1], 2); (Seed 5, [1; 1], 3)] /\ fst (happen (snd (happen q (Resume 1))) (Collide [[2]])) = [(Seed 5, [1; 2], 0); (Seed 5, [1; 2], 1)]
  | None => False end.
Proof. split; reflexivity. Qed.

Print Assumptions C137_once.
Print Assumptions C137_reproducible.
Print Assumptions C137_case.
Print Assumptions C138_processes_refuted.
Print Assumptions C138_qed_refuted.
Print Assumptions C138_resumed_refuted.
Print Assumptions C138_case.
