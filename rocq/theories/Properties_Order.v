(** C145: colliding species share the numbering of their buckets.  C146: the check of the collision module finds every mismatch. *)
From Verif Require Import Base M_Sort3D M_Order.
From Coq Require Import QArith.
Local Open Scope nat_scope.
Local Open Scope list_scope.

(** all sorters number their buckets alike *)
Definition shared (ss : list sorter) : Prop := forall s t, In s ss -> In t ss -> so_reverse s = so_reverse t.

Lemma decided_stays pss s : so_decided s = true -> call_many pss s = s.
Proof. intro D. unfold call_many. induction pss as [|ps pss IH]; [reflexivity|]. cbn [fold_left]. unfold call_sorter at 2. rewrite D. exact IH. Qed.
Lemma call_many_S ps pss s : call_many (ps :: pss) s = call_sorter ps s.
Proof. unfold call_many. cbn [fold_left]. apply (decided_stays pss (call_sorter ps s)). unfold call_sorter. destruct (so_decided s) eqn:D; [exact D|reflexivity]. Qed.
Lemma wide_false ny nz o ps : ny <> 1 \/ nz <> 1 -> decide_reverse ny nz o ps = false.
Proof. intro H. unfold decide_reverse. destruct (Nat.eqb_spec ny 1), (Nat.eqb_spec nz 1); try reflexivity. destruct H; contradiction. Qed.
Lemma check_spec ss : check ss = true <-> forall s t, In s ss -> In t ss -> so_decided s = true -> so_decided t = true -> so_reverse s = so_reverse t.
Proof.
  unfold check. split.
  - intros C s t Is It Ds Dt. assert (In (so_reverse s) (map so_reverse (filter so_decided ss))) as A by (apply in_map, filter_In; split; assumption).
    assert (In (so_reverse t) (map so_reverse (filter so_decided ss))) as B by (apply in_map, filter_In; split; assumption).
    destruct (map so_reverse (filter so_decided ss)) as [|b bs]; [destruct A|]. rewrite forallb_forall in C.
    assert (forall x, In x (b :: bs) -> x = b) as X by (intros x [<- |I]; [reflexivity|]; symmetry; apply eqb_prop; apply C; exact I). rewrite (X _ A), (X _ B). reflexivity.
  - intro H. destruct (map so_reverse (filter so_decided ss)) as [|b bs] eqn:E; [reflexivity|]. apply forallb_forall. intros x I.
    assert (forall y, In y (b :: bs) -> exists s, In s ss /\ so_decided s = true /\ so_reverse s = y) as X.
    { intros y Iy. rewrite <- E in Iy. apply in_map_iff in Iy. destruct Iy as (s & R & F). apply filter_In in F. exists s. split; [apply F|]. split; [apply F|exact R]. }
    destruct (X b (or_introl eq_refl)) as (s & Is & Ds & Rs). destruct (X x (or_intror I)) as (t & It & Dt & Rt). rewrite <- Rs, <- Rt, (H s t Is It Ds Dt). apply eqb_reflx.
Qed.

(** ** groups registered before the initialisation: with more than one cell across a patch the numbering is shared at every step of
    every run, whatever the particles do, and the check always passes *)
Theorem C145_registered : forall ny nz (runs : list (list contents)), ny <> 1 \/ nz <> 1 ->
  let ss := map (fun pss => call_many pss (simulation_sorter true ny nz)) runs in shared ss /\ check ss = true.
Proof.
  intros ny nz runs H ss. assert (forall s, In s ss -> so_reverse s = false) as X.
  { intros s I. apply in_map_iff in I. destruct I as (pss & <- & _). destruct pss as [|ps pss]; [reflexivity|]. rewrite call_many_S. cbn. apply wide_false. exact H. }
  split; [intros s t A B; rewrite (X s A), (X t B); reflexivity|]. apply check_spec. intros s t A B _ _. rewrite (X s A), (X t B). reflexivity.
Qed.
(** ** sorters that have all been called: the check passes exactly if the numbering is shared, and this lasts *)
Theorem C145_decided : forall ss, (forall s, In s ss -> so_decided s = true) -> (check ss = true <-> shared ss) /\ forall later, map (fun s => call_many (later s) s) ss = ss.
Proof.
  intros ss D. split.
  - rewrite check_spec. split; [intros H s t A B; apply H; auto|intros H s t A B _ _; apply H; assumption].
  - intro later. rewrite <- (map_id ss) at 2. apply map_ext_in. intros s I. apply decided_stays, D, I.
Qed.
(** the sign of the mean momentum decides with one bucket across *)
Definition weight_of (ps : contents) : Q := fold_left Qplus (map (live_sum fst) ps) 0%Q.
Definition momentum_of (ps : contents) : Q := fold_left Qplus (map (live_sum (fun p : Q * Q => fst p * snd p)%Q) ps) 0%Q.
Lemma drift ps : (0 < weight_of ps)%Q -> decide_reverse 1 1 None ps = true <-> (momentum_of ps < 0)%Q.
Proof.
  intro W. unfold decide_reverse. cbn [Nat.eqb andb negb]. fold (weight_of ps) (momentum_of ps). assert (Qle_bool (weight_of ps) 0 = false) as -> by (destruct (Qle_bool (weight_of ps) 0) eqn:E; [apply Qle_bool_iff in E; destruct (Qlt_not_le _ _ W E)|reflexivity]).
  cbn [negb andb]. destruct (Qle_bool 0 (momentum_of ps / weight_of ps)) eqn:E; cbn [negb].
  - apply Qle_bool_iff in E. split; [discriminate|]. intro M. exfalso. apply (Qlt_not_le _ _ M). setoid_replace (momentum_of ps) with (momentum_of ps / weight_of ps * weight_of ps)%Q by (field; intro Z; rewrite Z in W; discriminate).
    apply Qmult_le_0_compat; [exact E|apply Qlt_le_weak; exact W].
  - split; [|reflexivity]. intros _. apply Qnot_le_lt. intro M. assert (Qle_bool 0 (momentum_of ps / weight_of ps) = true); [|congruence]. apply Qle_bool_iff. unfold Qdiv. apply Qmult_le_0_compat; [exact M|]. apply Qinv_le_0_compat, Qlt_le_weak, W.
Qed.
(** ** C146: a check made before the first sort passes for all sorters, and species drifting in opposite directions then number
    their buckets differently.  The check of the constructor is made before the first sort in every simulation that registers
    its groups; with patches of one cell across (or one bucket across) it does not help *)
Theorem C146_early_refuted : forall groups ny nz ps qs, (groups = false \/ ny = 1 /\ nz = 1) ->
  (0 < weight_of ps)%Q -> (0 < weight_of qs)%Q -> (momentum_of ps < 0)%Q -> (0 <= momentum_of qs)%Q ->
  let s := simulation_sorter groups ny nz in check [s; s] = true /\ ~ shared [call_sorter ps s; call_sorter qs s].
Proof.
  intros groups ny nz ps qs H Wp Wq Mp Mq s. assert (s = new_sorter 1 1 None) as -> by (unfold s, simulation_sorter; destruct H as [-> |[-> ->]]; [reflexivity|destruct groups; reflexivity]).
  split; [reflexivity|]. intro X. specialize (X _ _ (or_introl eq_refl) (or_intror (or_introl eq_refl))). unfold call_sorter, new_sorter in X. cbn [so_decided so_ny so_nz so_override so_reverse] in X.
  rewrite (proj2 (drift ps Wp) Mp) in X. symmetry in X. apply (drift qs Wq) in X. exact (Qlt_not_le _ _ X Mq).
Qed.
Example C145_case : let right := [[(false, (2, 1)); (true, (1, -9))]]%Q in let left := [[(false, (1, -1))]; [(false, (1, 0))]]%Q in
  check [call_sorter right (new_sorter 1 1 None); call_sorter left (new_sorter 1 1 None)] = false /\
  check [call_sorter right (new_sorter 1 1 None); new_sorter 1 1 None] = true /\
  check [call_sorter right (simulation_sorter true 4 1); call_sorter left (simulation_sorter true 4 1)] = true.
Proof. repeat split. Qed.

Print Assumptions C145_registered.
Print Assumptions C145_decided.
Print Assumptions C145_case.
Print Assumptions C146_early_refuted.
