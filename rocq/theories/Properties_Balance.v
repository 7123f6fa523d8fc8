(** C16, C17, C58: redistribution of patches over processes. *)
From Verif Require Import Base M_Balance S_Balance P_Metis P_Balance P_Balance2.
Local Open Scope list_scope.

(** C16: two patches share a process iff they share a part; every label is a process number.  [order] is the column order
    found by [argsort], [garbage] the uninitialised array *)
Theorem C16_partition : forall n prev parts order garbage,
  order_of n order -> length garbage = n -> Forall (fun r => r < n) parts ->
  let new := compute_rank n prev parts order garbage in
  length new = length parts /\
  forall p q, p < length parts -> q < length parts ->
    nth p new 0 < n /\ (nth p new 0 = nth q new 0 <-> nth p parts 0 = nth q parts 0).
Proof.
  intros n prev parts order garbage Ho Lg Hp. cbn zeta. split; [apply new_length|]. intros p q H1 H2.
  exact (relabel_same n prev parts order garbage Ho Lg Hp p q H1 H2).
Qed.
(** the part given to process i shares at least as many patches with it as any part given to a later process *)
Theorem C16_overlap : forall n prev parts order garbage,
  order_of n order -> length garbage = n -> length prev = length parts -> Forall (fun r => r < n) parts ->
  let new := compute_rank n prev parts order garbage in
  exists part : nat -> nat,
    (forall i, i < n -> part i < n) /\
    (forall i i', i < n -> i' < n -> part i = part i' -> i = i') /\
    (forall p, p < length parts -> nth p parts 0 = part (nth p new 0)) /\
    forall i j, i <= j -> j < n -> overlap prev parts i (part j) <= overlap prev parts i (part i).
Proof. intros n prev parts order garbage Ho Lg Lp Hp. exact (relabel_greedy n prev parts order garbage Ho Lg Lp Hp). Qed.
(** an unchanged partition moves nothing *)
Theorem C16_unchanged : forall n prev parts order garbage,
  order_of n order -> length garbage = n -> length prev = length parts -> Forall (fun r => r < n) parts ->
  Forall (fun r => r < n) prev -> (forall i, i < n -> In i prev) ->
  (forall p q, p < length parts -> q < length parts -> (nth p prev 0 = nth q prev 0 <-> nth p parts 0 = nth q parts 0)) ->
  compute_rank n prev parts order garbage = prev.
Proof. intros n prev parts order garbage Ho Lg Lp Hp. exact (relabel_unchanged n prev parts order garbage Ho Lg Lp Hp). Qed.

(** C17: whatever the old distribution and the new assignment, and whatever the order in which the processes run *)
Theorem C17_exchange : forall (B : Type) (h : list (list (patch B))) new_rank,
  valid_holdings h -> (forall p, In p (concat h) -> new_rank (idx p) < length h) ->
  exists ps, starts B h new_rank = Some ps /\ forall sched,
    let st := run B ps sched in
    (done B (fst st) = true -> snd st = [] /\ as_assigned new_rank h (map (held B) (fst st))) /\
    ((forall r, r < length h -> step B st r = st) -> done B (fst st) = true).
Proof. intros B h new_rank V R. exact (exchange_result h new_rank V R). Qed.
(** no deadlock: done after as many rounds as there are operations, if every process gets a turn in each round *)
Theorem C17_completes : forall (B : Type) (h : list (list (patch B))) new_rank,
  valid_holdings h -> (forall p, In p (concat h) -> new_rank (idx p) < length h) ->
  exists ps, starts B h new_rank = Some ps /\ forall rounds,
    Forall (fun l => forall r, r < length h -> In r l) rounds ->
    length (flat_map (sends B) ps) + length (flat_map (recvs B) ps) <= length rounds ->
    done B (fst (run B ps (concat rounds))) = true.
Proof. intros B h new_rank V R. exact (exchange_completes h new_rank V R). Qed.
(** each patch's load is the one used for its vertex *)
Theorem C17_loads : forall (B L : Type) (zero : L) (h : list (list (patch B))) (load : patch B -> L),
  Permutation (map idx (concat h)) (seq 0 (length (concat h))) ->
  exists g, gather_loads B zero h (map (map load) h) = Some g /\ length g = length (concat h) /\
    forall p, In p (concat h) -> nth (idx p) g zero = load p.
Proof. intros B L zero h load P. exact (gather_result zero h load P). Qed.
(** the whole step: patches numbered from 0 and spread over the processes in any way, any parts from the partitioner *)
Theorem C17_rebalance : forall (B : Type) (h : list (list (patch B))) parts order garbage,
  Permutation (map idx (concat h)) (seq 0 (length (concat h))) ->
  length parts = length (concat h) -> Forall (fun r => r < length h) parts ->
  order_of (length h) order -> length garbage = length h ->
  exists ps, rebalance B h parts order garbage = Some ps /\ forall sched,
    let st := run B ps sched in
    done B (fst st) = true ->
    let new := map (held B) (fst st) in
    snd st = [] /\ length new = length h /\ Permutation (concat new) (concat h) /\
    forall p q, In p (concat h) -> In q (concat h) ->
      ((exists r, In p (nth r new []) /\ In q (nth r new [])) <-> nth (idx p) parts 0 = nth (idx q) parts 0).
Proof.
  intros B h parts order garbage P Lp Hp Ho Lg. unfold rebalance.
  set (ranks := compute_rank (length h) (previous_ranks B h) parts order garbage).
  assert (V : valid_holdings h) by (eapply Permutation_NoDup; [apply Permutation_sym; exact P|apply seq_NoDup]).
  assert (Lk : forall p, In p (concat h) -> idx p < length parts).
  { intros p I. rewrite Lp. assert (J : In (idx p) (seq 0 (length (concat h)))) by (eapply Permutation_in; [exact P|now apply in_map]).
    apply in_seq in J. lia. }
  assert (R : forall p, In p (concat h) -> nth (idx p) ranks 0 < length h).
  { intros p I. apply (relabel_same (length h) (previous_ranks B h) parts order garbage Ho Lg Hp (idx p) (idx p)); auto. }
  destruct (exchange_result h (fun i => nth i ranks 0) V R) as (ps & E & H). exists ps. split; [exact E|]. intro sched. cbn zeta.
  intro Hd. destruct (H sched) as [H1 _]. destruct (H1 Hd) as [E1 [L1 A]]. clear H H1.
  set (new := map (held B) (fst (run B ps sched))) in *. split; [exact E1|]. split; [exact L1|].
  assert (Mem : forall p, In p (concat h) -> In p (nth (nth (idx p) ranks 0) new [])).
  { intros p I. eapply Permutation_in; [apply Permutation_sym, A|]. apply filter_In. split; [exact I|]. apply Nat.eqb_refl. }
  assert (Mem' : forall p r, In p (nth r new []) -> In p (concat h) /\ nth (idx p) ranks 0 = r).
  { intros p r I. apply (Permutation_in _ (A r)) in I. apply filter_In in I as [I J]. apply Nat.eqb_eq in J. auto. }
  split.
  - apply NoDup_Permutation.
    + assert (G : forall a l, length l = a -> (forall r, NoDup (nth r l [])) -> (forall r r' p, In p (nth r l []) -> In p (nth r' l []) -> r = r') -> NoDup (@concat (patch B) l)).
      { clear. intros a l _. induction l as [|x l IH]; intros N D; cbn; [constructor|]. apply nodup_app_intro.
        - exact (N 0).
        - apply IH; [intro r; exact (N (S r))|]. intros r r' p I I'. specialize (D (S r) (S r') p I I'). lia.
        - intros p I J. apply in_concat in J as (y & Jy & J). apply (In_nth _ _ []) in Jy as (r & _ & <-).
          specialize (D 0 (S r) p I J). lia. }
      eapply G; [reflexivity| |].
      * intro r. eapply Permutation_NoDup; [apply Permutation_sym, A|]. apply NoDup_filter. apply (NoDup_map_inv idx). exact V.
      * intros r r' p I I'. apply Mem' in I as [_ <-]. apply Mem' in I' as [_ <-]. reflexivity.
    + apply (NoDup_map_inv idx). exact V.
    + intro p. split.
      * intro I. apply in_concat in I as (l & Il & I). apply (In_nth _ _ []) in Il as (r & _ & <-). eapply Mem'; eauto.
      * intro I. apply in_concat. exists (nth (nth (idx p) ranks 0) new []). split; [|auto]. apply nth_In. rewrite L1. auto.
  - intros p q Ip Iq.
    rewrite <- (proj2 (relabel_same (length h) (previous_ranks B h) parts order garbage Ho Lg Hp (idx p) (idx q) (Lk p Ip) (Lk q Iq))).
    fold ranks. split.
    + intros (r & J1 & J2). apply Mem' in J1 as [_ ->]. apply Mem' in J2 as [_ ->]. reflexivity.
    + intro Er. exists (nth (idx p) ranks 0). split; [auto|]. rewrite Er. auto.
Qed.

(** three processes: patch 0 moves to process 1, patch 4 to the third process, which had none *)
Definition demo_holdings : list (list (patch nat)) :=
  [[mkPatch 0 100; mkPatch 2 102]; [mkPatch 1 101; mkPatch 3 103; mkPatch 4 104]; []].
Example C17_example : exists ps, rebalance nat demo_holdings [2;2;0;2;1] [0;2;1] [7;7;7] = Some ps /\
  map (fun r => map idx (held nat r)) ps = [[2]; [1;3]; []] /\
  let st := run nat ps [2;1;2;0;1;0;1;2;0;1;0;1] in done nat (fst st) = true /\ snd st = [] /\
  map (held nat) (fst st) = [[mkPatch 2 102]; [mkPatch 1 101; mkPatch 3 103; mkPatch 0 100]; [mkPatch 4 104]].
Proof. eexists. split; [vm_compute; reflexivity|]. vm_compute. auto. Qed.
Example C16_example : compute_rank 3 [0;0;1;1;2] [2;2;0;0;1] [0;2;1] [7;7;7] = [0;0;1;1;2].
Proof. reflexivity. Qed.

(** C58: the relabelling does not always keep as many patches in place as it could *)
Theorem C58_most_stay_refuted : ~ (forall n prev parts order garbage,
  order_of n order -> length garbage = n -> length prev = length parts ->
  Forall (fun r => r < n) prev -> Forall (fun r => r < n) parts ->
  forall relabel : nat -> nat, (forall i j, i < n -> j < n -> relabel i < n /\ (relabel i = relabel j -> i = j)) ->
  staying prev (map relabel parts) <= staying prev (compute_rank n prev parts order garbage)).
Proof.
  intro H. specialize (H 2 [0;0;0;0;0;0;0;1;1;1;1;1] [0;0;0;1;1;1;1;1;1;1;1;1] [1;0] [0;0] (perm_swap 0 1 []) eq_refl eq_refl).
  assert (F1 : Forall (fun r => r < 2) [0;0;0;0;0;0;0;1;1;1;1;1]) by (repeat apply Forall_cons; try constructor; lia).
  assert (F2 : Forall (fun r => r < 2) [0;0;0;1;1;1;1;1;1;1;1;1]) by (repeat apply Forall_cons; try constructor; lia).
  specialize (H F1 F2 (fun i => i) ltac:(intros; lia)). vm_compute in H. lia.
Qed.

Print Assumptions C16_partition.
Print Assumptions C16_overlap.
Print Assumptions C16_unchanged.
Print Assumptions C17_exchange.
Print Assumptions C17_completes.
Print Assumptions C17_loads.
Print Assumptions C17_rebalance.
Print Assumptions C58_most_stay_refuted.
