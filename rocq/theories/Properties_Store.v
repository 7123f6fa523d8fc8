(** C13, C14: particle identifiers and particle storage. *)
From Coq Require Import QArith String.
From Verif Require Import Base M_RunLoop M_Store S_Store P_StoreIds P_Store P_Store2.
Local Open Scope list_scope.
Local Open Scope Z_scope.

(** ** C13.  Full property: for every history alive identifiers are distinct.  It fails when QED creation reuses the slot of
    a particle that migrated away ([C13_qed_reuse_refuted]); it holds for every history without QED creation, and for every
    history without migration. *)
Theorem C13_unique_without_qed_creation_partial : forall h st, fresh_pool st -> forallb (fun o => negb (is_create o)) h = true ->
  NoDup (alive_ids (exec_all h st)).
Proof. exact alive_unique. Qed.
Theorem C13_unique_without_migration_partial : forall h st, fresh_pool st -> forallb (fun o => negb (is_migrate o)) h = true ->
  NoDup (slot_ids (exec_all h st)).
Proof. exact slots_unique. Qed.
(** two identifiers are equal only for the same rank, patch and local index *)
Theorem C13_identifier_encoding_partial : forall r p k r' p' k',
  0 <= p < 2 ^ 18 -> 0 <= k < 2 ^ 32 -> 0 <= p' < 2 ^ 18 -> 0 <= k' < 2 ^ 32 ->
  make_id r p k = make_id r' p' k' -> r = r' /\ p = p' /\ k = k'.
Proof. exact make_id_inj. Qed.
(** the identifier operations of the whole-simulation model are those of the particle objects *)
Theorem C13_objects_follow_the_model_partial :
  (forall s n s', has_ids s -> initialize n s = Some s' -> [view s'] = exec (OInit 0 n) [view s]) /\
  (forall s n s', well_formed s -> has_ids s -> 0 < n -> extend n s = Some s' -> [view s'] = exec (OExtend 0 (Z.to_nat n)) [view s]).
Proof.
  split; [intros s n s' H E; exact (proj1 (view_initialize s n s' H E))|intros s n s' W H N E; exact (proj1 (view_extend s n s' W H N E))].
Qed.
(** two patches; a particle migrates from patch 0 to patch 1, then a QED event creates a particle in the slot it left *)
Definition two_patches : pool := [mkPs 0 0 0 []; mkPs 0 1 0 []].
Definition bad_history : list idop := [OInit 0 2; OInit 1 1; OExtend 1 1; OMigrate 0 1 1 1; OCreate 0 1].
Lemma two_patches_fresh : fresh_pool two_patches.
Proof.
  split; [repeat constructor; cbn; intuition discriminate|]. intros p [<-|[<-|[]]]; cbn; repeat split; lia.
Qed.
Theorem C13_qed_reuse_refuted : fresh_pool two_patches /\ ~ NoDup (alive_ids (exec_all bad_history two_patches)).
Proof.
  split; [exact two_patches_fresh|]. intro H.
  replace (alive_ids (exec_all bad_history two_patches)) with [0; 1; 4294967296; 1] in H by (vm_compute; reflexivity).
  apply NoDup_cons_iff, proj2, NoDup_cons_iff, proj1 in H. apply H. right; left; reflexivity.
Qed.
Example C13_nonvacuous :
  let h := [OInit 0 3; OInit 1 2; OExtend 1 2; OMigrate 0 1 1 3; OKill 0 0; OSort 0 [2; 0; 1]%nat; OLoad 0 1; OPrune 0 [3; 0; 1; 2]%nat 3] in
  forallb (fun o => negb (is_create o)) h = true /\ fresh_pool two_patches /\
  alive_ids (exec_all h two_patches) = [3; 2; 4294967296; 4294967297; 1].
Proof. split; [reflexivity|split; [exact two_patches_fresh|vm_compute; reflexivity]]. Qed.

(** ** C14: growing by n >= 1 and pruning with a non-negative buffer fraction.
    ** C49 (edge cases): n <= 0 is a no-op for plain particles, but extend(0) of QED particles clears pending events, and pruning
    with a negative fraction drops alive particles. *)
Theorem C14_extend_keeps_particles : forall s n s', well_formed s -> 0 < n -> extend n s = Some s' ->
  well_formed s' /\ s_npart s' = (s_npart s + Z.to_nat n)%nat /\
  (forall i, (i < s_npart s)%nat -> slot s' i = slot s i /\ is_alive s' i = is_alive s i) /\
  (forall i, (s_npart s <= i < s_npart s + Z.to_nat n)%nat -> is_alive s' i = false) /\
  alive_slots s' = alive_slots s /\ s_extended s' = true.
Proof. exact extend_keeps. Qed.
Theorem C14_extend_fails_only_when_ids_run_out : forall s n, 0 < n ->
  ((exists s', extend n s = Some s') <-> s_created s + n <= 2 ^ 32).
Proof. intros s n H. exact (extend_defined s n H). Qed.
Theorem C14_extend_new_slots : forall s n s', well_formed s -> 0 < n -> extend n s = Some s' ->
  forall i name v, (i < Z.to_nat n)%nat -> In (name, v) (fst (slot s' (s_npart s + i))) ->
    v = (if (name =? "_id")%string then Id (make_id (s_rank s) (s_ipatch s) (s_created s + Z.of_nat i))
         else if (name =? "w")%string then Num 0 else NaN).
Proof. exact extend_new_slots. Qed.
Theorem C49_extend_by_nothing_partial : forall s n, s_event s = None -> n <= 0 -> extend n s = Some s.
Proof. exact extend_nothing. Qed.
Theorem C14_prune_keeps_particles : forall extra idx s, well_formed s -> sorts_dead (s_dead s) idx -> (0 <= extra)%Q ->
  well_formed (prune extra idx s) /\ (n_alive (s_dead s) <= s_npart (prune extra idx s) <= s_npart s)%nat /\
  Permutation (alive_slots (prune extra idx s)) (alive_slots s).
Proof. exact prune_keeps. Qed.

Definition demo_store : store :=
  mkStore 0 0 [("x", [Num 1; Num 2; Num 3; NaN]); ("w", [Num 1; Num 1; Num 1; Num 0]); ("_id", [Id 0; Id 1; Id 2; Id 3])]%string
    [true; false; false; true] (Some [false; true; true; false]) 4 4 false.
Lemma demo_wf : well_formed demo_store.
Proof. split; [intros a [<-|[<-|[<-|[]]]]; reflexivity|split; reflexivity]. Qed.
Theorem C49_qed_extend_zero_refuted : well_formed demo_store /\
  option_map alive_slots (extend 0 demo_store) <> Some (alive_slots demo_store).
Proof. split; [exact demo_wf|]. vm_compute. discriminate. Qed.
Definition demo_order : list nat := [2; 1; 3; 0]%nat.
Lemma demo_sorts : sorts_dead (s_dead demo_store) demo_order.
Proof.
  split.
  - change (Permutation [2; 1; 3; 0]%nat [0; 1; 2; 3]%nat). apply NoDup_Permutation; [repeat constructor; cbn; intuition discriminate|repeat constructor; cbn; intuition discriminate|].
    intro x. cbn. tauto.
  - intros i j [H1 H2]. cbn in H2. do 4 (destruct j as [|j]; [do 4 (destruct i as [|i]; [cbn; try discriminate; try lia; auto|]); lia|]). lia.
Qed.
Theorem C49_negative_buffer_refuted : well_formed demo_store /\ sorts_dead (s_dead demo_store) demo_order /\
  List.length (alive_slots (prune (-1 # 2) demo_order demo_store)) = 1%nat /\ List.length (alive_slots demo_store) = 2%nat.
Proof. split; [exact demo_wf|split; [exact demo_sorts|split; vm_compute; reflexivity]]. Qed.
Example C14_nonvacuous :
  well_formed demo_store /\ sorts_dead (s_dead demo_store) demo_order /\
  alive_slots (prune (1 # 4) demo_order demo_store) =
    [([("x", Num 3); ("w", Num 1); ("_id", Id 2)], Some true); ([("x", Num 2); ("w", Num 1); ("_id", Id 1)], Some true)]%string /\
  option_map s_npart (extend 3 demo_store) = Some 7%nat /\
  option_map (fun s => fst (slot s 5)) (extend 3 demo_store) = Some [("x", NaN); ("w", Num 0); ("_id", Id 5)]%string.
Proof. split; [exact demo_wf|split; [exact demo_sorts|repeat split; vm_compute; reflexivity]]. Qed.

Print Assumptions C13_unique_without_qed_creation_partial.
Print Assumptions C13_unique_without_migration_partial.
Print Assumptions C13_objects_follow_the_model_partial.
Print Assumptions C14_extend_keeps_particles.
Print Assumptions C14_prune_keeps_particles.
