(** C23, C47: checkpoint retention and crash safety.  Vocabulary: S_Checkpoint. *)
From Verif Require Import Base M_Checkpoint S_Checkpoint P_Checkpoint.
From Coq Require Import Sorting.Sorted.
Local Open Scope Z_scope.

(** C23, one dump with keep = N = S keep, steps below 10^6: a checkpoint with fewer than N newer ones is kept with its
    content (the one just written with the new content), one with N newer ones is gone, other entries of the directory
    are untouched.  Directories whose removal fails do not disturb the others. *)
Theorem C23_dump_keeps_most_recent_partial :
  forall (A : Type) removable size keep steps (d : disk A) itime v,
  holds_checkpoints steps d -> NoDup steps -> Forall six_digits steps -> six_digits itime ->
  let all := with_step itime steps in
  let d' := dump removable size (Some (S keep)) itime v d in
  (forall s, In s all -> (newer s all < S keep)%nat ->
     forall r, (r < size)%nat ->
     load_shard (ckpt_name s) r d' = if s =? itime then Some (v r) else load_shard (ckpt_name s) r d) /\
  (forall s, In s all -> (S keep <= newer s all)%nat -> removable (ckpt_name s) = true ->
     find_dir (ckpt_name s) d' = None) /\
  (forall e, In e d -> starts_with ckpt_prefix (e_name e) = false -> In e d').
Proof. exact @dump_keeps. Qed.

(** C23, whole histories: after any number of dumps with increasing steps exactly the last N are on disk, each loadable by every
    process with the state that was dumped. *)
Theorem C23_history_keeps_last_N_partial :
  forall (A : Type) removable size keep (hist : list (Z * (nat -> A))) d0,
  (forall n, removable n = true) -> holds_checkpoints [] d0 ->
  StronglySorted Z.lt (map fst hist) -> Forall six_digits (map fst hist) ->
  let d := dump_all removable size (Some (S keep)) hist d0 in
  let kept := skipn (length hist - S keep) hist in
  holds_checkpoints (map fst kept) d /\
  (forall h r, In h kept -> (r < size)%nat -> load_shard (ckpt_name (fst h)) r d = Some (snd h r)).
Proof. exact @history_kept. Qed.

(** C23: the checkpoint just written survives its own clean-up if no newer one is on disk, for any [keep]. *)
Theorem C23_new_checkpoint_survives_partial :
  forall (A : Type) removable size keep steps (d : disk A) itime v,
  holds_checkpoints steps d -> NoDup steps -> Forall six_digits steps -> six_digits itime ->
  (forall s, In s steps -> s <= itime) ->
  forall r, (r < size)%nat -> load_shard (ckpt_name itime) r (dump removable size keep itime v d) = Some (v r).
Proof. exact @newest_loaded. Qed.

Example ex_C23 :
  let hist := map (fun s => (s, fun r => s * 10 + Z.of_nat r)) [5; 40; 300; 999999] in
  let d := dump_all (fun _ => true) 2 (Some 2%nat) hist [mkEntry [65] true []] in
  map e_name d = [[65]; ckpt_name 300; ckpt_name 999999] /\
  load_shard (ckpt_name 300) 1 d = Some 3001 /\ load_shard (ckpt_name 40) 0 d = None.
Proof. vm_compute. repeat split. Qed.

(** C23 fails from step 10^6 on: names are compared as strings, so the dump of step 1000000 with keep = 1 deletes itself
    and keeps step 999999. *)
Theorem C23_seven_digit_steps_refuted :
  exists (hist : list (Z * (nat -> Z))),
  StronglySorted Z.lt (map fst hist) /\ map fst hist = [999999; 1000000] /\
  let d := dump_all (fun _ => true) 1 (Some 1%nat) hist [] in
  load_shard (ckpt_name 1000000) 0 d = None /\ load_shard (ckpt_name 999999) 0 d = Some 1.
Proof.
  exists [(999999, fun _ => 1); (1000000, fun _ => 2)]. split; [repeat constructor|]. vm_compute. repeat split.
Qed.

(** C23 fails after resuming from an older checkpoint while newer ones are on disk: the fresh dump is deleted at once. *)
Theorem C23_resume_from_older_refuted :
  exists (hist : list (Z * (nat -> Z))),
  Forall six_digits (map fst hist) /\ map fst hist = [100; 300; 400; 200] /\
  let d := dump_all (fun _ => true) 1 (Some 2%nat) hist [] in
  load_shard (ckpt_name 200) 0 d = None /\ load_shard (ckpt_name 400) 0 d = Some 3.
Proof.
  exists [(100, fun _ => 1); (300, fun _ => 2); (400, fun _ => 3); (200, fun _ => 4)].
  split; [repeat constructor; vm_compute; congruence|]. vm_compute. repeat split.
Qed.

(** C47: whenever the processes crash during a dump of a new, newest step (any mixture of unopened, truncated and written shards,
    any point of the clean-up), either all earlier checkpoints still load with their content or the new one loads
    completely. *)
Theorem C47_crash_leaves_a_checkpoint_partial :
  forall (A : Type) removable size keep steps (d : disk A) itime v d',
  holds_checkpoints steps d -> NoDup steps -> Forall six_digits steps -> six_digits itime ->
  (forall s, In s steps -> s < itime) ->
  crash_state removable size keep itime v d d' ->
  (forall s r, In s steps -> (r < size)%nat ->
     load_shard (ckpt_name s) r d' = load_shard (ckpt_name s) r d) \/
  (forall r, (r < size)%nat -> load_shard (ckpt_name itime) r d' = Some (v r)).
Proof. exact @crash_safe. Qed.

Example ex_C47 :
  let d := dump_all (fun _ => true) 2 (Some 1%nat) [(7, fun r => Z.of_nat r)] [] in
  crash_state (fun _ => true) 2 (Some 1%nat) 9 (fun r => 50 + Z.of_nat r) d
    (fold_left do_act (firstn 1 (gc_acts (fun _ => true) 1 (write_shards 2 (fun _ => Written) (ckpt_name 9) (fun r => 50 + Z.of_nat r) (mkdir (ckpt_name 9) d))))
       (write_shards 2 (fun _ => Written) (ckpt_name 9) (fun r => 50 + Z.of_nat r) (mkdir (ckpt_name 9) d))) /\
  holds_checkpoints [7] d.
Proof.
  cbv zeta. split; [now apply (crash_cleaning _ _ 2 (Some 1%nat) 9 _ _ 0 1)|]. vm_compute. split; [|split].
  - repeat constructor; intuition discriminate.
  - intros e [<-|[]] _. reflexivity.
  - constructor. constructor.
Qed.

(** C47 fails when the step was already dumped (a signal arriving at a step whose interval dump exists): with that checkpoint
    being the only one, a crash while it is rewritten leaves nothing. *)
Theorem C47_rewriting_same_step_refuted :
  exists (d d' : disk Z), holds_checkpoints [5] d /\ loadable 1 5 d /\
  crash_state (fun _ => true) 1 (Some 1%nat) 5 (fun _ => 2) d d' /\
  (forall n r, load_shard n r d' = None).
Proof.
  exists (dump (fun _ => true) 1 (Some 1%nat) 5 (fun _ => 1) []),
         (write_shards 1 (fun _ => Opened) (ckpt_name 5) (fun _ => 2) (mkdir (ckpt_name 5) (dump (fun _ => true) 1 (Some 1%nat) 5 (fun _ => 1) []))).
  split; [vm_compute; split; [|split]|split; [|split]].
  - repeat constructor; intuition discriminate.
  - intros e [<-|[]] _. reflexivity.
  - constructor. constructor.
  - intros r Hr. assert (r = 0%nat) as -> by lia. vm_compute. discriminate.
  - apply crash_writing.
  - intros n r. unfold load_shard, find_dir.
    match goal with |- context [find _ ?d] => let v := eval vm_compute in d in change d with v end.
    cbn [find e_name]. destruct (str_eqb _ n); auto. cbn [e_shards find fst]. now destruct (0 =? r)%nat.
Qed.

(** C47 fails if an earlier crash left an incomplete newer directory: the clean-up counts it as most recent and deletes all complete
    checkpoints, including the one just written. *)
Theorem C47_incomplete_newer_directory_refuted :
  exists (d : disk Z), holds_checkpoints [100; 200] d /\ loadable 1 100 d /\
  (forall n r, load_shard n r (dump (fun _ => true) 1 (Some 1%nat) 150 (fun _ => 3) d) = None).
Proof.
  exists (write_shards 1 (fun _ => Opened) (ckpt_name 200) (fun _ => 2) (mkdir (ckpt_name 200) (dump (fun _ => true) 1 (Some 1%nat) 100 (fun _ => 1) []))).
  split; [vm_compute; split; [|split]|split].
  - repeat constructor; cbn; intuition discriminate.
  - intros e [<-|[<-|[]]] _; reflexivity.
  - apply Permutation_refl.
  - intros r Hr. assert (r = 0%nat) as -> by lia. vm_compute. discriminate.
  - intros n r. unfold load_shard, find_dir.
    match goal with |- context [find _ ?d] => let v := eval vm_compute in d in change d with v end.
    cbn [find e_name]. destruct (str_eqb _ n); auto. cbn [e_shards find fst]. now destruct (0 =? r)%nat.
Qed.

Print Assumptions C23_dump_keeps_most_recent_partial.
Print Assumptions C23_history_keeps_last_N_partial.
Print Assumptions C23_new_checkpoint_survives_partial.
Print Assumptions C23_seven_digit_steps_refuted.
Print Assumptions C23_resume_from_older_refuted.
Print Assumptions C47_crash_leaves_a_checkpoint_partial.
Print Assumptions C47_rewriting_same_step_refuted.
Print Assumptions C47_incomplete_newer_directory_refuted.
