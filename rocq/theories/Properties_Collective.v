(** C44, C62: the collective calls of a run. *)
From Verif Require Import Base M_Collective S_Collective P_Collective P_Collective2.
From Coq Require Import QArith.
Local Open Scope list_scope.

(** C44: when the processes agree on the callbacks, the species, the signals and the stop callback, and each process
    holds a patch at every check, all processes make the same collective calls and the run finishes - for any loads
    (hence any number of rebalancings), any number of processes and of steps, any callbacks, any state of the flags. *)
Theorem C44_same_calls :
  forall size thr0 dec inc vs n it s,
    size = length vs -> agree vs -> (1 < size -> all_hold_patches vs)%nat ->
    exists t, completes (map (fun v => run size thr0 dec inc v n it s) vs) t.
Proof.
  intros size thr0 dec inc vs n it s E HA HP. destruct vs as [|v0 vs].
  - exists []. constructor. constructor.
  - exact (lockstep size thr0 dec inc (v0 :: vs) HA v0 (or_introl eq_refl) HP n it s).
Qed.

(** finishing and blocking exclude each other, so the theorems below are about runs that do not finish *)
Theorem C44_finish_or_block : forall ps t t', completes ps t -> blocks ps t' -> False.
Proof.
  intros ps t t' C. revert t'. induction C as [ps D|o vks t C IH]; intros t' B.
  - inversion B as [ps' N _ E1 E2|o vks t B' E1 E2]; subst.
    + apply N. exact D.
    + destruct vks as [|vk vks].
      * clear D B. cbn [map] in B'. clear - B'.
        remember (@nil prog) as ps eqn:E. induction B' as [ps N _|o vks t B IH].
        -- apply N. subst. constructor.
        -- destruct vks; [|discriminate]. now apply IH.
      * inversion D as [|p l P _]. discriminate P.
  - inversion B as [ps' N M E1 E2|o' vks' t2 B' E1 E2]; subst.
    + apply (M o). apply Forall_forall. intros p I. apply in_map_iff in I. destruct I as (vk & <- & _).
      exists (fst vk), (snd vk). reflexivity.
    + assert (vks' = vks) as ->.
      { clear - E1. revert vks' E1. induction vks as [|[v k] vks IHv]; intros [|[v' k'] vks'] E; try discriminate; [reflexivity|].
        cbn [map fst snd] in E. injection E as _ E2 E3 E4. rewrite E2, E3. f_equal. now apply IHv. }
      exact (IH t2 B').
Qed.

(** C62 is refuted: as soon as a check finds a process without patches (and another with some) the run blocks. *)
Theorem C62_process_without_patches_refuted :
  forall size thr0 dec inc vs n it j s v w,
    size = length vs -> (1 < size)%nat -> agree_but_signals vs -> (forall v, In v vs -> barriers_only v) ->
    (forall i, (i < j)%nat -> forall u, In u vs -> loads u (it + i)%nat <> [] /\ loads_after u (it + i)%nat <> []) ->
    (forall i u, (i < j)%nat -> In u vs -> signal u (it + i)%nat = false /\ stop u (it + i)%nat = false) ->
    (j < n)%nat -> In v vs -> In w vs -> loads v (it + j)%nat = [] -> loads w (it + j)%nat <> [] ->
    exists t, blocks (map (fun v => run size thr0 dec inc v n it s) vs) t.
Proof.
  intros size thr0 dec inc vs n it j s v w _ Hs HA HB. exact (empty_process_blocks size thr0 dec inc vs Hs HA HB n it j s v w).
Qed.
(** C62 is refuted: a dump signal that has reached one process and not another by the end of a step (not the last one)
    blocks the run. *)
Theorem C62_signal_on_some_processes_refuted :
  forall size thr0 dec inc vs n it j s v w,
    size = length vs -> (1 < size)%nat -> agree_but_signals vs -> (forall v, In v vs -> barriers_only v) ->
    all_hold_patches vs ->
    (forall i u, (i < j)%nat -> In u vs -> signal u (it + i)%nat = false /\ stop u (it + i)%nat = false) ->
    (S j < n)%nat -> In v vs -> In w vs -> signal v (it + j)%nat = true -> signal w (it + j)%nat = false ->
    exists t, blocks (map (fun v => run size thr0 dec inc v n it s) vs) t.
Proof.
  intros size thr0 dec inc vs n it j s v w _ Hs HA HB HP. exact (signal_blocks size thr0 dec inc vs Hs HA HB HP n it j s v w).
Qed.

(** ** concrete cases *)
Definition v_ex (l : list Q) (sg : nat -> bool) : view :=
  mkView (fun it s => match s with End => if (it mod 2 =? 0)%nat then [[CColl Allgather; CColl Barrier; CSync]] else [] | _ => [] end)
         (fun _ => [0; 1]%nat) (fun _ => l) (fun _ => l) sg (fun _ => false).
Definition b_ex (l : list Q) (sg : nat -> bool) : view :=
  mkView (fun it s => match s with CurrentDeposition _ => [[CSync]] | _ => [] end)
         (fun _ => [0]%nat) (fun _ => l) (fun _ => l) sg (fun _ => false).
Definition never : nat -> bool := fun _ => false.
(** three processes with loads 1, 5, 2 and an output callback at every second step meet the hypotheses of C44 *)
Example C44_example :
  let vs := [v_ex [1] never; v_ex [2; 3] never; v_ex [2] never]%Q in agree vs /\ all_hold_patches vs.
Proof.
  split.
  - intros v w Iv Iw it. cbn in Iv, Iw.
    destruct Iv as [<-|[<-|[<-|[]]]], Iw as [<-|[<-|[<-|[]]]]; repeat split; reflexivity.
  - intros v Iv it. cbn in Iv. destruct Iv as [<-|[<-|[<-|[]]]]; split; discriminate.
Qed.
(** the second of two processes holds no patch *)
Example C62_example_patches :
  let vs := [b_ex [1] never; b_ex [] never]%Q in
  agree_but_signals vs /\ (forall v, In v vs -> barriers_only v) /\
  exists t, blocks (map (fun v => run 2 (1#10) 1 1 v 1 0 (mkSt false false (1#10))) vs) t.
Proof.
  assert (agree_but_signals [b_ex [1] never; b_ex [] never]%Q) as A.
  { intros v w Iv Iw it. cbn in Iv, Iw. destruct Iv as [<-|[<-|[]]], Iw as [<-|[<-|[]]]; repeat split; reflexivity. }
  assert (forall v, In v [b_ex [1] never; b_ex [] never]%Q -> barriers_only v) as B.
  { intros v Iv it s b o Ib Io. cbn in Iv. destruct Iv as [<-|[<-|[]]]; destruct s; cbn in Ib; try contradiction;
      destruct Ib as [<-|[]]; destruct Io as [E|[]]; discriminate. }
  split; [exact A|]. split; [exact B|].
  apply (C62_process_without_patches_refuted 2 (1#10) 1 1 [b_ex [1] never; b_ex [] never]%Q 1 0 0 _ (b_ex [] never) (b_ex [1%Q] never));
    auto; try (intros; lia); cbn; auto. discriminate.
Qed.
(** a signal delivered to the first process during step 1 and to the second one during step 2 of a run of four steps *)
Example C62_example_signal :
  let vs := [b_ex [1] (fun it => 1 <=? it); b_ex [1] (fun it => 2 <=? it)]%Q%nat in
  agree_but_signals vs /\ all_hold_patches vs /\
  exists t, blocks (map (fun v => run 2 (1#10) 1 1 v 4 0 (mkSt false false (1#10))) vs) t.
Proof.
  set (a := b_ex [1%Q] (fun it => 1 <=? it)%nat). set (b := b_ex [1%Q] (fun it => 2 <=? it)%nat).
  assert (agree_but_signals [a; b]) as A.
  { intros v w Iv Iw it. cbn in Iv, Iw. destruct Iv as [<-|[<-|[]]], Iw as [<-|[<-|[]]]; repeat split; reflexivity. }
  assert (forall v, In v [a; b] -> barriers_only v) as B.
  { intros v Iv it s x o Ib Io. cbn in Iv. destruct Iv as [<-|[<-|[]]]; destruct s; cbn in Ib; try contradiction;
      destruct Ib as [<-|[]]; destruct Io as [E|[]]; discriminate. }
  assert (all_hold_patches [a; b]) as P.
  { intros v Iv it. cbn in Iv. destruct Iv as [<-|[<-|[]]]; split; discriminate. }
  cbv zeta. split; [exact A|]. split; [exact P|].
  apply (C62_signal_on_some_processes_refuted 2 (1#10) 1 1 [a; b] 4 0 1 _ a b); auto; try lia; cbn; auto.
  intros i u L [<-|[<-|[]]]; assert (i = 0%nat) as -> by lia; split; reflexivity.
Qed.

Print Assumptions C44_same_calls.
Print Assumptions C44_finish_or_block.
Print Assumptions C62_process_without_patches_refuted.
Print Assumptions C62_signal_on_some_processes_refuted.
