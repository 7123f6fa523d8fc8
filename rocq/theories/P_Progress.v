(** Proofs about progress reports. *)
From Verif Require Import Base M_Progress S_Progress.
From Coq Require Import QArith Lqa.
Local Open Scope Z_scope.

Lemma spaced_app lo k l r : spaced lo k l -> last l lo < r <= last l lo + k -> spaced lo k (l ++ [r]).
Proof.
  revert lo. induction l as [|x l IH]; intros lo S1 L; cbn [app spaced last] in *; [auto|]. destruct S1 as [A B]. split; [exact A|].
  apply IH; [exact B|]. destruct l as [|y l]; [exact L|]. assert (forall d d', last (y :: l) d = last (y :: l) d') as D by (clear; induction l as [|z l IH] in y |- *; intros d d'; [reflexivity|exact (IH z d d')]). rewrite (D x lo). exact L.
Qed.
Lemma last_snoc (l : list Z) x d : last (l ++ [x]) d = x.
Proof. induction l as [|y l IH]; [reflexivity|]. cbn [app]. destruct (l ++ [x]) eqn:E; [destruct l; discriminate|]. rewrite <- E in *. cbn [last]. rewrite E. rewrite <- E. exact IH. Qed.

(** what holds after k steps that were not disabled, not on a terminal *)
Definition good (e : env) (total initial k : Z) (b : bar) : Prop :=
  b_total b = total /\ b_interval b = interval total /\ b_n b = initial + k /\ b_last b <= b_n b /\ b_n b - b_last b < interval total /\
  (terminal e = false -> spaced initial (interval total) (b_log b) /\ last (b_log b) initial = b_last b) /\ (terminal e = true -> b_log b = []) /\
  (slurm e = false -> b_comment b = []) /\ Forall (fun p => 0 <= p <= 100)%Q (b_comment b).
Lemma interval_pos t : 1 <= interval t <= 100.
Proof. unfold interval. lia. Qed.
Lemma percent_ok total initial k b : 0 < total -> 0 <= initial -> 0 <= k -> initial + k <= total -> b_total b = total -> b_n b = initial + k -> exists p, percent b = Some p /\ (0 <= p <= 100)%Q.
Proof.
  intros T I K L E N. unfold percent. rewrite E, N. assert (total =? 0 = false) as -> by lia. eexists. split; [reflexivity|].
  assert (0 < inject_Z total)%Q as P by (unfold Qlt, inject_Z; cbn; lia). split.
  - apply Qle_shift_div_l; [exact P|]. rewrite Qmult_0_l. change 0%Q with (inject_Z 0). rewrite <- Zle_Qle. lia.
  - apply Qle_shift_div_r; [exact P|]. change 100%Q with (inject_Z 100). rewrite <- inject_Z_mult, <- Zle_Qle. lia.
Qed.
Lemma good_update e total initial k now b : disabled e = false -> 0 < total -> 0 <= initial -> 0 <= k -> initial + k + 1 <= total -> good e total initial k b ->
  exists b', update e now b = Some b' /\ good e total initial (k + 1) b'.
Proof.
  intros D T I K L (G1 & G2 & G3 & G4 & G5 & G6 & G7 & G8 & G9). unfold update. rewrite D. cbn [b_n]. pose proof (interval_pos total) as IP.
  destruct ((b_interval b <=? b_n b + 1 - b_last b) || Qle_bool 60 (now - b_last_time b)) eqn:C.
  - set (b1 := mkBar _ _ _ _ _ _ _). destruct (percent_ok total initial (k + 1) b1 T I ltac:(lia) ltac:(lia) G1 ltac:(unfold b1; cbn; lia)) as (p & E & P).
    unfold when, log_progress, comment. destruct (terminal e) eqn:Te; cbn [negb bind].
    + destruct (slurm e) eqn:Se; [rewrite E|]; cbn [bind]; eexists; (split; [reflexivity|]); unfold good; cbn [b_total b_interval b_n b_last b_log b_comment b1];
        (do 5 (split; [lia|])); rewrite Te, Se; (split; [discriminate|]); (split; [auto|]); (split; [try discriminate; auto|]); [apply Forall_app; split; auto|auto].
    + rewrite E. cbn [bind]. destruct (G6 eq_refl) as [S1 S2]. unfold percent in E |- *. cbn [b_total b_n] in E |- *.
      assert (spaced initial (interval total) (b_log b ++ [b_n b + 1])) as S3 by (apply spaced_app; [exact S1|rewrite S2; lia]).
      destruct (slurm e) eqn:Se; [change (b_total b1) with (b_total b) in E; change (b_n b1) with (b_n b + 1) in E |- *; change (b_total b1) with (b_total b); rewrite E|]; cbn [bind]; eexists; (split; [reflexivity|]); unfold good; cbn [b_total b_interval b_n b_last b_log b_comment b1];
        (do 5 (split; [lia|])); rewrite Te, Se; (split; [intros _; split; [exact S3|apply last_snoc]|]); (split; [discriminate|]); (split; [try discriminate; auto|]); [apply Forall_app; split; auto|auto].
  - eexists. split; [reflexivity|]. apply orb_false_iff in C as [C _]. unfold good. cbn [b_total b_interval b_n b_last b_log b_comment]. do 5 (split; [lia|]). auto.
Qed.
Lemma good_steps e total initial clock : disabled e = false -> 0 < total -> 0 <= initial -> forall k b, 0 <= k -> initial + k + Z.of_nat (length clock) <= total -> good e total initial k b ->
  exists b', steps e clock b = Some b' /\ good e total initial (k + Z.of_nat (length clock)) b'.
Proof.
  intros D T I. induction clock as [|now r IH]; intros k b K L G; cbn [steps length] in *.
  - exists b. split; [reflexivity|]. rewrite Z.add_0_r. exact G.
  - destruct (good_update e total initial k now b D T I K ltac:(lia) G) as (b' & -> & G'). cbn [bind]. destruct (IH (k + 1) b' ltac:(lia) ltac:(lia) G') as (b'' & E & G'').
    exists b''. split; [exact E|]. replace (k + Z.of_nat (S (length r))) with (k + 1 + Z.of_nat (length r)) by lia. exact G''.
Qed.
Lemma good_new e total initial t0 : good e total initial 0 (new_bar total initial t0).
Proof. pose proof (interval_pos total). unfold good, new_bar. cbn [b_total b_interval b_n b_last b_log b_comment]. do 5 (split; [unfold interval in *; lia|]). cbn [spaced last]. auto 10. Qed.
Lemma closed_good e total initial t0 clock : disabled e = false -> 0 < total -> 0 <= initial -> initial + Z.of_nat (length clock) <= total ->
  exists b, closed_run e total initial t0 clock = Some b /\ (terminal e = false -> spaced initial (interval total) (b_log b) /\ last (b_log b) initial = initial + Z.of_nat (length clock)) /\
  (terminal e = true -> b_log b = []) /\ (slurm e = false -> b_comment b = []) /\ Forall (fun p => 0 <= p <= 100)%Q (b_comment b) /\
  (slurm e = true -> last (b_comment b) 0%Q == inject_Z (100 * (initial + Z.of_nat (length clock))) / inject_Z total)%Q.
Proof.
  intros D T I L. unfold closed_run. destruct (good_steps e total initial clock D T I 0 _ ltac:(lia) ltac:(lia) (good_new e total initial t0)) as (b & -> & G). cbn [bind].
  set (k := Z.of_nat (length clock)) in *. destruct G as (G1 & G2 & G3 & G4 & G5 & G6 & G7 & G8 & G9). cbn [Z.add] in G3. unfold close. rewrite D.
  destruct (percent_ok total initial k b T I ltac:(lia) ltac:(lia) G1 G3) as (p & E & P).
  assert (forall l : list Q, last (l ++ [p]) 0%Q = p) as LS. { intro l. induction l as [|y l IH]; [reflexivity|]. cbn [app last]. destruct (l ++ [p]) eqn:X; [destruct l; discriminate|exact IH]. }
  assert (p == inject_Z (100 * (initial + k)) / inject_Z total)%Q as V. { unfold percent in E. rewrite G1, G3 in E. assert (total =? 0 = false) as Q by lia. rewrite Q in E. inversion E. reflexivity. }
  unfold when, log_progress, comment. destruct (terminal e) eqn:Te; cbn [negb andb bind].
  - destruct (slurm e) eqn:Se; [rewrite E|]; eexists; (split; [reflexivity|]); cbn [b_log b_comment]; (split; [discriminate|]); (split; [auto|]); (split; [try discriminate; auto|]).
    + split; [apply Forall_app; split; auto|]. intros _. rewrite LS. exact V.
    + split; [auto|discriminate].
  - destruct (G6 eq_refl) as [S1 S2]. destruct (b_last b <? b_n b) eqn:Q.
    + rewrite E. cbn [bind]. assert (spaced initial (interval total) (b_log b ++ [b_n b])) as S3 by (apply spaced_app; [exact S1|rewrite S2; lia]).
      unfold percent in E |- *. cbn [b_total b_n]. destruct (slurm e) eqn:Se; [rewrite E|]; eexists; (split; [reflexivity|]); cbn [b_log b_comment]; (split; [intros _; split; [exact S3|rewrite last_snoc; exact G3]|]); (split; [discriminate|]); (split; [try discriminate; auto|]).
      * split; [apply Forall_app; split; auto|]. intros _. rewrite LS. exact V.
      * split; [auto|discriminate].
    + cbn [bind]. destruct (slurm e) eqn:Se; [rewrite E|]; eexists; (split; [reflexivity|]); cbn [b_log b_comment]; (split; [intros _; split; [exact S1|rewrite S2; lia]|]); (split; [discriminate|]); (split; [try discriminate; auto|]).
      * split; [apply Forall_app; split; auto|]. intros _. rewrite LS. exact V.
      * split; [auto|discriminate].
Qed.
