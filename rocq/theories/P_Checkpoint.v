(** Proofs about checkpoint names and retention. *)
From Verif Require Import Base M_Checkpoint S_Checkpoint.
From Coq Require Import Sorting.Sorted.
Local Open Scope Z_scope.

(** ** names *)
Lemma str_eqb_spec a b : str_eqb a b = true <-> a = b.
Proof.
  revert b; induction a as [|x a IH]; intros [|y b]; cbn [str_eqb]; split; intro H; try congruence; auto.
  - apply andb_prop in H; destruct H as [H1 H2]. apply IH in H2. f_equal; auto; lia.
  - injection H as -> ->. rewrite Z.eqb_refl. cbn [andb]. now apply IH.
Qed.
Lemma str_eqb_refl a : str_eqb a a = true. Proof. now apply str_eqb_spec. Qed.
Lemma str_eqb_neq a b : a <> b -> str_eqb a b = false.
Proof. intro H. destruct (str_eqb a b) eqn:E; auto. apply str_eqb_spec in E. congruence. Qed.
Lemma starts_with_app p s : starts_with p (p ++ s) = true.
Proof. induction p as [|x p IH]; cbn; auto. now rewrite Z.eqb_refl, IH. Qed.

Definition val (l : list Z) : Z := fold_left (fun acc c => acc * 10 + (c - 48)) l 0.
Definition isdigit (c : Z) : Prop := 48 <= c <= 57.
Lemma val_acc l acc : fold_left (fun acc c => acc * 10 + (c - 48)) l acc = acc * 10 ^ Z.of_nat (length l) + val l.
Proof.
  unfold val. revert acc; induction l as [|c l IH]; intro acc; cbn [fold_left length].
  - cbn. lia.
  - rewrite IH. rewrite (IH (0 * 10 + (c - 48))). rewrite Nat2Z.inj_succ, Z.pow_succ_r by lia. ring.
Qed.
Lemma val_cons c l : val (c :: l) = (c - 48) * 10 ^ Z.of_nat (length l) + val l.
Proof. unfold val at 1. cbn [fold_left]. rewrite val_acc. ring. Qed.
Lemma val_snoc l c : val (l ++ [c]) = val l * 10 + (c - 48).
Proof. unfold val. now rewrite fold_left_app. Qed.
Lemma val_bound l : Forall isdigit l -> 0 <= val l < 10 ^ Z.of_nat (length l).
Proof.
  induction 1 as [|c l Hc Hl IH]; [cbn; lia|].
  rewrite val_cons. cbn [length]. rewrite Nat2Z.inj_succ, Z.pow_succ_r by lia. unfold isdigit in Hc.
  set (p := 10 ^ Z.of_nat (length l)) in *.
  assert ((c - 48) * p <= 9 * p) by (apply Z.mul_le_mono_nonneg_r; lia).
  assert (0 <= (c - 48) * p) by (apply Z.mul_nonneg_nonneg; lia). lia.
Qed.
Lemma str_leb_val a b : length a = length b -> Forall isdigit a -> Forall isdigit b ->
  str_leb a b = (val a <=? val b).
Proof.
  revert b; induction a as [|x a IH]; intros [|y b] HL Ha Hb; cbn [length] in HL; try lia; [reflexivity|].
  inversion Ha as [|? ? Hx Ha']; inversion Hb as [|? ? Hy Hb']; subst.
  cbn [str_leb]. rewrite !val_cons. injection HL as HL. rewrite HL.
  pose proof (val_bound a Ha') as Ba. pose proof (val_bound b Hb') as Bb. rewrite HL in Ba.
  set (p := 10 ^ Z.of_nat (length b)) in *. unfold isdigit in *.
  destruct (Z.ltb_spec x y); [symmetry; apply Z.leb_le; assert (p * 1 <= p * (y - x)) by (apply Z.mul_le_mono_nonneg_l; lia); lia|].
  destruct (Z.ltb_spec y x); [symmetry; apply Z.leb_gt; assert (p * 1 <= p * (x - y)) by (apply Z.mul_le_mono_nonneg_l; lia); lia|].
  assert (x = y) by lia; subst. rewrite IH by auto.
  destruct (Z.leb_spec (val a) (val b)); symmetry; [apply Z.leb_le|apply Z.leb_gt]; lia.
Qed.

Lemma decf_ok f n : 0 <= n < 2 ^ Z.of_nat f -> (0 < f)%nat ->
  Forall isdigit (decf f n) /\ val (decf f n) = n /\ (1 <= length (decf f n))%nat /\
  (forall k, (0 < k)%nat -> n < 10 ^ Z.of_nat k -> (length (decf f n) <= k)%nat).
Proof.
  revert n; induction f as [|f IH]; intros n Hn Hf; [lia|]. cbn [decf].
  destruct (Z.ltb_spec n 10) as [H|H].
  - split; [repeat constructor; unfold isdigit; lia|]. split; [unfold val; cbn [fold_left]; lia|].
    split; [cbn [length]; lia|]. intros; cbn [length]; lia.
  - rewrite Nat2Z.inj_succ, Z.pow_succ_r in Hn by lia.
    destruct f as [|f']; [cbn in Hn; lia|].
    destruct (IH (n / 10)) as (D & V & L & B); [lia|lia|].
    split; [apply Forall_app; split; auto; repeat constructor; unfold isdigit; lia|].
    split; [rewrite val_snoc, V; lia|]. rewrite app_length. cbn [length].
    split; [lia|]. intros k Hk Hlt.
    destruct k as [|k]; [lia|]. rewrite Nat2Z.inj_succ, Z.pow_succ_r in Hlt by lia.
    destruct k as [|k]; [cbn in Hlt; lia|].
    assert (length (decf (S f') (n / 10)) <= S k)%nat; [|lia]. apply B; [lia|]. lia.
Qed.
Lemma dec_ok n : 0 <= n -> Forall isdigit (dec n) /\ val (dec n) = n /\
  (n < 10 ^ 6 -> (length (dec n) <= 6)%nat).
Proof.
  intro Hn. unfold dec.
  destruct (decf_ok (S (Z.to_nat (Z.log2 n))) n) as (D & V & L & B).
  - rewrite Nat2Z.inj_succ, Z2Nat.id by apply Z.log2_nonneg.
    destruct (Z.eq_dec n 0) as [->|]; [cbn; lia|]. pose proof (Z.log2_spec n). lia.
  - lia.
  - split; auto. split; auto. intro H. apply B; [lia|]. exact H.
Qed.
Lemma val_pad l : val (pad6 l) = val l.
Proof.
  unfold pad6. induction (6 - length l)%nat as [|k IH]; [reflexivity|].
  cbn [repeat app]. rewrite val_cons, IH. ring.
Qed.
Lemma digits_pad l : Forall isdigit l -> Forall isdigit (pad6 l).
Proof.
  intro H. unfold pad6. apply Forall_app; split; auto. apply Forall_forall. intros x Hx.
  apply repeat_spec in Hx. subst. unfold isdigit. lia.
Qed.
Lemma pad6_length l : (length l <= 6)%nat -> length (pad6 l) = 6%nat.
Proof. intro H. unfold pad6. rewrite app_length, repeat_length. lia. Qed.

Lemma ckpt_name_inj a b : 0 <= a -> 0 <= b -> ckpt_name a = ckpt_name b -> a = b.
Proof.
  intros Ha Hb H. unfold ckpt_name in H. apply app_inv_head in H.
  assert (E : val (pad6 (dec a)) = val (pad6 (dec b))) by congruence.
  rewrite !val_pad in E. pose proof (dec_ok a Ha). pose proof (dec_ok b Hb). intuition congruence.
Qed.
Lemma ckpt_starts a : starts_with ckpt_prefix (ckpt_name a) = true.
Proof. apply starts_with_app. Qed.
Lemma str_leb_app p a b : str_leb (p ++ a) (p ++ b) = str_leb a b.
Proof. induction p as [|x p IH]; cbn; auto. now rewrite Z.ltb_irrefl. Qed.
Lemma ckpt_name_leb a b : six_digits a -> six_digits b ->
  str_leb (ckpt_name a) (ckpt_name b) = (a <=? b).
Proof.
  intros Ha Hb. unfold ckpt_name. rewrite str_leb_app.
  destruct (dec_ok a) as (Da & Va & La); [unfold six_digits in *; lia|].
  destruct (dec_ok b) as (Db & Vb & Lb); [unfold six_digits in *; lia|].
  rewrite str_leb_val; [now rewrite !val_pad, Va, Vb| |now apply digits_pad..].
  unfold six_digits in *. rewrite !pad6_length; auto; [apply Lb|apply La]; lia.
Qed.

(** ** sorting *)
Section Disk.
Context {A : Type}.
Implicit Types (d : disk A) (e : entry A).

Lemma insert_perm e l : Permutation (insert_by_name e l) (e :: l).
Proof.
  induction l as [|h t IH]; cbn [insert_by_name]; [reflexivity|].
  destruct (str_leb _ _); [reflexivity|]. rewrite IH. apply perm_swap.
Qed.
Lemma sort_perm (l : list (entry A)) : Permutation (sort_by_name l) l.
Proof.
  induction l as [|h t IH]; cbn [sort_by_name fold_right]; [reflexivity|].
  fold (sort_by_name t). rewrite insert_perm. now constructor.
Qed.
Definition name_le (a b : entry A) : Prop := str_leb (e_name a) (e_name b) = true.
(** on a list of entries with step names the sort orders by step *)
Lemma insert_sorted (P : list Z -> Prop) (e : entry A) l :
  (forall a b, P a -> P b -> str_leb a b = true \/ str_leb b a = true) ->
  (forall a b c, P a -> P b -> P c -> str_leb a b = true -> str_leb b c = true -> str_leb a c = true) ->
  P (e_name e) -> Forall (fun x => P (e_name x)) l ->
  StronglySorted name_le l -> StronglySorted name_le (insert_by_name e l).
Proof.
  intros Tot Tr He Hl HS. induction HS as [|h t HS IH HF]; cbn [insert_by_name].
  - repeat constructor.
  - inversion Hl as [|? ? Hh Ht]; subst. destruct (str_leb (e_name e) (e_name h)) eqn:E.
    + constructor; [now constructor|]. constructor; [exact E|].
      rewrite Forall_forall in *. intros x Hx. unfold name_le in *. eapply Tr; [exact He|exact Hh|now apply Ht|auto|auto].
    + constructor; [now apply IH|]. rewrite Forall_forall in *. intros x Hx.
      apply (Permutation_in _ (insert_perm e t)) in Hx. destruct Hx as [<-|Hx]; auto.
      unfold name_le. destruct (Tot (e_name e) (e_name h)); auto. congruence.
Qed.
Lemma sort_sorted (P : list Z -> Prop) (l : list (entry A)) :
  (forall a b, P a -> P b -> str_leb a b = true \/ str_leb b a = true) ->
  (forall a b c, P a -> P b -> P c -> str_leb a b = true -> str_leb b c = true -> str_leb a c = true) ->
  Forall (fun x => P (e_name x)) l -> StronglySorted name_le (sort_by_name l).
Proof.
  intros Tot Tr. induction l as [|h t IH]; intro Hl; cbn [sort_by_name fold_right]; [constructor|].
  inversion Hl as [|? ? Hh Ht]; subst. fold (sort_by_name t).
  apply insert_sorted with (P := P); auto.
  rewrite Forall_forall in *. intros x Hx. apply Ht. now apply (Permutation_in _ (sort_perm t)).
Qed.

(** the steps of the candidates, in order *)
Lemma candidates_steps steps d : holds_checkpoints steps d -> Forall six_digits steps ->
  exists s', Permutation s' steps /\ map e_name (candidates d) = map ckpt_name s' /\ StronglySorted Z.le s'.
Proof.
  intros (HN & HD & HP) H6.
  assert (EF : filter (fun e => e_dir e && starts_with ckpt_prefix (e_name e)) d =
               filter (fun e => starts_with ckpt_prefix (e_name e)) d).
  { clear HP HN. induction d as [|e d IH]; cbn [filter]; [reflexivity|].
    rewrite IH by (intros; apply HD; [now right|auto]).
    destruct (starts_with ckpt_prefix (e_name e)) eqn:E; [|now rewrite andb_false_r].
    rewrite (HD e) by (auto; now left). reflexivity. }
  unfold candidates. rewrite EF. clear EF. set (l := filter _ d) in *.
  assert (HP2 : Permutation (map ckpt_name steps) (map e_name (sort_by_name l))).
  { symmetry. rewrite <- HP. apply Permutation_map. apply sort_perm. }
  apply Permutation_sym in HP2.
  destruct (Permutation_map_inv _ _ HP2) as (s' & Es & Ps).
  exists s'. split; [now symmetry|]. split; [exact Es|].
  assert (H6' : Forall six_digits s').
  { rewrite Forall_forall in *. intros x Hx. apply H6. apply (Permutation_in _ (Permutation_sym Ps) Hx). }
  assert (HS : StronglySorted name_le (sort_by_name l)).
  { apply sort_sorted with (P := fun n => exists s, six_digits s /\ n = ckpt_name s).
    - intros a b (x & Hx & ->) (y & Hy & ->). rewrite !ckpt_name_leb by auto. lia.
    - intros a b c (x & Hx & ->) (y & Hy & ->) (z & Hz & ->). rewrite !ckpt_name_leb by auto. lia.
    - apply Forall_forall. intros e He.
      assert (Hin : In (e_name e) (map ckpt_name steps)).
      { apply (Permutation_in _ HP). now apply in_map. }
      apply in_map_iff in Hin. destruct Hin as (s & <- & Hs). exists s. split; auto.
      rewrite Forall_forall in H6. now apply H6. }
  clear - HS Es H6'. revert s' Es H6'. induction HS as [|e t HS IH HF]; intros [|s s'] Es H6; cbn [map] in Es; try discriminate.
  - constructor.
  - injection Es as E1 E2. inversion H6 as [|? ? Hs H6']; subst. constructor; [now apply IH|].
    apply Forall_forall. intros x Hx. rewrite Forall_forall in HF.
    assert (Hn : In (ckpt_name x) (map e_name t)) by (rewrite E2; now apply in_map).
    apply in_map_iff in Hn. destruct Hn as (e' & E' & He'). specialize (HF e' He'). unfold name_le in HF.
    rewrite E1, E' in HF. rewrite ckpt_name_leb in HF; auto; [lia|]. rewrite Forall_forall in H6'. now apply H6'.
Qed.

Lemma SS_app {B} (R : B -> B -> Prop) l1 l2 : StronglySorted R (l1 ++ l2) ->
  StronglySorted R l1 /\ StronglySorted R l2 /\ (forall x y, In x l1 -> In y l2 -> R x y).
Proof.
  induction l1 as [|h t IH]; cbn [app]; intro H.
  - split; [constructor|]. split; auto. intros x y [].
  - inversion H as [|? ? H1 H2]; subst. destruct (IH H1) as (A1 & A2 & A3).
    rewrite Forall_forall in H2. split; [constructor; auto; apply Forall_forall; intros; apply H2; apply in_or_app; auto|].
    split; auto. intros x y [->|Hx] Hy; auto. apply H2. apply in_or_app; auto.
Qed.

Lemma newer_all s l : (forall y, In y l -> s < y) -> newer s l = length l.
Proof.
  unfold newer. induction l as [|y l IH]; intro H; [reflexivity|]. rewrite countb_cons, IH by (intros; apply H; now right).
  specialize (H y (or_introl eq_refl)). destruct (Z.ltb_spec s y); cbn [length]; lia.
Qed.
Lemma newer_none s l : (forall y, In y l -> y <= s) -> newer s l = 0%nat.
Proof.
  unfold newer. induction l as [|y l IH]; intro H; [reflexivity|]. rewrite countb_cons, IH by (intros; apply H; now right).
  specialize (H y (or_introl eq_refl)). destruct (Z.ltb_spec s y); cbn [length]; lia.
Qed.
Lemma oldest_spec l keep s : NoDup l -> StronglySorted Z.le l ->
  In s (firstn (length l - keep) l) <-> In s l /\ (keep <= newer s l)%nat.
Proof.
  intros HN HS. set (k := (length l - keep)%nat).
  pose proof (firstn_skipn k l) as E. set (a := firstn k l) in *. set (b := skipn k l) in *.
  assert (Lb : length b = (length l - k)%nat) by apply skipn_length.
  assert (La : length a = k) by (apply firstn_length_le; lia).
  clearbody a b.
  assert (HNab : NoDup (a ++ b)) by now rewrite E.
  assert (HSab : StronglySorted Z.le (a ++ b)) by now rewrite E.
  destruct (SS_app _ _ _ HSab) as (_ & _ & HR).
  assert (Dis : forall x, In x a -> In x b -> False).
  { intros x Ha Hb. apply in_split in Ha. destruct Ha as (a1 & a2 & Ea). rewrite Ea, <- app_assoc in HNab.
    apply NoDup_remove_2 in HNab. apply HNab. rewrite !in_app_iff. auto. }
  assert (Hnew : newer s l = (newer s a + newer s b)%nat) by (unfold newer; now rewrite <- countb_app, E).
  split.
  - intro Hs. split; [rewrite <- E; apply in_or_app; auto|].
    assert (0 < k)%nat by (destruct (le_lt_dec k 0); auto; exfalso; (assert (La0 : length a = 0%nat) by lia; apply length_zero_iff_nil in La0; rewrite La0 in Hs; destruct Hs)).
    assert (newer s b = length b).
    { apply newer_all. intros y Hy. specialize (HR s y Hs Hy). destruct (Z.eq_dec s y); [exfalso; apply (Dis y); congruence|lia]. }
    lia.
  - intros [Hs Hk]. rewrite <- E in Hs. apply in_app_or in Hs. destruct Hs as [Hs|Hs]; auto. exfalso.
    assert (newer s a = 0%nat).
    { apply newer_none. intros y Hy. specialize (HR y s Hy Hs). lia. }
    assert (newer s b < length b)%nat.
    { apply in_split in Hs. destruct Hs as (b1 & b2 & Eb). rewrite Eb. unfold newer.
      rewrite countb_app, countb_cons, app_length, Z.ltb_irrefl. cbn [length].
      pose proof (countb_le (fun x => s <? x) b1). pose proof (countb_le (fun x => s <? x) b2). lia. }
    lia.
Qed.

(** ** effect of the deletions *)
Definition act_name (a : fs_act) : list Z := match a with Unlink n _ => n | Rmdir n => n end.
Lemma do_act_other a d e : e_name e <> act_name a -> In e d <-> In e (do_act d a).
Proof.
  intro H. destruct a as [n r|n]; cbn [do_act act_name] in *.
  - split.
    + intro Hi. apply in_map_iff. exists e. now rewrite str_eqb_neq.
    + intro Hi. apply in_map_iff in Hi. destruct Hi as (x & Ex & Hx).
      destruct (str_eqb (e_name x) n) eqn:E; [|now subst].
      apply str_eqb_spec in E. subst e. cbn [e_name] in H. congruence.
  - rewrite filter_In. rewrite str_eqb_neq by auto. cbn [negb]. tauto.
Qed.
Lemma do_act_names a d : exists p, map e_name (do_act d a) = filter p (map e_name d) /\
  (forall n, p n = negb (match a with Rmdir m => str_eqb n m | _ => false end)).
Proof.
  destruct a as [n r|n]; cbn [do_act].
  - exists (fun _ => true). split; auto. rewrite map_map. replace (filter (fun _ => true) (map e_name d)) with (map e_name d).
    + apply map_ext. intro e. now destruct (str_eqb _ _).
    + clear. induction (map e_name d) as [|x l IH]; cbn; congruence.
  - exists (fun m => negb (str_eqb m n)). split; auto.
    induction d as [|e d IH]; cbn [filter map]; [reflexivity|].
    destruct (str_eqb (e_name e) n); cbn [negb map]; rewrite IH; auto.
Qed.
Lemma do_acts_other acts : forall d e, (forall a, In a acts -> e_name e <> act_name a) ->
  In e d <-> In e (fold_left do_act acts d).
Proof.
  induction acts as [|a acts IH]; intros d e H; cbn [fold_left]; [tauto|].
  rewrite (do_act_other a d e) by (apply H; now left). apply IH. intros; apply H; now right.
Qed.
Lemma do_acts_names acts : forall d,
  exists p, map e_name (fold_left do_act acts d) = filter p (map e_name d) /\
  (forall n, p n = true <-> ~ In (Rmdir n) acts).
Proof.
  induction acts as [|a acts IH]; intro d; cbn [fold_left].
  - exists (fun _ => true). split; [|intro; cbn; tauto].
    induction (map e_name d) as [|x l IHl]; cbn; congruence.
  - destruct (do_act_names a d) as (p & Ep & Hp). destruct (IH (do_act d a)) as (q & Eq & Hq).
    exists (fun n => p n && q n). split.
    + rewrite Eq, Ep. clear. induction (map e_name d) as [|x l IHl]; cbn [filter]; [reflexivity|].
      destruct (p x); cbn [filter andb]; [destruct (q x); congruence|auto].
    + intro n. rewrite andb_true_iff, Hq, Hp. cbn [In]. split.
      * intros [H1 H2] [E|H]; auto. subst a. rewrite str_eqb_refl in H1. discriminate.
      * intro H. split; [|tauto]. destruct a as [m r|m]; auto.
        rewrite str_eqb_neq; auto. intros ->. tauto.
Qed.
Lemma do_acts_nodup acts d : NoDup (map e_name d) -> NoDup (map e_name (fold_left do_act acts d)).
Proof. intro H. destruct (do_acts_names acts d) as (p & -> & _). now apply NoDup_filter. Qed.

Lemma find_dir_in d e : NoDup (map e_name d) -> In e d -> find_dir (e_name e) d = Some e.
Proof.
  unfold find_dir. induction d as [|x d IH]; intros HN Hi; [destruct Hi|].
  cbn [map] in HN. inversion HN as [|? ? H1 H2]; subst. cbn [find].
  destruct Hi as [->|Hi]; [now rewrite str_eqb_refl|].
  rewrite str_eqb_neq; auto. intro E. apply H1. rewrite E. now apply in_map.
Qed.
Lemma find_dir_some d n e : find_dir n d = Some e -> In e d /\ e_name e = n.
Proof. intro H. apply find_some in H. destruct H as [H1 H2]. apply str_eqb_spec in H2. auto. Qed.
Lemma find_dir_none d n : ~ In n (map e_name d) <-> find_dir n d = None.
Proof.
  unfold find_dir. split.
  - intro H. destruct (find _ d) as [e|] eqn:E; auto. apply find_some in E. destruct E as [E1 E2].
    apply str_eqb_spec in E2. exfalso. apply H. rewrite <- E2. now apply in_map.
  - intros H Hi. apply in_map_iff in Hi. destruct Hi as (e & E & He).
    apply (find_none _ _ H) in He. rewrite E, str_eqb_refl in He. discriminate.
Qed.
Lemma find_dir_acts acts d n : NoDup (map e_name d) -> (forall a, In a acts -> act_name a <> n) ->
  find_dir n (fold_left do_act acts d) = find_dir n d.
Proof.
  intros HN H. pose proof (do_acts_nodup acts d HN) as HN'.
  destruct (find_dir n d) as [e|] eqn:E.
  - apply find_dir_some in E. destruct E as [Hi <-]. apply find_dir_in; auto.
    apply do_acts_other; auto. intros a Ha Heq. apply (H a Ha). auto.
  - apply find_dir_none. apply find_dir_none in E. destruct (do_acts_names acts d) as (p & -> & _).
    rewrite filter_In. tauto.
Qed.

(** ** mkdir and shards *)
Lemma mkdir_in n d : In n (map e_name (mkdir n d)).
Proof.
  unfold mkdir. destruct (existsb _ d) eqn:E.
  - apply existsb_exists in E. destruct E as (e & He & E). apply str_eqb_spec in E. rewrite <- E. now apply in_map.
  - rewrite map_app. apply in_or_app. right. now left.
Qed.
Lemma mkdir_other n m d : m <> n -> find_dir m (mkdir n d) = find_dir m d.
Proof.
  intro H. unfold mkdir. destruct (existsb _ d) eqn:E; auto.
  unfold find_dir. clear E. induction d as [|e d IH]; cbn [app find e_name].
  - rewrite str_eqb_neq; auto.
  - now rewrite IH.
Qed.
Lemma mkdir_names n d : (In n (map e_name d) /\ mkdir n d = d) \/ (~ In n (map e_name d) /\ mkdir n d = d ++ [mkEntry n true []]).
Proof.
  unfold mkdir. destruct (existsb _ d) eqn:E; [left|right]; split; auto.
  - apply existsb_exists in E. destruct E as (e & He & E). apply str_eqb_spec in E. rewrite <- E. now apply in_map.
  - intro Hi. apply in_map_iff in Hi. destruct Hi as (e & Ee & He).
    apply Bool.not_true_iff_false in E. apply E. apply existsb_exists. exists e. rewrite Ee. now rewrite str_eqb_refl.
Qed.
Lemma write_names size ph n v d : map e_name (write_shards size ph n v d) = map e_name d.
Proof. unfold write_shards. rewrite map_map. apply map_ext. intro e. now destruct (str_eqb _ _). Qed.
Lemma write_other size ph n v d m : m <> n -> find_dir m (write_shards size ph n v d) = find_dir m d.
Proof.
  intro H. unfold find_dir, write_shards. induction d as [|e d IH]; cbn [map find]; auto.
  destruct (str_eqb (e_name e) n) eqn:E; cbn [e_name].
  - apply str_eqb_spec in E. rewrite E, (str_eqb_neq n m) by auto. exact IH.
  - destruct (str_eqb (e_name e) m); auto.
Qed.
Definition shard (r : nat) (l : list (nat * option A)) : option A :=
  match find (fun x => (fst x =? r)%nat) l with Some (_, Some v) => Some v | _ => None end.
Lemma shard_put r r' v l : shard r' (put_shard r v l) = if (r =? r')%nat then v else shard r' l.
Proof.
  unfold shard, put_shard. cbn [find fst].
  destruct (Nat.eqb_spec r r') as [->|Hn]; [now destruct v|].
  replace (find (fun x => (fst x =? r')%nat) (filter (fun x => negb (fst x =? r)%nat) l))
    with (find (fun x => (fst x =? r')%nat) l); auto.
  induction l as [|x l IH]; cbn [filter find]; auto.
  destruct (Nat.eqb_spec (fst x) r) as [E|E]; cbn [negb find].
  - destruct (Nat.eqb_spec (fst x) r'); [lia|auto].
  - now rewrite IH.
Qed.
Lemma write_all size (v : nat -> A) l r : (r < size)%nat ->
  shard r (fold_left (fun l r => write_shard Written r (v r) l) (seq 0 size) l) = Some (v r).
Proof.
  induction size as [|k IH]; intro Hr; [lia|].
  rewrite seq_S, fold_left_app. cbn [fold_left write_shard plus]. rewrite shard_put.
  destruct (Nat.eqb_spec k r) as [->|]; auto. apply IH. lia.
Qed.
Lemma write_loaded size n v d r : (r < size)%nat -> In n (map e_name d) -> NoDup (map e_name d) ->
  load_shard n r (write_shards size (fun _ => Written) n v d) = Some (v r).
Proof.
  intros Hr Hi HN. apply in_map_iff in Hi. destruct Hi as (e & <- & He). unfold load_shard.
  set (e' := mkEntry (e_name e) (e_dir e) (fold_left (fun l r => write_shard Written r (v r) l) (seq 0 size) (e_shards e))).
  assert (Hi : In e' (write_shards size (fun _ => Written) (e_name e) v d)).
  { apply in_map_iff. exists e. now rewrite str_eqb_refl. }
  pose proof (find_dir_in _ e' (eq_ind_r (fun l => NoDup l) HN (write_names _ _ _ _ _)) Hi) as F. cbn [e_name e'] in F.
  rewrite F. apply write_all; auto.
Qed.

(** ** one dump *)

Lemma with_step_nodup s steps : NoDup steps -> NoDup (with_step s steps).
Proof.
  intro H. unfold with_step. destruct (in_dec _ _ _); auto.
  apply (Permutation_NoDup (Permutation_cons_append _ _)). now constructor.
Qed.
Lemma written_holds steps d s size ph v : holds_checkpoints steps d -> 0 <= s -> Forall six_digits steps ->
  holds_checkpoints (with_step s steps) (write_shards size ph (ckpt_name s) v (mkdir (ckpt_name s) d)).
Proof.
  intros (HN & HD & HP) Hs H6.
  assert (Hin : In (ckpt_name s) (map e_name d) <-> In s steps).
  { split; intro H.
    - assert (Hi : In (ckpt_name s) (map ckpt_name steps)).
      { apply (Permutation_in _ HP). apply in_map_iff in H. destruct H as (e & E & He).
        rewrite <- E. apply in_map. apply filter_In. split; auto. rewrite E. apply ckpt_starts. }
      apply in_map_iff in Hi. destruct Hi as (x & Ex & Hx). apply ckpt_name_inj in Ex; [now subst| |auto].
      rewrite Forall_forall in H6. specialize (H6 x Hx). unfold six_digits in H6. lia.
    - apply (in_map ckpt_name) in H. apply (Permutation_in _ (Permutation_sym HP)) in H.
      apply in_map_iff in H. destruct H as (e & E & He). rewrite <- E. apply in_map. now apply filter_In in He. }
  assert (HM : holds_checkpoints (with_step s steps) (mkdir (ckpt_name s) d)).
  { unfold with_step. destruct (in_dec Z.eq_dec s steps) as [Hi|Hi].
    - destruct (mkdir_names (ckpt_name s) d) as [[_ ->]|[H _]]; [split; auto|tauto].
    - destruct (mkdir_names (ckpt_name s) d) as [[H _]|[H ->]]; [tauto|].
      split; [|split].
      + rewrite map_app. cbn [map e_name]. apply (Permutation_NoDup (Permutation_cons_append _ _)). now constructor.
      + intros e He. apply in_app_or in He. destruct He as [He|[<-|[]]]; auto.
      + rewrite filter_app, !map_app. cbn [filter e_name]. rewrite ckpt_starts. cbn [map e_name].
        now apply Permutation_app_tail. }
  destruct HM as (MN & MD & MP). split; [|split].
  - now rewrite write_names.
  - intros e He Hst. apply in_map_iff in He. destruct He as (x & Ex & Hx).
    destruct (str_eqb (e_name x) (ckpt_name s)); subst e; cbn [e_name e_dir] in *; auto.
  - rewrite <- MP. apply Permutation_refl'. clear. induction (mkdir (ckpt_name s) d) as [|e l IH]; [reflexivity|].
    cbn [write_shards map filter]. fold (write_shards size ph (ckpt_name s) v l).
    destruct (str_eqb (e_name e) (ckpt_name s)); cbn [e_name];
      destruct (starts_with ckpt_prefix (e_name e)); cbn [map e_name]; rewrite <- IH; reflexivity.
Qed.

Lemma gc_acts_names removable keep d a : In a (gc_acts removable keep d) ->
  In (act_name a) (map e_name (to_delete keep d)).
Proof.
  unfold gc_acts. intro H. apply in_flat_map in H. destruct H as (e & He & Ha). unfold delete_acts in Ha.
  destruct (removable _); [|destruct Ha]. apply in_app_or in Ha. destruct Ha as [Ha|[<-|[]]].
  - apply in_map_iff in Ha. destruct Ha as (x & <- & _). cbn. now apply in_map.
  - cbn. now apply in_map.
Qed.
Lemma gc_acts_rmdir removable keep d n : In (Rmdir n) (gc_acts removable keep d) <->
  In n (map e_name (to_delete keep d)) /\ removable n = true.
Proof.
  unfold gc_acts. split.
  - intro H. apply in_flat_map in H. destruct H as (e & He & Ha). unfold delete_acts in Ha.
    destruct (removable (e_name e)) eqn:E; [|destruct Ha]. apply in_app_or in Ha. destruct Ha as [Ha|[Ha|[]]].
    + apply in_map_iff in Ha. destruct Ha as (x & ? & _). discriminate.
    + injection Ha as <-. split; auto. now apply in_map.
  - intros [H Hr]. apply in_map_iff in H. destruct H as (e & <- & He). apply in_flat_map. exists e. split; auto.
    unfold delete_acts. rewrite Hr. apply in_or_app. right. now left.
Qed.

Lemma to_delete_steps steps d keep s : holds_checkpoints steps d -> Forall six_digits steps -> NoDup steps -> six_digits s ->
  In (ckpt_name s) (map e_name (to_delete keep d)) <-> In s steps /\ (keep <= newer s steps)%nat.
Proof.
  intros H H6 HND Hs. destruct (candidates_steps _ _ H H6) as (s' & Ps & Es & Ss).
  unfold to_delete. rewrite <- firstn_map, Es.
  assert (L : length (candidates d) = length s').
  { transitivity (length (map e_name (candidates d))); [now rewrite map_length|]. rewrite Es. apply map_length. }
  rewrite L, firstn_map.
  assert (HND' : NoDup s') by (eapply Permutation_NoDup; [apply Permutation_sym; exact Ps|auto]).
  assert (EQ : In (ckpt_name s) (map ckpt_name (firstn (length s' - keep) s')) <-> In s (firstn (length s' - keep) s')).
  { split; [|apply in_map]. intro Hi. apply in_map_iff in Hi. destruct Hi as (x & Ex & Hx).
    apply ckpt_name_inj in Ex; [now subst| |unfold six_digits in Hs; lia].
    assert (In x s') by (rewrite <- (firstn_skipn (length s' - keep) s'); apply in_or_app; auto).
    rewrite Forall_forall in H6. specialize (H6 x (Permutation_in _ Ps H0)). unfold six_digits in H6. lia. }
  rewrite EQ, oldest_spec by auto. unfold newer. rewrite (countb_perm _ _ _ Ps).
  split; intros [H1 H2]; split; auto; [apply (Permutation_in _ Ps H1)|apply (Permutation_in _ (Permutation_sym Ps) H1)].
Qed.

Lemma dump_keeps removable size keep steps d itime v : 
  holds_checkpoints steps d -> NoDup steps -> Forall six_digits steps -> six_digits itime ->
  let all := with_step itime steps in
  let d' := dump removable size (Some (S keep)) itime v d in
  (forall s, In s all -> (newer s all < S keep)%nat ->
     forall r, (r < size)%nat -> load_shard (ckpt_name s) r d' = if s =? itime then Some (v r) else load_shard (ckpt_name s) r d) /\
  (forall s, In s all -> (S keep <= newer s all)%nat -> removable (ckpt_name s) = true -> find_dir (ckpt_name s) d' = None) /\
  (forall e, In e d -> starts_with ckpt_prefix (e_name e) = false -> In e d').
Proof.
  intros H HND H6 Hi all d'.
  set (d1 := write_shards size (fun _ => Written) (ckpt_name itime) v (mkdir (ckpt_name itime) d)).
  assert (H6' : Forall six_digits all).
  { unfold all, with_step. destruct (in_dec _ _ _); auto. apply Forall_app; split; auto. }
  assert (H1 : holds_checkpoints all d1) by (apply written_holds; auto; unfold six_digits in Hi; lia).
  assert (HND1 : NoDup all) by now apply with_step_nodup.
  change d' with (fold_left do_act (gc_acts removable (S keep) d1) d1).
  pose proof H1 as (N1 & D1 & P1).
  assert (Six : forall s, In s all -> six_digits s) by (intros s Hs; rewrite Forall_forall in H6'; now apply H6').
  split; [|split].
  - intros s Hs Hn r Hr. unfold load_shard. rewrite find_dir_acts; auto.
    + change (load_shard (ckpt_name s) r d1 = if s =? itime then Some (v r) else load_shard (ckpt_name s) r d).
      destruct (Z.eqb_spec s itime) as [->|Hne].
      * apply write_loaded; auto; [apply mkdir_in|]. now rewrite <- (write_names size (fun _ => Written) (ckpt_name itime) v).
      * assert (ckpt_name s <> ckpt_name itime).
        { intro E. apply ckpt_name_inj in E; auto; [specialize (Six s Hs)|]; unfold six_digits in *; lia. }
        unfold load_shard, d1. rewrite write_other, mkdir_other; auto.
    + intros a Ha E. apply gc_acts_names in Ha. rewrite E in Ha.
      apply (to_delete_steps all) in Ha; auto. lia.
  - intros s Hs Hn Hr. apply find_dir_none. destruct (do_acts_names (gc_acts removable (S keep) d1) d1) as (p & -> & Hp).
    rewrite filter_In, Hp, gc_acts_rmdir. intros [_ HC]. apply HC. split; auto. apply (to_delete_steps all); auto.
  - intros e He Hst. apply do_acts_other.
    + intros a Ha E. apply gc_acts_names in Ha. rewrite <- E in Ha. unfold to_delete in Ha.
      apply in_map_iff in Ha. destruct Ha as (x & Ex & Hx).
      assert (Hx2 : In x (candidates d1)) by (rewrite <- (firstn_skipn (length (candidates d1) - S keep)); apply in_or_app; auto).
      unfold candidates in Hx2. apply (Permutation_in _ (sort_perm _)) in Hx2. apply filter_In in Hx2.
      destruct Hx2 as [_ Hx2]. rewrite Ex, Hst, andb_false_r in Hx2. discriminate.
    + unfold d1. apply in_map_iff. exists e.
      assert (e_name e <> ckpt_name itime) by (intro E; rewrite E, ckpt_starts in Hst; discriminate).
      rewrite str_eqb_neq by auto. split; auto.
      destruct (mkdir_names (ckpt_name itime) d) as [[_ ->]|[_ ->]]; auto. apply in_or_app; auto.
Qed.

(** the retained steps, and the invariant for histories *)
Definition retained (keep : nat) (l : list Z) : list Z := filter (fun s => (newer s l <? keep)%nat) l.
Lemma dump_holds removable size keep steps d itime v :
  (forall n, removable n = true) ->
  holds_checkpoints steps d -> NoDup steps -> Forall six_digits steps -> six_digits itime ->
  holds_checkpoints (retained (S keep) (with_step itime steps)) (dump removable size (Some (S keep)) itime v d).
Proof.
  intros HR H HND H6 H6i. set (all := with_step itime steps).
  set (d1 := write_shards size (fun _ => Written) (ckpt_name itime) v (mkdir (ckpt_name itime) d)).
  assert (H6' : Forall six_digits all).
  { unfold all, with_step. destruct (in_dec _ _ _); auto. apply Forall_app; split; auto. }
  assert (H1 : holds_checkpoints all d1) by (apply written_holds; auto; unfold six_digits in H6i; lia).
  assert (HND1 : NoDup all) by now apply with_step_nodup.
  change (dump removable size (Some (S keep)) itime v d) with (fold_left do_act (gc_acts removable (S keep) d1) d1).
  pose proof H1 as (N1 & D1 & P1). set (acts := gc_acts removable (S keep) d1).
  pose proof (do_acts_nodup acts d1 N1) as N2.
  assert (Old : forall e, In e (fold_left do_act acts d1) <-> In e d1 /\ ~ In (e_name e) (map e_name (to_delete (S keep) d1))).
  { intro e. assert (K : ~ In (e_name e) (map e_name (to_delete (S keep) d1)) ->
                         (In e d1 <-> In e (fold_left do_act acts d1))).
    { intro Hn. apply do_acts_other. intros a Ha E. apply Hn. rewrite E. eapply gc_acts_names; eauto. }
    split.
    - intro He.
      assert (Hn : ~ In (e_name e) (map e_name (to_delete (S keep) d1))).
      { intro Hn. destruct (do_acts_names acts d1) as (p & Ep & Hp).
        assert (Hin : In (e_name e) (filter p (map e_name d1))) by (rewrite <- Ep; now apply in_map).
        apply filter_In in Hin. destruct Hin as [_ Hin]. apply Hp in Hin. apply Hin.
        apply gc_acts_rmdir. split; auto. }
      split; auto. now apply K.
    - intros [He Hn]. now apply K. }
  split; [exact N2|]. split.
  - intros e He. apply D1. now apply Old in He.
  - apply NoDup_Permutation.
    + apply (NoDup_filter (fun n => starts_with ckpt_prefix n)) in N2. revert N2. clear.
      induction (fold_left do_act acts d1) as [|e l IH]; cbn [map filter]; intro N2; [constructor|].
      destruct (starts_with ckpt_prefix (e_name e)) eqn:E; cbn [map]; auto.
      inversion N2 as [|? ? X1 X2]; subst. constructor; [|now apply IH].
      intro Hi. apply X1. apply in_map_iff in Hi. destruct Hi as (x & Ex & Hx). apply filter_In in Hx.
      apply filter_In. rewrite <- Ex. split; [apply in_map; tauto|tauto].
    + assert (I : forall l, incl l all -> NoDup l -> NoDup (map ckpt_name l)).
      { intros l HI HNl. induction l as [|x l IHl]; cbn [map]; [constructor|].
        inversion HNl as [|? ? X1 X2]; subst. constructor; [|apply IHl; auto; intros y Hy; apply HI; now right].
        intro Hx. apply in_map_iff in Hx. destruct Hx as (y & Ey & Hy). apply ckpt_name_inj in Ey.
        - subst. tauto.
        - rewrite Forall_forall in H6'. specialize (H6' y (HI y (or_intror Hy))). unfold six_digits in H6'. lia.
        - rewrite Forall_forall in H6'. specialize (H6' x (HI x (or_introl eq_refl))). unfold six_digits in H6'. lia. }
      apply I; [|now apply NoDup_filter]. intros x Hx. now apply filter_In in Hx.
    + intro n. split; intro Hi.
      * apply in_map_iff in Hi. destruct Hi as (e & <- & He). apply filter_In in He. destruct He as [He Hst].
        apply Old in He. destruct He as [He Hn].
        assert (Hin : In (e_name e) (map ckpt_name all)).
        { apply (Permutation_in _ P1). apply in_map. apply filter_In. auto. }
        apply in_map_iff in Hin. destruct Hin as (s & Es & Hs). rewrite <- Es. apply in_map. apply filter_In. split; auto.
        rewrite <- Es in Hn. rewrite (to_delete_steps all) in Hn; auto; [|rewrite Forall_forall in H6'; auto].
        apply Nat.ltb_lt. destruct (le_lt_dec (S keep) (newer s all)); auto. exfalso. apply Hn. auto.
      * apply in_map_iff in Hi. destruct Hi as (s & <- & Hs). apply filter_In in Hs. destruct Hs as [Hs Hn].
        apply Nat.ltb_lt in Hn.
        apply (in_map ckpt_name) in Hs as Hs2. apply (Permutation_in _ (Permutation_sym P1)) in Hs2.
        apply in_map_iff in Hs2. destruct Hs2 as (e & Ee & He). apply filter_In in He.
        rewrite <- Ee. apply in_map. apply filter_In. split; [|tauto]. apply Old. split; [tauto|].
        rewrite Ee, (to_delete_steps all); auto; [lia|]. rewrite Forall_forall in H6'; auto.
Qed.

(** a history of dumps with strictly increasing steps: the directory holds the last ones *)
Lemma crash_safe removable size keep steps d itime v d' :
  holds_checkpoints steps d -> NoDup steps -> Forall six_digits steps -> six_digits itime ->
  (forall s, In s steps -> s < itime) ->
  crash_state removable size keep itime v d d' ->
  (forall s r, In s steps -> (r < size)%nat -> load_shard (ckpt_name s) r d' = load_shard (ckpt_name s) r d) \/
  (forall r, (r < size)%nat -> load_shard (ckpt_name itime) r d' = Some (v r)).
Proof.
  intros H HND H6 H6i Hlt HC. destruct HC as [|ph|k j Ek d1].
  - left. auto.
  - left. intros s r Hs Hr. unfold load_shard.
    assert (ckpt_name s <> ckpt_name itime).
    { intro E. apply ckpt_name_inj in E.
      - specialize (Hlt s Hs). lia.
      - rewrite Forall_forall in H6. specialize (H6 s Hs). unfold six_digits in H6; lia.
      - unfold six_digits in H6i; lia. }
    now rewrite write_other, mkdir_other.
  - right. intros r Hr. unfold load_shard.
    assert (H1 : holds_checkpoints (with_step itime steps) d1) by (apply written_holds; auto; unfold six_digits in H6i; lia).
    pose proof H1 as (N1 & D1 & P1).
    assert (H6' : Forall six_digits (with_step itime steps)).
    { unfold with_step. destruct (in_dec _ _ _); auto. apply Forall_app; split; auto. }
    rewrite find_dir_acts; auto.
    + apply write_loaded; auto; [apply mkdir_in|]. now rewrite <- (write_names size (fun _ => Written) (ckpt_name itime) v).
    + intros a Ha E. assert (Ha2 : In a (gc_acts removable (S k) d1)).
      { rewrite <- (firstn_skipn j). apply in_or_app; auto. }
      apply gc_acts_names in Ha2. rewrite E in Ha2.
      apply (to_delete_steps (with_step itime steps)) in Ha2; auto; [|now apply with_step_nodup].
      destruct Ha2 as [_ Ha2]. rewrite newer_none in Ha2; [lia|].
      intros y Hy. unfold with_step in Hy. destruct (in_dec _ _ _) as [Hd|Hd].
      * specialize (Hlt y Hy). lia.
      * apply in_app_or in Hy. destruct Hy as [Hy|[<-|[]]]; [specialize (Hlt y Hy)|]; lia.
Qed.

(** newest dump survives *)
Lemma newest_loaded removable size keep steps d itime v :
  holds_checkpoints steps d -> NoDup steps -> Forall six_digits steps -> six_digits itime ->
  (forall s, In s steps -> s <= itime) ->
  forall r, (r < size)%nat -> load_shard (ckpt_name itime) r (dump removable size keep itime v d) = Some (v r).
Proof.
  intros H HND H6 H6i Hlt r Hr.
  assert (W : load_shard (ckpt_name itime) r (write_shards size (fun _ => Written) (ckpt_name itime) v (mkdir (ckpt_name itime) d)) = Some (v r)).
  { apply write_loaded; auto; [apply mkdir_in|]. rewrite <- (write_names size (fun _ => Written) (ckpt_name itime) v).
    apply (written_holds steps d itime size (fun _ => Written) v); auto; unfold six_digits in H6i; lia. }
  unfold dump. destruct keep as [[|k]|]; cbn [gc]; auto.
  destruct (dump_keeps removable size k steps d itime v H HND H6 H6i) as (K & _ & _).
  specialize (K itime). rewrite Z.eqb_refl in K. apply K; auto.
  - unfold with_step. destruct (in_dec _ _ _); auto. apply in_or_app. right. now left.
  - rewrite newer_none; [lia|]. intros y Hy. unfold with_step in Hy. destruct (in_dec _ _ _) as [Hd|Hd]; auto.
    apply in_app_or in Hy. destruct Hy as [Hy|[<-|[]]]; [specialize (Hlt y Hy)|]; lia.
Qed.

(** histories of dumps with increasing steps from any initial directory *)
Lemma history_kept removable size keep : forall hist d0,
  (forall n, removable n = true) -> holds_checkpoints [] d0 ->
  StronglySorted Z.lt (map fst hist) -> Forall six_digits (map fst hist) ->
  let d := dump_all removable size (Some (S keep)) hist d0 in
  holds_checkpoints (map fst (skipn (length hist - S keep) hist)) d /\
  (forall h r, In h (skipn (length hist - S keep) hist) -> (r < size)%nat ->
     load_shard (ckpt_name (fst h)) r d = Some (snd h r)).
Proof.
  intros hist d0 HR H0 HS H6. cbv zeta.
  induction hist as [|h hist IH] using rev_ind; [split; [exact H0|intros h r []]|].
  rewrite map_app in HS, H6. cbn [map] in HS, H6. apply Forall_app in H6. destruct H6 as [H6 H6h].
  inversion H6h as [|? ? H6i _]; subst.
  destruct (SS_app _ _ _ HS) as (HS1 & _ & HL). destruct (IH HS1 H6) as [IH1 IH2]. clear IH.
  unfold dump_all in *. rewrite fold_left_app. cbn [fold_left].
  set (d := fold_left _ hist d0) in *. clearbody d.
  set (steps := map fst (skipn (length hist - S keep) hist)) in *.
  assert (Sub : forall s, In s steps -> In s (map fst hist)).
  { intros s Hs. unfold steps in Hs. apply in_map_iff in Hs. destruct Hs as (x & <- & Hx). apply in_map.
    rewrite <- (firstn_skipn (length hist - S keep)). apply in_or_app; auto. }
  assert (ND0 : NoDup (map fst hist)).
  { clear - HS1. induction HS1 as [|x l HS1 IH HF]; constructor; auto. intro Hx. rewrite Forall_forall in HF. specialize (HF x Hx). lia. }
  assert (NDs : NoDup steps).
  { unfold steps. rewrite <- skipn_map. rewrite <- (firstn_skipn (length hist - S keep)) in ND0.
    clear - ND0. revert ND0. generalize (firstn (length hist - S keep) (map fst hist)). intro l.
    induction l as [|x l IH]; cbn [app]; auto. intro H. inversion H; auto. }
  assert (H6s : Forall six_digits steps).
  { rewrite Forall_forall in *. intros s Hs. apply H6. now apply Sub. }
  assert (Lt : forall s, In s steps -> s < fst h) by (intros s Hs; apply HL; [now apply Sub|now left]).
  assert (Wst : with_step (fst h) steps = steps ++ [fst h]).
  { unfold with_step. destruct (in_dec _ _ _) as [Hd|]; auto. specialize (Lt _ Hd). lia. }
  assert (Lst : length steps = Nat.min (length hist) (S keep)).
  { unfold steps. rewrite map_length, skipn_length. lia. }
  (* the retained steps *)
  assert (SSst : StronglySorted Z.lt (steps ++ [fst h])).
  { assert (SSall : StronglySorted Z.lt (map fst (firstn (length hist - S keep) hist) ++ (steps ++ [fst h]))).
    { unfold steps. rewrite app_assoc, <- map_app, firstn_skipn. exact HS. }
    now apply SS_app in SSall. }
  assert (Ret : map fst (skipn (length (hist ++ [h]) - S keep) (hist ++ [h])) = skipn (length (steps ++ [fst h]) - S keep) (steps ++ [fst h])).
  { unfold steps. rewrite !app_length, map_length, skipn_length. cbn [length].
    rewrite !skipn_app, map_app, map_length, skipn_length.
    rewrite <- !skipn_map. cbn [map]. 
    assert (skipn_skipn' : forall (B : Type) a b (l : list B), skipn a (skipn b l) = skipn (b + a) l).
    { intros B a b. induction b as [|b IHb]; intro l; [reflexivity|]. destruct l; [now rewrite !skipn_nil|]. cbn [skipn plus]. apply IHb. }
    rewrite skipn_skipn'. f_equal; f_equal; lia. }
  assert (RetP : retained (S keep) (with_step (fst h) steps) = skipn (length (steps ++ [fst h]) - S keep) (steps ++ [fst h])).
  { rewrite Wst. set (l := steps ++ [fst h]) in *. clear - SSst. unfold retained.
    assert (NDl : NoDup l).
    { induction SSst as [|x l HS1 IH HF]; constructor; auto. intro Hx. rewrite Forall_forall in HF. specialize (HF x Hx). lia. }
    assert (SL : StronglySorted Z.le l).
    { clear NDl. induction SSst as [|x l HS1 IH HF]; constructor; auto. rewrite Forall_forall in *. intros y Hy. specialize (HF y Hy). lia. }
    set (k := (length l - S keep)%nat).
    assert (F1 : forall s, In s (firstn k l) -> (newer s l <? S keep)%nat = false).
    { intros s Hs. apply (oldest_spec l (S keep) s NDl SL) in Hs. lia. }
    assert (F2 : forall s, In s (skipn k l) -> (newer s l <? S keep)%nat = true).
    { intros s Hs. apply Nat.ltb_lt. destruct (le_lt_dec (S keep) (newer s l)) as [Hc|]; auto. exfalso.
      assert (Hs1 : In s (firstn k l)).
      { apply (oldest_spec l (S keep) s NDl SL). split; auto. rewrite <- (firstn_skipn k). apply in_or_app; auto. }
      rewrite <- (firstn_skipn k) in NDl. apply in_split in Hs1. destruct Hs1 as (a1 & a2 & Ea). rewrite Ea, <- app_assoc in NDl.
      apply NoDup_remove_2 in NDl. apply NDl. rewrite !in_app_iff. auto. }
    transitivity (filter (fun s => (newer s l <? S keep)%nat) (firstn k l ++ skipn k l)); [now rewrite firstn_skipn|]. rewrite filter_app.
    assert (G1 : forall m, (forall s, In s m -> (newer s l <? S keep)%nat = false) -> filter (fun s => (newer s l <? S keep)%nat) m = []).
    { induction m as [|x m IHm]; intro Hm; cbn [filter]; auto. rewrite (Hm x) by now left. apply IHm. intros; apply Hm; now right. }
    assert (G2 : forall m, (forall s, In s m -> (newer s l <? S keep)%nat = true) -> filter (fun s => (newer s l <? S keep)%nat) m = m).
    { induction m as [|x m IHm]; intro Hm; cbn [filter]; auto. rewrite (Hm x) by now left. f_equal. apply IHm. intros; apply Hm; now right. }
    now rewrite G1, G2. }
  split.
  - rewrite Ret, <- RetP. apply dump_holds; auto.
  - intros g r Hg Hr.
    destruct (dump_keeps removable size keep steps d (fst h) (snd h) IH1 NDs H6s H6i) as (K & _ & _).
    assert (Hs : In (fst g) (retained (S keep) (with_step (fst h) steps))).
    { rewrite RetP, <- Ret. now apply in_map. }
    unfold retained in Hs. apply filter_In in Hs. destruct Hs as [Hs Hn]. apply Nat.ltb_lt in Hn.
    rewrite (K (fst g) Hs Hn r Hr).
    rewrite app_length in Hg. cbn [length] in Hg. rewrite skipn_app in Hg. apply in_app_or in Hg.
    destruct Hg as [Hg|Hg].
    + assert (Hg2 : In g (skipn (length hist - S keep) hist)).
      { replace (length hist + 1 - S keep)%nat with ((length hist + 1 - S keep - (length hist - S keep)) + (length hist - S keep))%nat in Hg by lia.
        revert Hg. generalize (length hist - S keep)%nat, (length hist + 1 - S keep - (length hist - S keep))%nat. clear.
        intros b a. revert hist. induction b as [|b IHb]; intros hist Hg.
        - rewrite Nat.add_0_r in Hg. rewrite <- (firstn_skipn a hist). cbn [skipn]. apply in_or_app; auto.
        - destruct hist as [|x hist]; [rewrite skipn_nil in Hg; destruct Hg|].
          rewrite Nat.add_succ_r in Hg. cbn [skipn] in *. now apply IHb. }
      assert (fst g < fst h) by (apply Lt; unfold steps; now apply in_map).
      destruct (Z.eqb_spec (fst g) (fst h)); [lia|]. now apply IH2.
    + assert (g = h).
      { destruct (length hist + 1 - S keep - length hist)%nat; cbn [skipn] in Hg; [destruct Hg as [->|[]]; auto|destruct n; destruct Hg]. }
      subst g. now rewrite Z.eqb_refl.
Qed.
End Disk.
