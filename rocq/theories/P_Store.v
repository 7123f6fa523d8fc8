(** Proofs about growing and pruning. *)
From Coq Require Import QArith String.
From Verif Require Import Base M_RunLoop M_Store S_Store P_StoreIds.
Local Open Scope list_scope.
Local Open Scope Z_scope.

Lemma resize_grow {A} (z : A) n l : resize z (n + List.length l) l = l ++ repeat z n.
Proof. unfold resize. rewrite firstn_all2 by lia. f_equal. f_equal. lia. Qed.
Lemma set_last_app {A} (v w l : list A) : List.length v = List.length w -> set_last v (l ++ w) = l ++ v.
Proof.
  intro H. unfold set_last. rewrite app_length. f_equal. replace (List.length l + List.length w - List.length v)%nat with (List.length l + 0)%nat by lia.
  rewrite firstn_app_2. cbn. now rewrite app_nil_r.
Qed.
Lemma grow_last {A} (z : A) n m l v : List.length l = m -> List.length v = n -> set_last v (resize z (n + m) l) = l ++ v.
Proof. intros <- <-. rewrite resize_grow. apply set_last_app. now rewrite repeat_length. Qed.

Definition new_values (n : nat) (ids : list Z) (name : string) : list value :=
  if (name =? "_id")%string then map Id ids else if (name =? "w")%string then repeat (Num 0) n else repeat NaN n.
Lemma extend_attr_app n m ids a : List.length (snd a) = m -> List.length ids = n ->
  extend_attr n m ids a = (fst a, snd a ++ new_values n ids (fst a)).
Proof.
  intros H Hi. unfold extend_attr, new_values. rewrite (grow_last (Num 0) n m) by (auto; apply repeat_length). f_equal.
  destruct (fst a =? "_id")%string; [apply set_last_app; now rewrite map_length, repeat_length|].
  destruct (fst a =? "w")%string; auto. apply set_last_app. now rewrite !repeat_length.
Qed.
Lemma new_values_length n ids name : List.length ids = n -> List.length (new_values n ids name) = n.
Proof. intro H. unfold new_values. destruct (_ =? _)%string; [now rewrite map_length|]. destruct (_ =? _)%string; apply repeat_length. Qed.
Lemma generate_length r p s n ids : generate_ids r p s n = Some ids -> List.length ids = n.
Proof. unfold generate_ids. destruct (_ <=? _); intro H; [|discriminate]. inversion H. now rewrite map_length, seq_length. Qed.

(** closed form of extend *)
Lemma extend_form s n s' : well_formed s -> 0 < n -> extend n s = Some s' ->
  exists ids, generate_ids (s_rank s) (s_ipatch s) (s_created s) (Z.to_nat n) = Some ids /\
  s' = mkStore (s_rank s) (s_ipatch s) (map (fun a => (fst a, snd a ++ new_values (Z.to_nat n) ids (fst a))) (s_attrs s))
         (s_dead s ++ repeat true (Z.to_nat n)) (option_map (fun ev => ev ++ repeat false (Z.to_nat n)) (s_event s))
         (Z.to_nat n + s_npart s) (s_created s + n) true.
Proof.
  intros (WA & WD & WE) Hn H.
  assert (B : forall ev, extend_base n (mkStore (s_rank s) (s_ipatch s) (s_attrs s) (s_dead s) ev (s_npart s) (s_created s) (s_extended s)) = Some s' ->
    exists ids, generate_ids (s_rank s) (s_ipatch s) (s_created s) (Z.to_nat n) = Some ids /\
    s' = mkStore (s_rank s) (s_ipatch s) (map (fun a => (fst a, snd a ++ new_values (Z.to_nat n) ids (fst a))) (s_attrs s))
         (s_dead s ++ repeat true (Z.to_nat n)) ev (Z.to_nat n + s_npart s) (s_created s + n) true).
  { intros ev. unfold extend_base. destruct (n <=? 0) eqn:E; [lia|]. cbn [s_rank s_ipatch s_attrs s_dead s_event s_npart s_created].
    destruct (generate_ids _ _ _ _) as [ids|] eqn:G; [|discriminate]. intro X. inversion X. exists ids. split; auto. f_equal.
    - apply map_ext_in. intros a Ha. apply extend_attr_app; [auto|]. eapply generate_length; eauto.
    - apply grow_last; auto. apply repeat_length. }
  unfold extend in H. destruct (s_event s) as [ev|] eqn:Ev.
  - unfold extend_event in H. destruct (n + Z.of_nat (s_npart s) <? 0) eqn:E; [lia|]. destruct (0 <? n) eqn:E'; [|lia].
    unfold with_event in H. replace (Z.to_nat (n + Z.of_nat (s_npart s))) with (Z.to_nat n + s_npart s)%nat in H by lia.
    rewrite (grow_last false (Z.to_nat n) (s_npart s)) in H by (auto; apply repeat_length). apply B in H. exact H.
  - apply (B None). rewrite <- Ev. destruct s; exact H.
Qed.
Lemma extend_defined s n : 0 < n -> (exists s', extend n s = Some s') <-> s_created s + n <= 2 ^ 32.
Proof.
  intro Hn.
  assert (B : forall ev, (exists s', extend_base n (mkStore (s_rank s) (s_ipatch s) (s_attrs s) (s_dead s) ev (s_npart s) (s_created s) (s_extended s)) = Some s') <-> s_created s + n <= 2 ^ 32).
  { intro ev. unfold extend_base, generate_ids. cbn [s_rank s_ipatch s_created s_npart s_attrs s_dead s_event].
    destruct (n <=? 0) eqn:E; [lia|]. rewrite Z2Nat.id by lia. destruct (s_created s + n <=? 2 ^ 32) eqn:E2.
    - split; [lia|]. intros _. eexists; reflexivity.
    - split; [intros [? X]; discriminate|lia]. }
  unfold extend. destruct (s_event s) as [ev|] eqn:Ev.
  - unfold extend_event. destruct (n + Z.of_nat (s_npart s) <? 0) eqn:E; [lia|]. destruct (0 <? n) eqn:E'; [|lia]. apply B.
  - specialize (B (s_event s)). destruct s; exact B.
Qed.

Lemma filter_none {A} (p : A -> bool) l : (forall a, In a l -> p a = false) -> filter p l = [].
Proof. intro H. induction l as [|a l IH]; auto. cbn [filter]. rewrite (H a) by (left; auto). apply IH. intros b Hb. apply H; right; auto. Qed.
Theorem extend_keeps s n s' : well_formed s -> 0 < n -> extend n s = Some s' ->
  well_formed s' /\ s_npart s' = (s_npart s + Z.to_nat n)%nat /\
  (forall i, (i < s_npart s)%nat -> slot s' i = slot s i /\ is_alive s' i = is_alive s i) /\
  (forall i, (s_npart s <= i < s_npart s + Z.to_nat n)%nat -> is_alive s' i = false) /\
  alive_slots s' = alive_slots s /\ s_extended s' = true.
Proof.
  intros W Hn H. pose proof W as (WA & WD & WE). destruct (extend_form s n s' W Hn H) as (ids & G & ->).
  pose proof (generate_length _ _ _ _ _ G) as GL. set (k := Z.to_nat n) in *.
  set (s' := mkStore _ _ _ _ _ _ _ _).
  assert (Old : forall i, (i < s_npart s)%nat -> slot s' i = slot s i /\ is_alive s' i = is_alive s i).
  { intros i Hi. split.
    - unfold slot. cbn [s' s_attrs s_event]. f_equal.
      + rewrite map_map. apply map_ext_in. intros a Ha. cbn [fst snd]. f_equal. apply app_nth1. rewrite WA; auto.
      + destruct (s_event s) as [ev|]; auto. cbn [option_map]. f_equal. apply app_nth1. lia.
    - unfold is_alive. cbn [s' s_dead]. f_equal. apply app_nth1. lia. }
  assert (New : forall i, (s_npart s <= i < s_npart s + k)%nat -> is_alive s' i = false).
  { intros i Hi. unfold is_alive. cbn [s' s_dead]. rewrite app_nth2 by lia. rewrite WD.
    rewrite nth_repeat. reflexivity. }
  repeat split; auto.
  - cbn [s' s_attrs s_npart]. intros a Ha. apply in_map_iff in Ha. destruct Ha as (b & <- & Hb). cbn [snd].
    rewrite app_length, new_values_length, WA by auto. lia.
  - cbn [s' s_dead s_npart]. rewrite app_length, repeat_length. lia.
  - cbn [s' s_event s_npart]. destruct (s_event s) as [ev|]; auto. cbn [option_map]. rewrite app_length, repeat_length. lia.
  - cbn [s' s_npart]. lia.
  - apply Old; auto.
  - apply Old; auto.
  - unfold alive_slots. replace (s_npart s') with (s_npart s + k)%nat by (cbn [s' s_npart]; lia).
    rewrite seq_app, filter_app, map_app.
    rewrite (filter_none (is_alive s') (seq (0 + s_npart s) k)).
    2:{ intros i Hi. apply in_seq in Hi. apply New. lia. }
    cbn [map]. rewrite app_nil_r.
    transitivity (map (slot s') (filter (is_alive s) (seq 0 (s_npart s)))).
    + f_equal. apply filter_ext_in. intros i Hi. apply in_seq in Hi. apply Old. lia.
    + apply map_ext_in. intros i Hi. apply filter_In in Hi. destruct Hi as [Hi _]. apply in_seq in Hi. apply Old. lia.
Qed.

Lemma extend_nothing s n : s_event s = None -> n <= 0 -> extend n s = Some s.
Proof. intros E H. unfold extend, extend_base. rewrite E. destruct (n <=? 0) eqn:X; auto. lia. Qed.

(** *** new slots hold NaN, weight 0 and fresh identifiers *)
Theorem extend_new_slots s n s' : well_formed s -> 0 < n -> extend n s = Some s' ->
  forall i name v, (i < Z.to_nat n)%nat -> In (name, v) (fst (slot s' (s_npart s + i))) ->
    v = (if (name =? "_id")%string then Id (make_id (s_rank s) (s_ipatch s) (s_created s + Z.of_nat i))
         else if (name =? "w")%string then Num 0 else NaN).
Proof.
  intros W Hn H i name v Hi Hv. pose proof W as (WA & WD & WE). destruct (extend_form s n s' W Hn H) as (ids & G & ->).
  unfold slot in Hv. cbn [fst s_attrs] in Hv. apply in_map_iff in Hv. destruct Hv as (a & Ea & Ha). apply in_map_iff in Ha.
  destruct Ha as (b & <- & Hb). cbn [fst snd] in Ea. inversion Ea as [[E1 E2]].
  rewrite app_nth2 by (rewrite WA by auto; lia). rewrite WA by auto. replace (s_npart s + i - s_npart s)%nat with i by lia.
  unfold new_values. unfold generate_ids in G. destruct (_ <=? _); [|discriminate]. inversion G as [G']. rewrite E1.
  destruct (name =? "_id")%string.
  - rewrite map_map. rewrite (nth_map _ _ _ 0%nat) by (rewrite seq_length; lia). rewrite seq_nth by lia. reflexivity.
  - destruct (name =? "w")%string; [|apply nth_repeat]. rewrite (nth_indep _ NaN (Num 0)) by (rewrite repeat_length; lia). apply nth_repeat.
Qed.

(** *** prune *)
Lemma resize_cut {A} (z : A) k l : (k <= List.length l)%nat -> resize z k l = firstn k l.
Proof. intro H. unfold resize. replace (k - List.length l)%nat with 0%nat by lia. apply app_nil_r. Qed.
Lemma take_firstn {A} (d : A) k idx l : firstn k (take d idx l) = take d (firstn k idx) l.
Proof. unfold take. apply firstn_map. Qed.
Lemma take_length {A} (d : A) idx l : List.length (take d idx l) = List.length idx.
Proof. apply map_length. Qed.

Lemma prune_size_ge extra dead : (0 <= extra)%Q -> (n_alive dead <= prune_size extra dead)%nat.
Proof.
  intro H. unfold prune_size, qtrunc. set (a := n_alive dead). destruct extra as [n d]. unfold Qle in H. cbn in H.
  cbn [Qnum Qden Qmult Qplus inject_Z]. change (1 * d)%positive with d.
  assert (E : Z.of_nat a <= Z.quot (Z.of_nat a * (1 * Z.pos d + n * 1)) (Z.pos d)).
  { apply Z.quot_le_lower_bound; [lia|]. nia. }
  change (Z.pos (1 * d)) with (Z.pos d). clearbody a. revert E. generalize (Z.of_nat a * (1 * Z.pos d + n * 1) ÷ Z.pos d). lia.
Qed.

Lemma alive_tail dead idx k : sorts_dead dead idx -> (n_alive dead <= k)%nat ->
  filter (fun i => negb (nth i dead true)) (skipn k idx) = [].
Proof.
  intros [P SD] Hk. apply filter_none. intros i Hi.
  destruct (negb (nth i dead true)) eqn:E; auto. exfalso.
  pose proof (Permutation_length P) as L. rewrite seq_length in L.
  destruct (In_nth _ _ 0%nat Hi) as (j & Hj & Ej). rewrite skipn_length in Hj.
  assert (Ej' : nth (k + j) idx 0%nat = i).
  { rewrite <- Ej. rewrite <- (firstn_skipn k idx) at 1. rewrite app_nth2; rewrite firstn_length; [f_equal; lia|lia]. }
  assert (A : forall a, In a (firstn (S (k + j)) idx) -> negb (nth a dead true) = true).
  { intros a Ha. destruct (In_nth _ _ 0%nat Ha) as (m & Hm & Em). rewrite firstn_length in Hm. rewrite nth_firstn_lt in Em by lia.
    destruct (Nat.eq_dec m (k + j)) as [->|Hne]; [congruence|].
    destruct (nth a dead true) eqn:D; auto. rewrite <- Em in D. apply (SD m (k + j)%nat) in D; [|lia]. rewrite Ej' in D. rewrite D in E. discriminate. }
  assert (C : countb (fun a => negb (nth a dead true)) idx = n_alive dead).
  { rewrite (countb_perm _ _ _ P). unfold n_alive. transitivity (countb negb (map (fun a => nth a dead true) (seq 0 (List.length dead)))).
    - now rewrite countb_map.
    - now rewrite map_nth_seq. }
  rewrite <- (firstn_skipn (S (k + j)) idx), countb_app in C. rewrite (countb_true _ (firstn _ _)) in C by auto.
  rewrite firstn_length in C. lia.
Qed.

Theorem prune_keeps extra idx s : well_formed s -> sorts_dead (s_dead s) idx -> (0 <= extra)%Q ->
  well_formed (prune extra idx s) /\ (n_alive (s_dead s) <= s_npart (prune extra idx s) <= s_npart s)%nat /\
  Permutation (alive_slots (prune extra idx s)) (alive_slots s).
Proof.
  intros W S Hx. pose proof W as (WA & WD & WE). pose proof (prune_size_ge extra (s_dead s) Hx) as K.
  assert (NA : (n_alive (s_dead s) <= s_npart s)%nat) by (rewrite <- WD; apply countb_le).
  unfold prune. set (k := prune_size extra (s_dead s)) in *. destruct (s_npart s <=? k)%nat eqn:E; [auto|].
  apply Nat.leb_gt in E. set (s' := mkStore _ _ _ _ _ _ _ _).
  pose proof (Permutation_length (proj1 S)) as L. rewrite seq_length, WD in L.
  assert (RA : forall A (z d : A) l, resize z k (take d idx l) = take d (firstn k idx) l).
  { intros A z d l. rewrite resize_cut by (rewrite take_length; lia). apply take_firstn. }
  assert (LF : List.length (firstn k idx) = k) by (rewrite firstn_length; lia).
  assert (N : forall A (d : A) l i, (i < k)%nat -> nth i (take d (firstn k idx) l) d = nth (nth i (firstn k idx) 0%nat) l d).
  { intros A d l i Hi. unfold take. rewrite (nth_map _ _ _ 0%nat) by lia. reflexivity. }
  split; [|split].
  - split; [|split].
    + cbn [s' s_attrs s_npart]. intros a Ha. apply in_map_iff in Ha. destruct Ha as (b & <- & Hb). cbn [snd].
      rewrite RA, take_length. auto.
    + cbn [s' s_dead s_npart]. rewrite RA, take_length. auto.
    + cbn [s' s_event s_npart]. destruct (s_event s); auto. rewrite RA, take_length. auto.
  - cbn [s' s_npart]. lia.
  - assert (SL : forall i, (i < k)%nat -> slot s' i = slot s (nth i (firstn k idx) 0%nat) /\ is_alive s' i = is_alive s (nth i (firstn k idx) 0%nat)).
    { intros i Hi. split.
      - unfold slot. cbn [s' s_attrs s_event]. f_equal.
        + rewrite map_map. apply map_ext_in. intros a Ha. cbn [fst snd]. now rewrite RA, N.
        + destruct (s_event s) as [ev|]; auto. cbn [option_map]. f_equal. now rewrite RA, N.
      - unfold is_alive. cbn [s' s_dead]. now rewrite RA, N. }
    unfold alive_slots. replace (s_npart s') with k by reflexivity.
    transitivity (map (slot s) (filter (is_alive s) (firstn k idx))).
    + assert (M : forall l, (forall i, In i l -> (i < k)%nat) -> map (slot s') (filter (is_alive s') l) =
                    map (slot s) (filter (is_alive s) (map (fun i => nth i (firstn k idx) 0%nat) l))).
      { induction l as [|i l IH]; intro B; auto. cbn [map filter]. destruct (SL i (B i (or_introl eq_refl))) as [E1 E2]. rewrite E2.
        destruct (is_alive s (nth i (firstn k idx) 0%nat)); cbn [map]; [rewrite E1; f_equal|]; apply IH; intros j Hj; apply B; right; auto. }
      rewrite M by (intros i Hi; apply in_seq in Hi; lia).
      pose proof (map_nth_seq (firstn k idx) 0%nat) as MN. rewrite LF in MN. rewrite MN. reflexivity.
    + apply Permutation_map.
      assert (T : filter (is_alive s) (skipn k idx) = []) by (apply (alive_tail (s_dead s)); auto).
      rewrite <- (app_nil_r (filter _ (firstn k idx))), <- T, <- filter_app, firstn_skipn.
      assert (PF : forall l l', Permutation l l' -> Permutation (filter (is_alive s) l) (filter (is_alive s) l')).
      { clear. intros l l' P. induction P; cbn [filter]; auto.
        - destruct (is_alive s x); auto.
        - destruct (is_alive s x), (is_alive s y); auto. constructor.
        - etransitivity; eauto. }
      apply PF. rewrite <- WD. apply S.
Qed.
