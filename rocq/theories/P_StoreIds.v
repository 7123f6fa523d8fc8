(** Proofs about identifiers. *)
From Coq Require Import QArith String.
From Verif Require Import Base M_RunLoop M_Store S_Store.
Local Open Scope list_scope.
Local Open Scope Z_scope.

Lemma land_shift_low (a b n : Z) : 0 <= n -> 0 <= b < 2 ^ n -> Z.land (Z.shiftl a n) b = 0.
Proof.
  intros Hn Hb. apply Z.bits_inj'. intros m Hm. rewrite Z.land_spec, Z.bits_0, Z.shiftl_spec by lia.
  destruct (Z.lt_ge_cases m n) as [H|H].
  - rewrite (Z.testbit_neg_r a) by lia. reflexivity.
  - rewrite <- (Z.mod_small b (2 ^ n)) by lia. rewrite Z.mod_pow2_bits_high by lia. apply andb_false_r.
Qed.
Lemma lor_shift_low (a b n : Z) : 0 <= n -> 0 <= b < 2 ^ n -> Z.lor (Z.shiftl a n) b = a * 2 ^ n + b.
Proof.
  intros Hn Hb. rewrite <- Z.lxor_lor, <- Z.add_nocarry_lxor by (apply land_shift_low; lia).
  rewrite Z.shiftl_mul_pow2 by lia. reflexivity.
Qed.

Lemma make_id_sum (r p k : Z) : 0 <= p < 2 ^ 18 -> 0 <= k < 2 ^ 32 -> make_id r p k = r * 2 ^ 50 + p * 2 ^ 32 + k.
Proof.
  intros Hp Hk. unfold make_id.
  rewrite <- Z.lor_assoc, (lor_shift_low p k 32) by lia.
  change (32 + 18) with 50. rewrite lor_shift_low; lia.
Qed.
Lemma make_id_inj (r p k r' p' k' : Z) : 0 <= p < 2 ^ 18 -> 0 <= k < 2 ^ 32 -> 0 <= p' < 2 ^ 18 -> 0 <= k' < 2 ^ 32 ->
  make_id r p k = make_id r' p' k' -> r = r' /\ p = p' /\ k = k'.
Proof. intros Hp Hk Hp' Hk'. rewrite !make_id_sum by lia. lia. Qed.

(** *** counting over the patches *)
Definition total (f : Z * bool -> bool) (st : pool) : nat := sumn (map (fun p => countb f (ps_slots p)) st).
Lemma total_upd f i x st : (i < List.length st)%nat ->
  (total f (upd i x st) + countb f (ps_slots (get st i)) = total f st + countb f (ps_slots x))%nat.
Proof.
  unfold total, get. revert i; induction st as [|a st IH]; intros [|i] H; cbn [List.length] in H; try lia;
    cbn [upd map nth]; rewrite !sumn_cons; [lia|]. specialize (IH i). lia.
Qed.
Lemma upd_over {A} i (x : A) l : (List.length l <= i)%nat -> upd i x l = l.
Proof. revert i; induction l as [|a l IH]; intros [|i] H; cbn [List.length] in H; try lia; cbn [upd]; auto. rewrite IH; auto; lia. Qed.
Lemma countb_upd {A} (f : A -> bool) i x l d : (i < List.length l)%nat ->
  (countb f (upd i x l) + (if f (nth i l d) then 1 else 0) = countb f l + (if f x then 1 else 0))%nat.
Proof.
  revert i; induction l as [|a l IH]; intros [|i] H; cbn [List.length] in H; try lia; cbn [upd nth]; rewrite !countb_cons.
  - destruct (f a), (f x); lia.
  - specialize (IH i). destruct (f a), (f x), (f (nth i l d)); lia.
Qed.
Lemma in_upd {A} i (x a : A) l : In a (upd i x l) -> a = x \/ In a l.
Proof.
  revert i; induction l as [|b l IH]; intros [|i] H; cbn [upd] in *; auto; destruct H as [H|H]; cbn [In]; auto.
  destruct (IH i H); auto.
Qed.
Lemma take_perm {A} (d : A) idx l : is_perm idx (List.length l) = true -> Permutation (take d idx l) l.
Proof.
  unfold is_perm, take. intros [H1 H2]%andb_true_iff. apply Nat.eqb_eq in H1.
  assert (P : Permutation (seq 0 (List.length l)) idx).
  { apply NoDup_Permutation_bis; [apply seq_NoDup|rewrite seq_length; lia|].
    intros i Hi. rewrite forallb_forall in H2. specialize (H2 i Hi).
    apply existsb_exists in H2. destruct H2 as [j [Hj E]]. apply Nat.eqb_eq in E. subst; auto. }
  symmetry in P. apply (Permutation_map (fun i => nth i l d)) in P. rewrite P. now rewrite map_nth_seq.
Qed.
Lemma countb_firstn_le {A} (f : A -> bool) k l : (countb f (firstn k l) <= countb f l)%nat.
Proof. rewrite <- (firstn_skipn k l) at 2. rewrite countb_app. lia. Qed.
Lemma in_firstn {A} (a : A) k l : In a (firstn k l) -> In a l.
Proof. intro H. rewrite <- (firstn_skipn k l). apply in_or_app; auto. Qed.

(** *** identifiers handed out so far *)
Definition generated (st : pool) (z : Z) : Prop :=
  exists p k, In p st /\ 0 <= k < ps_created p /\ z = make_id (ps_rank p) (ps_ipatch p) k.
Definition key (p : pslots) : Z * Z := (ps_rank p, ps_ipatch p).
Definition sane (st : pool) : Prop :=
  NoDup (map key st) /\
  (forall p, In p st -> 0 <= ps_rank p < 2 ^ 14 /\ 0 <= ps_ipatch p < 2 ^ 18 /\ 0 <= ps_created p <= 2 ^ 32) /\
  (forall p s, In p st -> In s (ps_slots p) -> generated st (fst s)).

Lemma get_in st p : (p < List.length st)%nat -> In (get st p) st.
Proof. intro H. apply nth_In; auto. Qed.
Lemma map_key_upd st i x : key x = key (get st i) -> map key (upd i x st) = map key st.
Proof.
  unfold get. revert i; induction st as [|a st IH]; intros [|i] H; cbn [upd map nth] in *; auto; [now rewrite H|].
  f_equal. apply IH; auto.
Qed.

(** replacing a patch by one with the same key, a counter not smaller, and known or freshly generated identifiers *)
Lemma generated_upd st i x z : key x = key (get st i) -> ps_created (get st i) <= ps_created x -> (i < List.length st)%nat ->
  generated st z -> generated (upd i x st) z.
Proof.
  intros K C Hi (p & k & Hp & Hk & ->).
  destruct (In_nth _ _ no_patch Hp) as (j & Hj & <-).
  destruct (Nat.eq_dec i j) as [->|Hne].
  - fold (get st j) in *. exists x, k. split; [|split].
    + rewrite <- (nth_upd_eq j x st no_patch Hj) at 1. apply nth_In. rewrite upd_length; auto.
    + lia.
    + unfold key in K. inversion K. congruence.
  - exists (nth j st no_patch), k. split; [|split; auto].
    rewrite <- (nth_upd_neq i j x st no_patch Hne). apply nth_In. rewrite upd_length; auto.
Qed.
Lemma sane_upd st i x : sane st -> key x = key (get st i) -> ps_created (get st i) <= ps_created x <= 2 ^ 32 ->
  (forall s, In s (ps_slots x) -> generated st (fst s) \/
     exists k, 0 <= k < ps_created x /\ fst s = make_id (ps_rank x) (ps_ipatch x) k) ->
  (i < List.length st)%nat -> sane (upd i x st).
Proof.
  intros (N & R & G) K C S Hi. split; [|split].
  - now rewrite map_key_upd.
  - intros p [->|Hp]%in_upd; auto. pose proof (R _ (get_in st i Hi)) as (A & B & D).
    unfold key in K. inversion K as [[K1 K2]]. lia.
  - intros p s [->|Hp]%in_upd Hs.
    + destruct (S s Hs) as [H|(k & Hk & ->)]; [apply generated_upd; auto; lia|].
      exists x, k. split; [|auto]. rewrite <- (nth_upd_eq i x st no_patch Hi) at 1. apply nth_In. rewrite upd_length; auto.
    + apply generated_upd; auto; [lia|]. eapply G; eauto.
Qed.

(** a fresh identifier was never handed out *)
Lemma fresh_not_generated st i k : sane st -> (i < List.length st)%nat -> ps_created (get st i) <= k < 2 ^ 32 ->
  ~ generated st (make_id (ps_rank (get st i)) (ps_ipatch (get st i)) k).
Proof.
  intros (N & R & G) Hi Hk (p & k' & Hp & Hk' & E).
  pose proof (R _ (get_in st i Hi)) as (A & B & D). pose proof (R _ Hp) as (A' & B' & D').
  apply make_id_inj in E; try lia. destruct E as (E1 & E2 & ->).
  destruct (In_nth _ _ no_patch Hp) as (j & Hj & Ej).
  assert (i = j).
  { eapply (NoDup_nth (map key st) (key no_patch)); eauto; rewrite ?map_length; auto.
    rewrite !(map_nth key). rewrite Ej. unfold key. fold (get st i). congruence. }
  subst j. fold (get st i) in Ej. subst p. lia.
Qed.
Lemma count_not_generated (f : Z * bool -> bool) st z : sane st -> (forall s, f s = true -> fst s = z) -> ~ generated st z ->
  total f st = 0%nat.
Proof.
  intros (N & R & G) Hf Hz. unfold total.
  assert (H : forall l, incl l st -> sumn (map (fun p => countb f (ps_slots p)) l) = 0%nat).
  { induction l as [|p l IH]; intro I; [reflexivity|]. cbn [map]. rewrite sumn_cons, IH by (intros a Ha; apply I; right; auto).
    rewrite countb_false; auto. intros s Hs. destruct (f s) eqn:E; auto. exfalso. apply Hz. rewrite <- (Hf s E).
    eapply G; eauto. apply I; left; auto. }
  apply H. intros a; auto.
Qed.
Lemma count_fresh (f : Z * bool -> bool) z p n dead : 0 <= ps_ipatch p < 2 ^ 18 -> 0 <= ps_created p -> ps_created p + Z.of_nat n <= 2 ^ 32 ->
  (forall s, f s = true -> fst s = z) ->
  (countb f (fresh p n dead) <= 1)%nat /\
  ((0 < countb f (fresh p n dead))%nat -> exists k, ps_created p <= k < 2 ^ 32 /\ z = make_id (ps_rank p) (ps_ipatch p) k).
Proof.
  intros Hp Hc Hn Hf. unfold fresh. induction n as [|n IH]; [split; [cbn; lia|cbn; lia]|].
  rewrite seq_snoc, map_app, countb_app. cbn [map]. rewrite countb_cons, countb_nil.
  destruct IH as [I1 I2]; [lia|].
  match goal with |- context [f ?s] => destruct (f s) eqn:E; [apply Hf in E; cbn [fst] in E|] end.
  - destruct (Nat.eq_dec (countb f (map (fun i => (make_id (ps_rank p) (ps_ipatch p) (ps_created p + Z.of_nat i), dead)) (seq 0 n))) 0) as [Z|Z].
    + rewrite Z. split; [lia|]. intros _. eexists. split; [|symmetry; exact E]. lia.
    + exfalso. assert (T : exists s, In s (map (fun i => (make_id (ps_rank p) (ps_ipatch p) (ps_created p + Z.of_nat i), dead)) (seq 0 n)) /\ f s = true).
      { unfold countb in Z. destruct (filter f _) as [|s l] eqn:F; [cbn in Z; lia|]. exists s. apply filter_In. rewrite F. left; auto. }
      destruct T as (s & Hs & Fs). apply Hf in Fs. apply in_map_iff in Hs. destruct Hs as (i & <- & Hi). cbn [fst] in Fs.
      rewrite <- E in Fs. apply in_seq in Hi. apply make_id_inj in Fs; lia.
  - split; [lia|]. intro H. apply I2. lia.
Qed.

(** *** the two predicates counted *)
Definition alive_id (z : Z) (s : Z * bool) : bool := negb (snd s) && (fst s =? z).
Definition any_id (z : Z) (s : Z * bool) : bool := fst s =? z.
Lemma alive_id_fst z s : alive_id z s = true -> fst s = z.
Proof. unfold alive_id. intros [_ H]%andb_true_iff. lia. Qed.
Lemma any_id_fst z s : any_id z s = true -> fst s = z.
Proof. unfold any_id. lia. Qed.

Lemma fresh_generated p n dead s : In s (fresh p n dead) -> 0 <= ps_created p ->
  exists k, 0 <= k < ps_created p + Z.of_nat n /\ fst s = make_id (ps_rank p) (ps_ipatch p) k.
Proof. unfold fresh. intros (i & <- & Hi)%in_map_iff Hc. apply in_seq in Hi. eexists. split; [|reflexivity]. lia. Qed.

(** adding fresh slots keeps "at most one" *)
Lemma add_fresh (f : Z * bool -> bool) z st i n dead old :
  sane st -> (i < List.length st)%nat -> enough_ids (get st i) n = true -> (forall s, f s = true -> fst s = z) ->
  (total f st <= 1)%nat -> (countb f old <= countb f (ps_slots (get st i)))%nat ->
  (total f (upd i (set_slots (get st i) (ps_created (get st i) + Z.of_nat n) (old ++ fresh (get st i) n dead)) st) <= 1)%nat.
Proof.
  intros S Hi En Hf T Ho. unfold enough_ids in En.
  pose proof (total_upd f i (set_slots (get st i) (ps_created (get st i) + Z.of_nat n) (old ++ fresh (get st i) n dead)) st Hi) as E.
  cbn [ps_slots set_slots] in E. rewrite countb_app in E.
  destruct S as (N & R & G). pose proof (R _ (get_in st i Hi)) as (A & B & D).
  destruct (count_fresh f z (get st i) n dead) as [C1 C2]; auto; try lia.
  destruct (Nat.eq_dec (countb f (fresh (get st i) n dead)) 0) as [Z|Z]; [lia|].
  destruct C2 as (k & Hk & ->); [lia|].
  assert (T0 : total f st = 0%nat).
  { eapply count_not_generated; eauto; [repeat split; eauto; apply R; auto|]. apply fresh_not_generated; auto. repeat split; eauto; apply R; auto. }
  lia.
Qed.

Lemma sane_fresh st i n dead old : sane st -> (i < List.length st)%nat -> enough_ids (get st i) n = true ->
  incl old (ps_slots (get st i)) ->
  sane (upd i (set_slots (get st i) (ps_created (get st i) + Z.of_nat n) (old ++ fresh (get st i) n dead)) st).
Proof.
  intros S Hi En Ho. unfold enough_ids in En. pose proof S as (N & R & G).
  pose proof (R _ (get_in st i Hi)) as (A & B & D).
  apply sane_upd; auto; cbn [ps_created ps_slots set_slots ps_rank ps_ipatch]; [lia|].
  intros s Hs. apply in_app_or in Hs. destruct Hs as [Hs|Hs].
  - left. apply (G (get st i)); auto. apply get_in; auto.
  - right. apply fresh_generated in Hs; [|lia]. exact Hs.
Qed.
(** rearranging, dropping or re-flagging known slots *)
Lemma sane_slots st i sl : sane st -> (i < List.length st)%nat -> (forall s, In s sl -> generated st (fst s)) ->
  sane (upd i (set_slots (get st i) (ps_created (get st i)) sl) st).
Proof.
  intros S Hi H. pose proof S as (N & R & G). pose proof (R _ (get_in st i Hi)) as (A & B & D).
  apply sane_upd; auto; cbn [ps_created ps_slots set_slots]; lia.
Qed.
Lemma slot_generated st i s : sane st -> (i < List.length st)%nat -> In s (ps_slots (get st i)) -> generated st (fst s).
Proof. intros (N & R & G) Hi H. apply (G (get st i)); auto. apply get_in; auto. Qed.

Lemma get_over st p : (List.length st <= p)%nat -> get st p = no_patch.
Proof. intro H. unfold get. apply nth_overflow; auto. Qed.
Lemma alive_bound st p i : alive_at (get st p) i = true -> (p < List.length st)%nat /\ (i < List.length (ps_slots (get st p)))%nat /\ snd (nth i (ps_slots (get st p)) no_slot) = false.
Proof.
  unfold alive_at. intros [A B]%andb_true_iff. apply Nat.ltb_lt in A. destruct (Nat.lt_ge_cases p (List.length st)) as [H|H].
  - repeat split; auto. now destruct (snd _).
  - rewrite get_over in A by auto. cbn in A. lia.
Qed.
Lemma dead_bound st p i : dead_at (get st p) i = true -> (p < List.length st)%nat /\ (i < List.length (ps_slots (get st p)))%nat /\ snd (nth i (ps_slots (get st p)) no_slot) = true.
Proof.
  unfold dead_at. intros [A B]%andb_true_iff. apply Nat.ltb_lt in A. destruct (Nat.lt_ge_cases p (List.length st)) as [H|H].
  - repeat split; auto.
  - rewrite get_over in A by auto. cbn in A. lia.
Qed.

Lemma upd_slots_gen st i j b p : sane st -> (i < List.length (ps_slots (get st p)))%nat -> (p < List.length st)%nat ->
  forall s, In s (upd j (fst (nth i (ps_slots (get st p)) no_slot), b) (ps_slots (get st p))) -> generated st (fst s).
Proof.
  intros S Hi Hp s [->|Hs]%in_upd; [|eapply slot_generated; eauto].
  cbn [fst]. eapply slot_generated; eauto. apply nth_In; auto.
Qed.

Lemma exec_sane o st : sane st -> sane (exec o st).
Proof.
  intro S. destruct o as [p n|p n|p n|p i|p i q j|p idx|p idx k|p j]; cbn [exec].
  - destruct (enough_ids (get st p) n) eqn:E; auto. destruct (Nat.lt_ge_cases p (List.length st)) as [H|H]; [|now rewrite upd_over].
    apply (sane_fresh st p n false []); auto. intros a [].
  - destruct (enough_ids (get st p) n) eqn:E; auto. destruct (Nat.lt_ge_cases p (List.length st)) as [H|H]; [|now rewrite upd_over].
    apply sane_fresh; auto. intros a; auto.
  - destruct (enough_ids (get st p) n) eqn:E; auto. destruct (Nat.lt_ge_cases p (List.length st)) as [H|H]; [|now rewrite upd_over].
    apply sane_fresh; auto. intros a; auto.
  - destruct (alive_at (get st p) i) eqn:E; auto. apply alive_bound in E. destruct E as (H & H' & _).
    apply sane_slots; auto. apply upd_slots_gen; auto.
  - destruct (alive_at (get st p) i) eqn:E; auto. destruct (dead_at (get st q) j) eqn:E'; auto. cbn [andb].
    apply alive_bound in E. destruct E as (H & H' & _). apply dead_bound in E'. destruct E' as (Q & Q' & _).
    set (id := fst (nth i (ps_slots (get st p)) no_slot)).
    assert (Gid : generated st id) by (apply (slot_generated st p); auto; apply nth_In; auto).
    set (st' := upd q _ st).
    assert (S' : sane st').
    { apply sane_slots; auto. intros s [->|Hs]%in_upd; auto. apply (slot_generated st q); auto. }
    assert (L : List.length st' = List.length st) by apply upd_length.
    assert (Gid' : generated st' id).
    { apply generated_upd; auto. cbn [ps_created set_slots]. lia. }
    apply sane_slots; auto; [lia|]. intros s [->|Hs]%in_upd; auto. apply (slot_generated st' p); auto. lia.
  - destruct (is_perm idx _) eqn:E; auto. destruct (Nat.lt_ge_cases p (List.length st)) as [H|H]; [|now rewrite upd_over].
    apply sane_slots; auto. intros s Hs. apply (slot_generated st p); auto. eapply Permutation_in; [apply take_perm; exact E|exact Hs].
  - destruct (is_perm idx _) eqn:E; auto. destruct (Nat.lt_ge_cases p (List.length st)) as [H|H]; [|now rewrite upd_over].
    apply sane_slots; auto. intros s Hs. apply in_firstn in Hs. apply (slot_generated st p); auto. eapply Permutation_in; [apply take_perm; exact E|exact Hs].
  - destruct (dead_at (get st p) j) eqn:E; auto. apply dead_bound in E. destruct E as (H & H' & _).
    apply sane_slots; auto. apply upd_slots_gen; auto.
Qed.

Lemma exec_alive o st z : is_create o = false -> sane st -> (total (alive_id z) st <= 1)%nat -> (total (alive_id z) (exec o st) <= 1)%nat.
Proof.
  intros Hc S T. destruct o as [p n|p n|p n|p i|p i q j|p idx|p idx k|p j]; cbn [exec]; try discriminate Hc.
  - destruct (enough_ids (get st p) n) eqn:E; auto. destruct (Nat.lt_ge_cases p (List.length st)) as [H|H]; [|now rewrite upd_over].
    apply (add_fresh (alive_id z) z st p n false []); auto; [apply alive_id_fst|cbn; lia].
  - destruct (enough_ids (get st p) n) eqn:E; auto. destruct (Nat.lt_ge_cases p (List.length st)) as [H|H]; [|now rewrite upd_over].
    apply (add_fresh (alive_id z) z); auto; apply alive_id_fst.
  - destruct (enough_ids (get st p) n) eqn:E; auto. destruct (Nat.lt_ge_cases p (List.length st)) as [H|H]; [|now rewrite upd_over].
    apply (add_fresh (alive_id z) z); auto; apply alive_id_fst.
  - destruct (alive_at (get st p) i) eqn:E; auto. apply alive_bound in E. destruct E as (H & H' & A).
    match goal with |- context [upd p ?x st] => pose proof (total_upd (alive_id z) p x st H) as U end.
    cbn [ps_slots set_slots] in U.
    pose proof (countb_upd (alive_id z) i (fst (nth i (ps_slots (get st p)) no_slot), true) (ps_slots (get st p)) no_slot H') as V.
    unfold alive_id at 4 in V. cbn [snd negb andb] in V. destruct (alive_id z (nth i (ps_slots (get st p)) no_slot)); lia.
  - destruct (alive_at (get st p) i) eqn:E; auto. destruct (dead_at (get st q) j) eqn:E'; auto. cbn [andb].
    apply alive_bound in E. destruct E as (H & H' & A). apply dead_bound in E'. destruct E' as (Q & Q' & A').
    set (id := fst (nth i (ps_slots (get st p)) no_slot)).
    set (y' := set_slots (get st q) (ps_created (get st q)) (upd j (id, false) (ps_slots (get st q)))).
    set (st' := upd q y' st).
    assert (L : List.length st' = List.length st) by apply upd_length.
    pose proof (total_upd (alive_id z) q y' st Q) as U. fold st' in U. cbn [y' ps_slots set_slots] in U.
    pose proof (countb_upd (alive_id z) j (id, false) (ps_slots (get st q)) no_slot Q') as V.
    assert (X : nth i (ps_slots (get st' p)) no_slot = nth i (ps_slots (get st p)) no_slot /\ (i < List.length (ps_slots (get st' p)))%nat).
    { unfold st', get. destruct (Nat.eq_dec q p) as [->|Hne].
      - rewrite nth_upd_eq by auto. cbn [y' ps_slots set_slots]. rewrite upd_length. split; [|exact H'].
        apply nth_upd_neq. intros ->. congruence.
      - rewrite nth_upd_neq by auto. auto. }
    destruct X as [X X'].
    match goal with |- context [upd p ?x st'] => pose proof (total_upd (alive_id z) p x st' ltac:(lia)) as U' end.
    cbn [ps_slots set_slots] in U'.
    pose proof (countb_upd (alive_id z) i (id, true) (ps_slots (get st' p)) no_slot X') as V'.
    rewrite X in V'. fold id in V'.
    replace (alive_id z (nth j (ps_slots (get st q)) no_slot)) with false in V by (unfold alive_id; rewrite A'; reflexivity).
    replace (alive_id z (id, true)) with false in V' by reflexivity.
    replace (alive_id z (nth i (ps_slots (get st p)) no_slot)) with (alive_id z (id, false)) in V'
      by (unfold alive_id, id; rewrite A; reflexivity).
    destruct (alive_id z (id, false)); lia.
  - destruct (is_perm idx _) eqn:E; auto. destruct (Nat.lt_ge_cases p (List.length st)) as [H|H]; [|now rewrite upd_over].
    match goal with |- context [upd p ?x st] => pose proof (total_upd (alive_id z) p x st H) as U end.
    cbn [ps_slots set_slots] in U. rewrite (countb_perm _ _ _ (take_perm no_slot _ _ E)) in U. lia.
  - destruct (is_perm idx _) eqn:E; auto. destruct (Nat.lt_ge_cases p (List.length st)) as [H|H]; [|now rewrite upd_over].
    match goal with |- context [upd p ?x st] => pose proof (total_upd (alive_id z) p x st H) as U end.
    cbn [ps_slots set_slots] in U. pose proof (countb_firstn_le (alive_id z) k (take no_slot idx (ps_slots (get st p)))) as F.
    rewrite (countb_perm _ _ _ (take_perm no_slot _ _ E)) in F. lia.
Qed.

Lemma exec_any o st z : is_migrate o = false -> sane st -> (total (any_id z) st <= 1)%nat -> (total (any_id z) (exec o st) <= 1)%nat.
Proof.
  intros Hc S T. destruct o as [p n|p n|p n|p i|p i q j|p idx|p idx k|p j]; cbn [exec]; try discriminate Hc.
  - destruct (enough_ids (get st p) n) eqn:E; auto. destruct (Nat.lt_ge_cases p (List.length st)) as [H|H]; [|now rewrite upd_over].
    apply (add_fresh (any_id z) z st p n false []); auto; [apply any_id_fst|cbn; lia].
  - destruct (enough_ids (get st p) n) eqn:E; auto. destruct (Nat.lt_ge_cases p (List.length st)) as [H|H]; [|now rewrite upd_over].
    apply (add_fresh (any_id z) z); auto; apply any_id_fst.
  - destruct (enough_ids (get st p) n) eqn:E; auto. destruct (Nat.lt_ge_cases p (List.length st)) as [H|H]; [|now rewrite upd_over].
    apply (add_fresh (any_id z) z); auto; apply any_id_fst.
  - destruct (alive_at (get st p) i) eqn:E; auto. apply alive_bound in E. destruct E as (H & H' & A).
    match goal with |- context [upd p ?x st] => pose proof (total_upd (any_id z) p x st H) as U end.
    cbn [ps_slots set_slots] in U.
    pose proof (countb_upd (any_id z) i (fst (nth i (ps_slots (get st p)) no_slot), true) (ps_slots (get st p)) no_slot H') as V.
    change (any_id z (fst (nth i (ps_slots (get st p)) no_slot), true)) with (any_id z (nth i (ps_slots (get st p)) no_slot)) in V.
    destruct (any_id z (nth i (ps_slots (get st p)) no_slot)); lia.
  - destruct (is_perm idx _) eqn:E; auto. destruct (Nat.lt_ge_cases p (List.length st)) as [H|H]; [|now rewrite upd_over].
    match goal with |- context [upd p ?x st] => pose proof (total_upd (any_id z) p x st H) as U end.
    cbn [ps_slots set_slots] in U. rewrite (countb_perm _ _ _ (take_perm no_slot _ _ E)) in U. lia.
  - destruct (is_perm idx _) eqn:E; auto. destruct (Nat.lt_ge_cases p (List.length st)) as [H|H]; [|now rewrite upd_over].
    match goal with |- context [upd p ?x st] => pose proof (total_upd (any_id z) p x st H) as U end.
    cbn [ps_slots set_slots] in U. pose proof (countb_firstn_le (any_id z) k (take no_slot idx (ps_slots (get st p)))) as F.
    rewrite (countb_perm _ _ _ (take_perm no_slot _ _ E)) in F. lia.
  - destruct (dead_at (get st p) j) eqn:E; auto. apply dead_bound in E. destruct E as (H & H' & A).
    match goal with |- context [upd p ?x st] => pose proof (total_upd (any_id z) p x st H) as U end.
    cbn [ps_slots set_slots] in U.
    pose proof (countb_upd (any_id z) j (fst (nth j (ps_slots (get st p)) no_slot), false) (ps_slots (get st p)) no_slot H') as V.
    change (any_id z (fst (nth j (ps_slots (get st p)) no_slot), false)) with (any_id z (nth j (ps_slots (get st p)) no_slot)) in V.
    destruct (any_id z (nth j (ps_slots (get st p)) no_slot)); lia.
Qed.

Lemma exec_all_sane h st : sane st -> sane (exec_all h st).
Proof. revert st; induction h as [|o h IH]; intros st S; auto. cbn. apply IH. apply exec_sane; auto. Qed.
Lemma fresh_pool_sane st : fresh_pool st -> sane st.
Proof.
  intros [N H]. split; [exact N|split].
  - intros p Hp. destruct (H p Hp) as (A & B & C & _). lia.
  - intros p s Hp Hs. destruct (H p Hp) as (_ & _ & _ & D). rewrite D in Hs. destruct Hs.
Qed.
Lemma fresh_pool_total f st : fresh_pool st -> total f st = 0%nat.
Proof.
  intros [_ H]. unfold total. induction st as [|p st IH]; auto. cbn [map]. rewrite sumn_cons, IH by (intros q Hq; apply H; right; auto).
  destruct (H p (or_introl eq_refl)) as (_ & _ & _ & ->). reflexivity.
Qed.

Lemma count_occ_flat (f : Z * bool -> bool) z (g : Z * bool -> bool) st :
  (forall s, f s = g s && (fst s =? z)) ->
  count_occ Z.eq_dec (flat_map (fun p => map fst (filter g (ps_slots p))) st) z = total f st.
Proof.
  intro Hf. unfold total. induction st as [|p st IH]; auto. cbn [flat_map map]. rewrite count_occ_app, IH, sumn_cons. f_equal.
  clear IH. induction (ps_slots p) as [|s l IH]; auto. rewrite countb_cons. cbn [filter]. rewrite (Hf s).
  destruct (g s); cbn [andb map count_occ]; [|auto]. destruct (Z.eq_dec (fst s) z) as [E|E].
  - rewrite E, Z.eqb_refl. rewrite IH. lia.
  - apply Z.eqb_neq in E. rewrite E. rewrite IH. lia.
Qed.

Theorem alive_unique h st : fresh_pool st -> forallb (fun o => negb (is_create o)) h = true -> NoDup (alive_ids (exec_all h st)).
Proof.
  intros F Hh. apply (NoDup_count_occ Z.eq_dec). intro z. unfold alive_ids.
  rewrite (count_occ_flat (alive_id z) z) by reflexivity.
  assert (G : forall h st, forallb (fun o => negb (is_create o)) h = true -> sane st -> (total (alive_id z) st <= 1)%nat -> (total (alive_id z) (exec_all h st) <= 1)%nat).
  { clear. induction h as [|o h IH]; intros st Hh S T; auto. cbn [forallb] in Hh. apply andb_true_iff in Hh. destruct Hh as [H1 H2].
    cbn. apply IH; auto; [apply exec_sane; auto|apply exec_alive; auto; now destruct (is_create o)]. }
  apply G; auto; [apply fresh_pool_sane; auto|]. rewrite fresh_pool_total; auto.
Qed.
Theorem slots_unique h st : fresh_pool st -> forallb (fun o => negb (is_migrate o)) h = true -> NoDup (slot_ids (exec_all h st)).
Proof.
  intros F Hh. apply (NoDup_count_occ Z.eq_dec). intro z. unfold slot_ids.
  assert (E : flat_map (fun p => map fst (ps_slots p)) (exec_all h st) = flat_map (fun p => map fst (filter (fun _ => true) (ps_slots p))) (exec_all h st)).
  { apply flat_map_ext. intro p. f_equal. induction (ps_slots p) as [|s l IH]; auto. cbn. now rewrite <- IH. }
  rewrite E. rewrite (count_occ_flat (any_id z) z) by reflexivity.
  assert (G : forall h st, forallb (fun o => negb (is_migrate o)) h = true -> sane st -> (total (any_id z) st <= 1)%nat -> (total (any_id z) (exec_all h st) <= 1)%nat).
  { clear. induction h as [|o h IH]; intros st Hh S T; auto. cbn [forallb] in Hh. apply andb_true_iff in Hh. destruct Hh as [H1 H2].
    cbn. apply IH; auto; [apply exec_sane; auto|apply exec_any; auto; now destruct (is_migrate o)]. }
  apply G; auto; [apply fresh_pool_sane; auto|]. rewrite fresh_pool_total; auto.
Qed.
