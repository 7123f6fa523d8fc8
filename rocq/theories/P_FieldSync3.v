(** The exchange between processes moves the same cell pairs as the exchange inside one process. *)
From Verif Require Import Base M_Layout M_PartSync S_PartSync M_FieldSync S_FieldSync P_Layout P_PartSync P_PartSync2 P_PartSync3 P_Threads P_FieldGeo P_FieldPar P_FieldSync P_FieldSync2.
Local Open Scope Z_scope.

Lemma combine_maps {A B C} (f : A -> B) (g : A -> C) l : combine (map f l) (map g l) = map (fun x => (f x, g x)) l.
Proof. induction l as [|a l IH]; [reflexivity|]. cbn. now rewrite IH. Qed.
Lemma map2_length {A B C} (f : A -> B -> C) l k : length (map2 f l k) = Nat.min (length l) (length k).
Proof. unfold map2. now rewrite map_length, combine_length. Qed.
Lemma add_length a : forall k, length (add a k) = Nat.min (length a) (length k).
Proof. induction a as [|x a IH]; intros [|y k]; cbn; auto. Qed.
Lemma index_offset Nl c : length c = length Nl -> index Nl c = offset Nl (map2 widx Nl c).
Proof.
  destruct Nl as [|A [|B [|C [|D Nl]]]], c as [|i [|j [|k [|o c]]]]; cbn; try discriminate; intros _; try reflexivity; ring.
Qed.
(** rows of the message types and of the local table *)
Lemma types_rows ng ns ds k : sizes_ok ng ns -> dirs_ok ns ds -> Forall2 (fun n x => 0 <= x < n) (cnt (map2 (ax_guard ng) ns ds)) k ->
  map2 widx (extents ns ng) (add (dst (map2 (ax_guard ng) ns ds)) k) = add (dst (map2 (ax_types ng) (extents ns ng) ds)) k /\
  map2 widx (extents ns ng) (add (src (map2 (ax_guard ng) ns ds)) k) = add (src (map2 (ax_types ng) (extents ns ng) (neg ds))) k.
Proof.
  intros [Hg Hs] [Hl Hd]. revert ds k Hl Hd. induction Hs as [|n ns Hn Hs IH]; intros [|d ds] k Hl Hd; cbn in Hl; try discriminate.
  - cbn. auto.
  - apply Forall_cons_iff in Hd as [Hd1 Hd]. intro H. unfold map2, cnt, dst, src, extents, neg in *. cbn [combine map fst snd] in *.
    inversion H as [|? x ? k' Hx Hk]; subst. destruct (IH ds k') as [I1 I2]; auto. cbn [add combine map fst snd]. rewrite I1, I2.
    destruct Hd1 as [->|[->| ->]]; unfold ax_guard, ax_types, widx in *; cbn [Z.eqb Pos.eqb Z.opp fst snd] in *.
    + split; f_equal; match goal with |- context [if ?b then _ else _] => destruct b eqn:E end; lia.
    + split; f_equal; match goal with |- context [if ?b then _ else _] => destruct b eqn:E end; lia.
    + split; f_equal; match goal with |- context [if ?b then _ else _] => destruct b eqn:E end; lia.
Qed.
Lemma types_cnt ng ns ds : dirs_ok ns ds -> cnt (map2 (ax_types ng) (extents ns ng) ds) = cnt (map2 (ax_guard ng) ns ds) /\
  cnt (map2 (ax_types ng) (extents ns ng) (neg ds)) = cnt (map2 (ax_guard ng) ns ds).
Proof.
  intros [Hl Hd]. revert ds Hl Hd. induction ns as [|n ns IH]; intros [|d ds] Hl Hd; cbn in Hl; try discriminate; [auto|].
  apply Forall_cons_iff in Hd as [Hd1 Hd]. destruct (IH ds) as [I1 I2]; auto. unfold map2, cnt, extents, neg in *. cbn [combine map fst snd] in *. rewrite I1, I2.
  split; f_equal; destruct Hd1 as [->|[->| ->]]; unfold ax_types, ax_guard; cbn [Z.eqb Pos.eqb Z.opp snd]; lia.
Qed.
(** rows of the packing loops and of the local table *)
Lemma mpi_rows ng ns ds : dirs_ok ns ds ->
  cnt (map2 (ax_mpi ng) ns ds) = cnt (map2 (ax_currents ng) ns ds) /\ cnt (map2 (ax_mpi ng) ns (neg ds)) = cnt (map2 (ax_currents ng) ns ds) /\
  dst (map2 (ax_mpi ng) ns ds) = dst (map2 (ax_currents ng) ns ds) /\ src (map2 (ax_mpi ng) ns (neg ds)) = src (map2 (ax_currents ng) ns ds).
Proof.
  intros [Hl Hd]. revert ds Hl Hd. induction ns as [|n ns IH]; intros [|d ds] Hl Hd; cbn in Hl; try discriminate; [auto|].
  apply Forall_cons_iff in Hd as [Hd1 Hd]. destruct (IH ds) as (I1 & I2 & I3 & I4); auto. unfold map2, cnt, dst, src, neg in *. cbn [combine map fst snd] in *. rewrite I1, I2, I3, I4.
  repeat split; f_equal; destruct Hd1 as [->|[->| ->]]; unfold ax_mpi, ax_currents; cbn [Z.eqb Pos.eqb Z.opp fst snd]; lia.
Qed.
(** positions in a message *)
Lemma offset_ok cs : length cs = 2%nat \/ length cs = 3%nat ->
  (forall k, In k (block cs) -> 0 <= offset cs k < volume cs) /\ (forall k k', In k (block cs) -> In k' (block cs) -> offset cs k = offset cs k' -> k = k').
Proof.
  intros [H|H].
  - destruct cs as [|A [|B [|C cs]]]; try discriminate. split.
    + intros k Hk. apply block_in in Hk. inversion Hk as [|? i ? t Hi Ht]; subst. inversion Ht as [|? j ? t' Hj Ht']; subst. inversion Ht'; subst. cbn. nia.
    + intros k k' Hk Hk' E. apply block_in in Hk, Hk'. inversion Hk as [|? i ? t Hi Ht]; subst. inversion Ht as [|? j ? t' Hj Ht']; subst. inversion Ht'; subst.
      inversion Hk' as [|? i' ? u Hi' Hu]; subst. inversion Hu as [|? j' ? u' Hj' Hu']; subst. inversion Hu'; subst. cbn in E.
      assert (E' : j + i * B = j' + i' * B) by lia. apply pair_inj in E'; auto. destruct E' as [-> ->]. reflexivity.
  - destruct cs as [|A [|B [|C [|D cs]]]]; try discriminate. split.
    + intros k Hk. apply block_in in Hk. inversion Hk as [|? i ? t Hi Ht]; subst. inversion Ht as [|? j ? t' Hj Ht']; subst. inversion Ht' as [|? o ? t'' Ho Ht'']; subst. inversion Ht''; subst. cbn.
      assert (0 <= j + i * B < A * B) by nia. nia.
    + intros k k' Hk Hk' E. apply block_in in Hk, Hk'. inversion Hk as [|? i ? t Hi Ht]; subst. inversion Ht as [|? j ? t' Hj Ht']; subst. inversion Ht' as [|? o ? t'' Ho Ht'']; subst. inversion Ht''; subst.
      inversion Hk' as [|? i' ? u Hi' Hu]; subst. inversion Hu as [|? j' ? u' Hj' Hu']; subst. inversion Hu' as [|? o' ? u'' Ho' Hu'']; subst. inversion Hu''; subst. cbn in E.
      assert (E' : o + (j + i * B) * C = o' + (j' + i' * B) * C) by lia. apply pair_inj in E'; auto. destruct E' as [E' ->]. apply pair_inj in E'; auto. destruct E' as [-> ->]. reflexivity.
Qed.

Section Remote.
Variables (ns : list Z) (ng : Z) (bounds : list (list Z)) (opp : nat -> nat) (n : nat).
Hypothesis G : geometry ns ng bounds opp.
Notation nb := (length bounds).
Notation dir b := (nth b bounds []).
Notation Ns := (extents ns ng).
Variable nbr : nat -> nat -> option nat.
Variable rank : nat -> nat.
Hypothesis Sym : nbr_symmetric n nb opp nbr.
Notation aw := (away nbr rank).
Notation hr := (here nbr rank).
Context {V : Type} (zero : V) (plus : V -> V -> V).
Hypothesis Hm : monoid zero plus.
Notation cell := (cell ns ng).
Notation gcanon := (canon ns ng bounds n (ax_guard ng)).
Notation gside := (side ns ng bounds (ax_guard ng)).
Notation ccanon := (canon ns ng bounds n (ax_currents ng)).
Notation cside := (side ns ng bounds (ax_currents ng)).

Lemma nbr_split X f p b : Permutation (side ns ng bounds X nbr f p b) (side ns ng bounds X hr f p b ++ side ns ng bounds X aw f p b).
Proof.
  unfold side. destruct (nbr p b) as [q|] eqn:E.
  - destruct (Nat.eq_dec (rank p) (rank q)) as [R|R].
    + rewrite (proj2 (here_some nbr rank p b q)) by auto. destruct (aw p b) as [q'|] eqn:E'; [apply away_some in E' as [E1 E2]; rewrite E in E1; inversion E1; subst; contradiction|]. now rewrite app_nil_r.
    + rewrite (proj2 (away_some nbr rank p b q)) by auto. destruct (hr p b) as [q'|] eqn:E'; [apply here_some in E' as [E1 E2]; rewrite E in E1; inversion E1; subst; contradiction|]. reflexivity.
  - destruct (hr p b) as [q'|] eqn:E'; [apply here_some in E' as [E1 E2]; congruence|]. destruct (aw p b) as [q'|] eqn:E''; [apply away_some in E'' as [E1 E2]; congruence|]. reflexivity.
Qed.
Lemma canon_split X nf : Permutation (canon ns ng bounds n X nbr nf) (canon ns ng bounds n X hr nf ++ canon ns ng bounds n X aw nf).
Proof.
  unfold canon. apply flat_map_split. intros f _. unfold canon1. apply flat_map_split. intros p _. apply flat_map_split. intros b _. apply nbr_split.
Qed.
Lemma posts_flat {B} nitems mk (g : msg -> list B) h : (forall p b q i, (p < n)%nat -> (b < nb)%nat -> aw p b = Some q -> g (mk p b q i) = h p b i) -> (forall p b i, aw p b = None -> h p b i = []) ->
  flat_map g (posts n nb nitems nbr rank mk) = flat_map (fun p => flat_map (fun b => flat_map (fun i => h p b i) (seq 0 nitems)) (seq 0 nb)) (seq 0 n).
Proof.
  intros Hg Hh. unfold posts. rewrite flat_map_flat_map. apply flat_map_ext'. intros p Hp. rewrite flat_map_flat_map. apply flat_map_ext'. intros b Hb. apply in_seq in Hp, Hb.
  destruct (aw p b) as [q|] eqn:E.
  - rewrite flat_map_map'. apply flat_map_ext'. intros i _. apply Hg; auto; lia.
  - cbn. symmetry. rewrite (flat_map_ext' _ (fun _ => [])); [apply flat_map_nil|]. intros i _. now apply Hh.
Qed.
Lemma posts_canon X nitems mk (g : msg -> list (addr * addr)) : (forall p b q i, (p < n)%nat -> (b < nb)%nat -> aw p b = Some q -> g (mk p b q i) = side ns ng bounds X aw i p b) ->
  Permutation (flat_map g (posts n nb nitems nbr rank mk)) (canon ns ng bounds n X aw nitems).
Proof.
  intro Hg. rewrite (posts_flat nitems mk g (fun p b i => side ns ng bounds X aw i p b)); auto; [|intros p b i E; unfold side; now rewrite E].
  unfold canon, canon1. etransitivity; [|apply (flat_map_swap (fun p f => flat_map (side ns ng bounds X aw f p) (seq 0 nb)))].
  apply flat_map_perm_ext. intros p _. apply (flat_map_swap (fun b i => side ns ng bounds X aw i p b)).
Qed.

(** ** guard cells *)
Lemma message_eq types p b q i : tab_is (ax_types ng) Ns bounds types -> (b < nb)%nat -> aw p b = Some q -> forall tag,
  message_pairs ns ng types (recv_of opp rank tag p b q i) (send_of rank tag q (opp b) p i) = gside aw i p b.
Proof.
  intros T Hb E tag. unfold message_pairs. cbn [m_side m_item m_patch recv_of send_of]. pose proof (g_dirs _ _ _ _ G b Hb) as Hd.
  destruct (g_opp _ _ _ _ G b Hb) as (O1 & O2 & O3). rewrite (row_of_is _ _ _ _ b T Hb), (row_of_is _ _ _ _ (opp b) T O2), O1.
  destruct (types_cnt ng ns (dir b) Hd) as [C1 C2]. rewrite C1, C2, combine_maps. unfold side. rewrite E. unfold region. rewrite map_map. apply map_ext_in.
  intros k Hk. unfold S_FieldSync.cell. pose proof Hk as Hk'. apply block_in in Hk'. destruct (types_rows ng ns (dir b) k) as [R1 R2]; auto; [apply G|].
  assert (Lk : length k = length ns). { rewrite (block_length _ _ Hk), cnt_length, map2_length. destruct Hd. lia. }
  assert (La : forall a, length a = length ns -> length (add a k) = length ns).
  { intros a Ha. now rewrite add_length, Ha, Lk, Nat.min_id. }
  assert (Lr : length (map2 (ax_guard ng) ns (dir b)) = length ns) by (rewrite map2_length; destruct Hd; lia).
  assert (LN : length Ns = length ns) by (unfold extents; now rewrite map_length).
  rewrite <- (region_src (ax_guard ng) (P_guard ng) ns (dir b) k); [|apply (specs _ _ ng); [apply guard_spec|apply G|auto]|auto].
  rewrite (index_offset Ns (add (dst _) k)), R1 by (rewrite LN; apply La; rewrite dst_length; auto).
  rewrite (index_offset Ns (add (src _) k)), R2 by (rewrite LN; apply La; rewrite src_length; auto). reflexivity.
Qed.
Lemma guard_transfers_eq nattrs types : tab_is (ax_types ng) Ns bounds types ->
  guard_transfers ns ng n nb opp nbr rank nattrs types =
  Some (map guard_ops (map (fun r => gside aw (m_item r) (m_patch r) (m_side r)) (recvs n nb nattrs opp nbr rank (tag_guard (Z.of_nat nb) (Z.of_nat nattrs))))).
Proof.
  intro T. unfold guard_transfers. rewrite map_map. apply sequence_map. intros r Hr. apply recvs_in in Hr as (p & b & q & i & Hp & Hb & E & Hi & ->).
  rewrite (sender_is n nb nattrs opp nbr rank _ Sym (tags_guard nb nattrs) p b q i); auto. now rewrite message_eq.
Qed.
Theorem guard_exchange_canon nattrs tab types sched m m' : tab_is (ax_guard ng) ns bounds tab -> tab_is (ax_types ng) Ns bounds types ->
  guard_exchange ns ng n nb opp nbr rank zero plus nattrs tab types sched m = Some m' -> forall a, m' a = copied (gcanon nbr nattrs) m a.
Proof.
  intros T1 T2 H a. unfold guard_exchange in H. rewrite (guard_transfers_eq nattrs types T2) in H.
  set (lr := map (fun r => gside aw (m_item r) (m_patch r) (m_side r)) (recvs n nb nattrs opp nbr rank (tag_guard (Z.of_nat nb) (Z.of_nat nattrs)))) in *.
  set (ll := map (fun i => task_pairs Ns tab hr (fst i) (snd i)) (iterations n nattrs)) in *.
  assert (E : guard_tasks Ns tab hr n nattrs = map guard_ops ll) by (unfold guard_tasks, ll; now rewrite map_map). rewrite E, <- map_app in H.
  assert (P : Permutation (gcanon nbr nattrs) (concat (ll ++ lr))).
  { etransitivity; [apply canon_split|]. rewrite concat_app. apply Permutation_app; symmetry.
    - apply (tasks_perm ns ng bounds opp n G (ax_guard ng) (P_guard ng) (guard_spec ng) hr tab nattrs T1).
    - unfold lr. rewrite <- flat_map_concat_map. apply posts_canon. intros p b q i _ _ Eq. reflexivity. }
  rewrite (parallel_copy zero plus (ll ++ lr) sched m m'); auto.
  - symmetry. apply copied_perm; auto. apply (gcanon_ok ns ng bounds opp n G).
  - eapply copy_ok_perm; [exact P|]. apply (gcanon_ok ns ng bounds opp n G).
Qed.
(** one process *)
Theorem local_guard_canon nattrs tab sched m m' : tab_is (ax_guard ng) ns bounds tab ->
  parallel zero plus (guard_tasks Ns tab nbr n nattrs) sched m = Some m' -> forall a, m' a = copied (gcanon nbr nattrs) m a.
Proof.
  intros T1 H a. set (ll := map (fun i => task_pairs Ns tab nbr (fst i) (snd i)) (iterations n nattrs)) in *.
  assert (E : guard_tasks Ns tab nbr n nattrs = map guard_ops ll) by (unfold guard_tasks, ll; now rewrite map_map). rewrite E in H.
  assert (P : Permutation (gcanon nbr nattrs) (concat ll)).
  { symmetry. apply (tasks_perm ns ng bounds opp n G (ax_guard ng) (P_guard ng) (guard_spec ng) nbr tab nattrs T1). }
  rewrite (parallel_copy zero plus ll sched m m'); auto.
  - symmetry. apply copied_perm; auto. apply (gcanon_ok ns ng bounds opp n G).
  - eapply copy_ok_perm; [exact P|]. apply (gcanon_ok ns ng bounds opp n G).
Qed.

(** ** currents *)
Lemma task_dst tab nbr' f p d : tab_is (ax_currents ng) ns bounds tab -> In d (map fst (task_pairs Ns tab nbr' f p)) -> exists o, d = Fld f p o.
Proof.
  intros T H. apply in_map_iff in H as ([d' s] & E & H). cbn in E. subst d'. unfold task_pairs in H. apply in_flat_map in H as (r & _ & H). destruct (nbr' p (fst r)); [|contradiction].
  unfold side_pairs in H. apply in_map_iff in H as (k & E & _). inversion E. eauto.
Qed.
Theorem local_current_canon nbr' tab sched m m' : nbr_symmetric n nb opp nbr' -> tab_is (ax_currents ng) ns bounds tab ->
  parallel zero plus (current_tasks Ns tab nbr' n) sched m = Some m' -> forall a, m' a = accumulated zero plus (ccanon nbr' 4) m a.
Proof.
  intros Sy T1 H a. set (ll := map (fun i => task_pairs Ns tab nbr' (fst i) (snd i)) (iterations n 4)) in *.
  assert (E : current_tasks Ns tab nbr' n = map current_ops ll) by (unfold current_tasks, ll; now rewrite map_map). rewrite E in H.
  assert (P : Permutation (ccanon nbr' 4) (concat ll)).
  { symmetry. apply (tasks_perm ns ng bounds opp n G (ax_currents ng) (P_cur ng) (cur_spec ng) nbr' tab 4 T1). }
  rewrite (parallel_accumulate zero plus Hm ll sched m m'); auto.
  - symmetry. now apply accumulated_perm.
  - eapply pairs_ok_perm; [exact P|]. now apply (ccanon_ok ns ng bounds opp n G).
  - intros t u l k d Ht Hu Hl Hk. unfold ll in Ht, Hu. rewrite nth_error_map in Ht, Hu.
    destruct (nth_error (iterations n 4) t) as [i|] eqn:Et; [|discriminate]. destruct (nth_error (iterations n 4) u) as [j|] eqn:Eu; [|discriminate].
    cbn in Ht, Hu. inversion Ht; subst l. inversion Hu; subst k. apply task_dst in Hl as [o Ho]; auto. apply task_dst in Hk as [o' Ho']; auto.
    assert (i = j) by (destruct i, j; cbn in *; congruence). subst j.
    pose proof (iterations_NoDup n 4) as Nd. rewrite NoDup_nth_error in Nd. apply Nd; [eapply nth_lt; eauto|congruence].
Qed.

(** one message *)
Definition keys (cs : list Z) : list (nat * list Z) := flat_map (fun f => map (pair f) (block cs)) (seq 0 4).
Definition slot (cs : list Z) (k : nat * list Z) : Z := offset cs (snd k) + Z.of_nat (fst k) * volume cs.
Definition link (p b q : nat) : chain :=
  let row := map2 (ax_currents ng) ns (dir b) in
  let cs := cnt row in
  mkChain (map (fun k => (SBuf q (opp b) (slot cs k), Fld (fst k) q (index Ns (add (src row) (snd k))))) (keys cs))
          (map (fun o => (RBuf p b o, SBuf q (opp b) o)) (zseq (4 * volume cs)))
          (map (fun k => (Fld (fst k) p (index Ns (add (dst row) (snd k))), RBuf p b (slot cs k))) (keys cs))
          (map (fun k => (Fld (fst k) p (index Ns (add (dst row) (snd k))), Fld (fst k) q (index Ns (add (src row) (snd k))))) (keys cs)).
Lemma keys_map {B} cs (g : nat -> list Z -> B) : flat_map (fun f => map (g f) (block cs)) (seq 0 4) = map (fun k => g (fst k) (snd k)) (keys cs).
Proof. unfold keys. induction (seq 0 4) as [|f l IH]; [reflexivity|]. cbn [flat_map]. rewrite map_app, map_map, IH. reflexivity. Qed.
Lemma keys_in cs k : In k (keys cs) <-> (fst k < 4)%nat /\ In (snd k) (block cs).
Proof.
  unfold keys. rewrite in_flat_map. split.
  - intros (f & Hf & H). apply in_map_iff in H as (x & <- & Hx). apply in_seq in Hf. cbn. split; [lia|auto].
  - destruct k as [f x]. cbn [fst snd]. intros [Hf Hx]. exists f. split; [apply in_seq; lia|]. now apply in_map.
Qed.
Lemma keys_NoDup cs : NoDup (keys cs).
Proof.
  unfold keys. apply nodup_flat; [apply seq_NoDup| |].
  - intros f _. apply nodup_inj; [apply block_NoDup|]. intros; congruence.
  - intros f f' x _ _ H H'. apply in_map_iff in H as (? & <- & _). apply in_map_iff in H' as (? & E & _). congruence.
Qed.
Lemma slot_inj cs k k' : length cs = 2%nat \/ length cs = 3%nat -> In k (keys cs) -> In k' (keys cs) -> slot cs k = slot cs k' -> k = k'.
Proof.
  intros L Hk Hk' E. apply keys_in in Hk as [Hf Hx], Hk' as [Hf' Hx']. destruct (offset_ok cs L) as [O1 O2]. unfold slot in E. apply pair_inj in E; [|auto|auto].
  destruct k, k'; cbn in *. destruct E as [E1 E2]. f_equal; [lia|auto].
Qed.
Lemma slot_range cs k : length cs = 2%nat \/ length cs = 3%nat -> In k (keys cs) -> 0 <= slot cs k < 4 * volume cs.
Proof. intros L Hk. apply keys_in in Hk as [Hf Hx]. destruct (offset_ok cs L) as [O1 _]. apply O1 in Hx. unfold slot. nia. Qed.
Section Link.
Variables p b q : nat.
Hypothesis Hb : (b < nb)%nat.
Let row := map2 (ax_currents ng) ns (dir b).
Let cs := cnt row.
Lemma cs_dim : length cs = 2%nat \/ length cs = 3%nat.
Proof. unfold cs, row. rewrite cnt_length, map2_length. destruct (g_dirs _ _ _ _ G b Hb) as [E _]. rewrite E, Nat.min_id. apply (g_dim _ _ _ _ G). Qed.
Lemma row_cells k : In k (block cs) -> In (add (dst row) k) (region row) /\ add (src row) k = seen_from ns (dir b) (add (dst row) k).
Proof.
  intro Hk. split; [unfold region; now apply in_map|]. apply (region_src (ax_currents ng) (P_cur ng)).
  - apply (specs _ _ ng); [apply cur_spec|apply G|apply (g_dirs _ _ _ _ G); auto].
  - rewrite (block_length _ _ Hk). unfold cs, row. rewrite cnt_length, map2_length. destruct (g_dirs _ _ _ _ G b Hb). lia.
Qed.
Lemma src_inj k k' : In k (keys cs) -> In k' (keys cs) -> Fld (fst k) q (index Ns (add (src row) (snd k))) = Fld (fst k') q (index Ns (add (src row) (snd k'))) -> k = k'.
Proof.
  intros Hk Hk' E. apply keys_in in Hk as [Hf Hx], Hk' as [Hf' Hx']. destruct (row_cells _ Hx) as [R1 R2], (row_cells _ Hx') as [R1' R2'].
  pose proof (cur_HR ns ng bounds opp G b _ Hb R1) as [W1 W2]. pose proof (cur_HR ns ng bounds opp G b _ Hb R1') as [W1' W2'].
  rewrite R2, R2' in E. inversion E as [[E1 E2]]. apply (proj1 (g_index _ _ _ _ G)) in E2; auto.
  destruct k as [f x], k' as [f' x']. cbn [fst snd] in *. f_equal; auto. rewrite <- R2, <- R2' in E2.
  apply (add_inj (src row)); auto; rewrite (block_length cs) by auto; unfold cs; now rewrite cnt_length, src_length.
Qed.
Lemma link_ok : chain_ok (link p b q).
Proof.
  unfold chain_ok, link. cbn [c_pack c_move c_unpack c_direct]. fold row. fold cs. rewrite !map_map. cbn [fst snd]. pose proof cs_dim as L.
  assert (N1 : NoDup (map (fun k => SBuf q (opp b) (slot cs k)) (keys cs))).
  { apply nodup_inj; [apply keys_NoDup|]. intros k k' Hk Hk' E. inversion E. now apply (slot_inj cs). }
  assert (N2 : NoDup (map (fun k => Fld (fst k) q (index Ns (add (src row) (snd k)))) (keys cs))).
  { apply nodup_inj; [apply keys_NoDup|]. apply src_inj. }
  assert (D : forall d, In d (map (fun k => SBuf q (opp b) (slot cs k)) (keys cs)) -> ~ In d (map (fun k => Fld (fst k) q (index Ns (add (src row) (snd k)))) (keys cs))).
  { intros d H H'. apply in_map_iff in H as (k & <- & _). apply in_map_iff in H' as (k' & E & _). discriminate. }
  repeat split; try (rewrite !map_map; cbn [fst snd]); auto.
  - apply nodup_inj; [apply zseq_NoDup|]. intros; congruence.
  - intros d H H'. apply in_map_iff in H as (k & <- & _). apply in_map_iff in H' as (k' & E & _). discriminate.
  - apply in_map_iff in H as (k & E & _). inversion E. exact I.
  - apply in_map_iff in H as (k & E & _). inversion E. auto.
  - apply in_map_iff in H as (k & E & _). inversion E. exact I.
  - apply in_map_iff in H as (k & E & _). inversion E. exact I.
  - apply in_map_iff in H as (k & E & _). inversion E. auto.
  - apply in_map_iff in H as (k & E & _). inversion E. exact I.
  - intros d H H'. apply in_map_iff in H as (k & <- & _). apply in_map_iff in H' as (k' & E & _). discriminate.
  - apply incl_refl.
  - apply incl_refl.
  - exists (keys cs), (fun k => SBuf q (opp b) (slot cs k)), (fun k => Fld (fst k) p (index Ns (add (dst row) (snd k)))), (fun k => Fld (fst k) q (index Ns (add (src row) (snd k)))), (fun k => RBuf p b (slot cs k)).
    repeat split; auto.
    + apply in_map_iff. exists (slot cs k). split; auto. apply zseq_in. now apply slot_range.
    + apply in_map_iff. exists k. auto.
Qed.
Lemma link_direct : aw p b = Some q -> c_direct (link p b q) = flat_map (fun f => cside aw f p b) (seq 0 4).
Proof.
  intro E. unfold link. cbn [c_direct]. fold row. fold cs.
  rewrite <- (keys_map cs (fun f k => (Fld f p (index Ns (add (dst row) k)), Fld f q (index Ns (add (src row) k))))). apply flat_map_ext'. intros f _.
  unfold side. rewrite E. unfold region. fold row. rewrite map_map. fold cs. apply map_ext_in. intros k Hk. unfold S_FieldSync.cell. destruct (row_cells k Hk) as [_ R]. now rewrite R.
Qed.
Lemma link_buffers a : chain_owns (link p b q) a -> buffer a -> (exists o, a = SBuf q (opp b) o) \/ (exists o, a = RBuf p b o).
Proof.
  unfold chain_owns, link. cbn [c_pack c_move c_unpack]. rewrite !map_map. cbn [fst snd]. intros H Hbuf.
  destruct H as [H|[H|[H|[H|H]]]]; apply in_map_iff in H as (k & <- & _); eauto; contradiction.
Qed.
End Link.
Lemma chain_is tab p b q i : tab_is (ax_mpi ng) ns bounds tab -> (b < nb)%nat -> forall tag,
  current_chain ns ng tab (recv_of opp rank tag p b q i) (send_of rank tag q (opp b) p i) = chain_ops (link p b q).
Proof.
  intros T Hb tag. unfold current_chain, chain_ops, link. cbn [m_side m_patch recv_of send_of c_pack c_move c_unpack].
  destruct (g_opp _ _ _ _ G b Hb) as (O1 & O2 & O3). rewrite (row_of_is _ _ _ _ b T Hb), (row_of_is _ _ _ _ (opp b) T O2), O1.
  destruct (mpi_rows ng ns (dir b) (g_dirs _ _ _ _ G b Hb)) as (C1 & C2 & C3 & C4). unfold pack_pairs, transfer_pairs, unpack_pairs. rewrite C1, C2, C3, C4.
  set (row := map2 (ax_currents ng) ns (dir b)).
  rewrite (keys_map (cnt row) (fun f k => (SBuf q (opp b) (offset (cnt row) k + Z.of_nat f * volume (cnt row)), Fld f q (index Ns (add (src row) k))))).
  rewrite (keys_map (cnt row) (fun f k => (Fld f p (index Ns (add (dst row) k)), RBuf p b (offset (cnt row) k + Z.of_nat f * volume (cnt row))))). reflexivity.
Qed.
Definition link_of (r : msg) : chain := link (m_patch r) (m_side r) (match aw (m_patch r) (m_side r) with Some q => q | None => 0%nat end).
Notation crecvs := (recvs n nb 1 opp nbr rank (tag_currents (Z.of_nat nb))).
Lemma current_transfers_eq tab : tab_is (ax_mpi ng) ns bounds tab -> current_transfers ns ng n nb opp nbr rank tab = Some (map chain_ops (map link_of crecvs)).
Proof.
  intro T. unfold current_transfers. rewrite map_map. apply sequence_map. intros r Hr. apply recvs_in in Hr as (p & b & q & i & Hp & Hb & E & Hi & ->).
  rewrite (sender_is n nb 1 opp nbr rank _ Sym (tags_currents nb) p b q i); auto. rewrite chain_is by auto. unfold link_of. cbn [m_patch m_side recv_of]. now rewrite E.
Qed.
Theorem current_exchange_canon tab mtab s1 s2 m m' : tab_is (ax_currents ng) ns bounds tab -> tab_is (ax_mpi ng) ns bounds mtab ->
  current_exchange ns ng n nb opp nbr rank zero plus tab mtab s1 s2 m = Some m' -> forall a, ~ buffer a -> m' a = accumulated zero plus (ccanon nbr 4) m a.
Proof.
  intros T1 T2 H a Ha. unfold current_exchange in H. destruct (parallel zero plus (current_tasks Ns tab hr n) s1 m) as [m1|] eqn:E1; [|discriminate].
  rewrite (current_transfers_eq mtab T2) in H.
  pose proof (local_current_canon hr tab s1 m m1 (here_sym n nb opp nbr rank Sym) T1 E1) as M1.
  assert (P : Permutation (flat_map c_direct (map link_of crecvs)) (ccanon aw 4)).
  { rewrite flat_map_map'. unfold recvs. rewrite (posts_flat 1 _ _ (fun p b i => match aw p b with Some q => c_direct (link p b q) | None => [] end)).
    - unfold canon, canon1. etransitivity; [|apply (flat_map_swap (fun p f => flat_map (cside aw f p) (seq 0 nb)))]. apply flat_map_perm_ext. intros p _.
      etransitivity; [|apply (flat_map_swap (fun b f => cside aw f p b))]. apply perm_eq. apply flat_map_ext'. intros b Hb. apply in_seq in Hb.
      cbn [seq flat_map]. rewrite app_nil_r. destruct (aw p b) as [q|] eqn:E.
      + rewrite link_direct; [reflexivity|lia|auto].
      + symmetry. unfold side. rewrite E. reflexivity.
    - intros p b q i _ _ E. unfold link_of. cbn [m_patch m_side]. now rewrite E.
    - intros p b i E. now rewrite E. }
  assert (Aok : pairs_ok (ccanon aw 4)) by (apply (ccanon_ok ns ng bounds opp n G); apply away_sym; auto).
  rewrite (parallel_chains zero plus Hm (map link_of crecvs) s2 m1 m'); auto.
  - rewrite (accumulated_perm zero plus Hm _ _ m1 a P). transitivity (accumulated zero plus (ccanon aw 4) (accumulated zero plus (ccanon hr 4) m) a).
    + unfold accumulated at 1 2. destruct (existsb _ (ccanon aw 4)); auto. rewrite M1. f_equal. f_equal. apply vals_ext. intros d s _. apply M1.
    + rewrite (accumulated_twice zero plus Hm).
      * symmetry. apply (accumulated_perm zero plus Hm). apply canon_split.
      * eapply pairs_ok_perm; [apply canon_split|]. now apply (ccanon_ok ns ng bounds opp n G).
  - intros c Hc. apply in_map_iff in Hc as (r & <- & Hr). apply recvs_in in Hr as (p & b & q & i & Hp & Hb & E & Hi & ->). unfold link_of. cbn [m_patch m_side recv_of]. now apply link_ok.
  - eapply pairs_ok_perm; [symmetry; exact P|auto].
  - intros t u c c' x Ht Hu Hbx Ho Ho'. rewrite nth_error_map in Ht, Hu.
    destruct (nth_error crecvs t) as [r|] eqn:Et; [|discriminate]. destruct (nth_error crecvs u) as [r'|] eqn:Eu; [|discriminate]. cbn in Ht, Hu. inversion Ht; subst c. inversion Hu; subst c'.
    assert (r = r').
    { pose proof (nth_error_In _ _ Et) as Hr. pose proof (nth_error_In _ _ Eu) as Hr'. apply recvs_in in Hr as (p & b & q & i & Hp & Hb & E & Hi & ->). apply recvs_in in Hr' as (p' & b' & q' & i' & Hp' & Hb' & E' & Hi' & ->).
      unfold link_of in Ho, Ho'. cbn [m_patch m_side recv_of] in Ho, Ho'. rewrite E in Ho. rewrite E' in Ho'. assert (i = 0%nat) by lia. assert (i' = 0%nat) by lia. subst i i'.
      apply link_buffers in Ho; auto. apply link_buffers in Ho'; auto. destruct Ho as [[o Ho]|[o Ho]], Ho' as [[o' Ho']|[o' Ho']]; rewrite Ho in Ho'; try discriminate; inversion Ho'; subst.
      - destruct (away_sym n nb opp nbr rank Sym p b q' Hp Hb E) as (_ & _ & O1 & A1). destruct (away_sym n nb opp nbr rank Sym p' b' q' Hp' Hb' E') as (_ & _ & O2 & A2).
        assert (b = b') by congruence. subst b'. assert (p = p') by congruence. subst p'. reflexivity.
      - assert (q = q') by congruence. subst. reflexivity. }
    subst r'. pose proof (recvs_NoDup n nb 1 opp nbr rank (tag_currents (Z.of_nat nb))) as Nd. rewrite NoDup_nth_error in Nd. apply Nd; [eapply nth_lt; eauto|congruence].
Qed.
End Remote.
