(** Proofs about the 3D bucket sort: it is the 2D one with rows of ny*nz buckets, except for the bucket numbers. *)
From Coq Require Import Sorted.
From Verif Require Import Base M_Sort2D M_Sort3D S_Sort2D S_Sort3D P_Sort2D.

Lemma clamp_max (X i : Z) : (0 < X)%Z -> (if i <? 0 then 0 else if X <=? i then X - 1 else i)%Z = Z.max 0 (Z.min (X - 1) i).
Proof. intro H. destruct (i <? 0)%Z eqn:?; [lia|]. destruct (X <=? i)%Z eqn:?; lia. Qed.

Lemma cell_bound (X Y Zn jx jy jz : Z) : (0 <= jx < X -> 0 <= jy < Y -> 0 <= jz < Zn ->
  0 <= jz + (jy + jx * Y) * Zn < X * Y * Zn)%Z.
Proof.
  intros H1 H2 H3. assert (0 <= jy + jx * Y)%Z by nia. assert (jy + jx * Y + 1 <= X * Y)%Z by nia. split; nia.
Qed.
Lemma bucket_key3_home nx ny nz r ix iy iz : 0 < nx -> 0 < ny -> 0 < nz ->
  forall b, home3 nx ny nz r ix iy iz b <-> bucket_key3 nx ny nz r ix iy iz = b.
Proof.
  intros Hx Hy Hz.
  assert (H1 : home3 nx ny nz r ix iy iz (bucket_key3 nx ny nz r ix iy iz)).
  { unfold home3, bucket_key3. cbv zeta.
    set (X := Z.of_nat nx). set (Y := Z.of_nat ny). set (W := Z.of_nat nz).
    assert (HX : (0 < X)%Z) by lia. assert (HY : (0 < Y)%Z) by lia. assert (HW : (0 < W)%Z) by lia.
    destruct r.
    - rewrite !clamp_max by assumption.
      set (jx := Z.max 0 (Z.min (X - 1) ix)). set (jy := Z.max 0 (Z.min (Y - 1) iy)). set (jz := Z.max 0 (Z.min (W - 1) iz)).
      pose proof (cell_bound X Y W (X - 1 - jx) jy jz ltac:(lia) ltac:(lia) ltac:(lia)) as B.
      replace (jz + jy * W + (X - 1 - jx) * Y * W)%Z with (jz + (jy + (X - 1 - jx) * Y) * W)%Z by ring.
      rewrite Z2Nat.id by lia.
      destruct (Z_lt_dec ix X); destruct (Z_le_dec 0 ix); destruct (Z_lt_dec iy Y); destruct (Z_le_dec 0 iy);
        destruct (Z_lt_dec iz W); destruct (Z_le_dec 0 iz);
        try (right; right; split; [lia|split; [reflexivity|]]; exists jx, jy, jz; repeat split; reflexivity).
      left. split; [lia|]. replace jx with ix by lia. replace jy with iy by lia. replace jz with iz by lia. reflexivity.
    - destruct (_ && _) eqn:E.
      + left. assert (Hi : (0 <= ix < X /\ 0 <= iy < Y /\ 0 <= iz < W)%Z) by lia. split; [exact Hi|].
        pose proof (cell_bound X Y W ix iy iz ltac:(lia) ltac:(lia) ltac:(lia)) as B.
        replace (iz + iy * W + ix * Y * W)%Z with (iz + (iy + ix * Y) * W)%Z by ring.
        rewrite Z2Nat.id; lia.
      + right; left. split; [lia|split; [reflexivity|]].
        assert (0 < nx * ny * nz) by (repeat apply Nat.mul_pos_pos; auto). unfold X, Y, W. lia. }
  intro b; split; [|intros <-; exact H1].
  unfold home3 in *. intro H2. cbv zeta in *.
  destruct H1 as [(A1&A2)|[(A1&A2&A3)|(A1&A2&jx&jy&jz&A3&A4&A5&A6)]];
  destruct H2 as [(B1&B2)|[(B1&B2&B3)|(B1&B2&kx&ky&kz&B3&B4&B5&B6)]]; try (exfalso; tauto); try congruence.
  - rewrite <- A2 in B2. lia.
  - lia.
  - subst jx jy jz kx ky kz. rewrite <- A6 in B6. lia.
Qed.
Lemma bucket_key3_lt nx ny nz r ix iy iz : 0 < nx -> 0 < ny -> 0 < nz -> bucket_key3 nx ny nz r ix iy iz < nx * (ny * nz).
Proof.
  intros Hx Hy Hz. pose proof (proj2 (bucket_key3_home nx ny nz r ix iy iz Hx Hy Hz _) eq_refl) as H.
  assert (G : (Z.of_nat (bucket_key3 nx ny nz r ix iy iz) < Z.of_nat nx * Z.of_nat ny * Z.of_nat nz)%Z); [|lia].
  unfold home3 in H. cbv zeta in H. destruct H as [(A1&A2)|[(A1&A2&A3)|(A1&A2&jx&jy&jz&A3&A4&A5&A6)]].
  - rewrite A2. apply cell_bound; [destruct r; lia|lia|lia].
  - lia.
  - rewrite A6. apply cell_bound; lia.
Qed.

Lemma calc_keys3_length nx ny nz r ic ps : length (calc_keys3 nx ny nz r ic ps) = length ps.
Proof. revert ic; induction ps as [|[dd [[a b] c]] ps IH]; intros ic; simpl; auto. Qed.
Lemma calc_keys3_lt nx ny nz r ic ps :
  0 < nx -> 0 < ny -> 0 < nz -> ic < nx * (ny * nz) -> forall k, In k (calc_keys3 nx ny nz r ic ps) -> k < nx * (ny * nz).
Proof.
  intros Hx Hy Hz. revert ic; induction ps as [|[dd [[a b] c]] ps IH]; intros ic Hic k Hk; simpl in Hk; [easy|].
  assert (Hc : (if dd then ic else bucket_key3 nx ny nz r a b c) < nx * (ny * nz))
    by (destruct dd; auto using bucket_key3_lt).
  destruct Hk as [<-|Hk]; eauto.
Qed.
Definition key_at nx ny nz r (p : bool * (Z * Z * Z)) : nat :=
  bucket_key3 nx ny nz r (fst (fst (snd p))) (snd (fst (snd p))) (snd (snd p)).
Lemma calc_keys3_alive nx ny nz r ic ps i dd :
  i < length ps -> fst (nth i ps dd) = false ->
  nth i (calc_keys3 nx ny nz r ic ps) 0 = key_at nx ny nz r (nth i ps dd).
Proof.
  revert ic i; induction ps as [|[de [[a b] c]] ps IH]; intros ic [|i] Hi Hd; simpl in *; try lia.
  - now rewrite Hd.
  - apply IH; auto; lia.
Qed.
Lemma calc_keys3_sorted nx ny nz r ps ic :
  (forall i, i < length ps -> fst (nth i ps (true,(0,0,0)%Z)) = false -> ic <= key_at nx ny nz r (nth i ps (true,(0,0,0)%Z))) ->
  (forall i j, i < j < length ps -> fst (nth i ps (true,(0,0,0)%Z)) = false ->
     fst (nth j ps (true,(0,0,0)%Z)) = false ->
     key_at nx ny nz r (nth i ps (true,(0,0,0)%Z)) <= key_at nx ny nz r (nth j ps (true,(0,0,0)%Z))) ->
  StronglySorted le (ic :: calc_keys3 nx ny nz r ic ps).
Proof.
  revert ic; induction ps as [|[de [[a b] c]] ps IH]; intros ic H1 H2.
  - constructor; constructor.
  - cbn [calc_keys3]. set (k := if de then ic else bucket_key3 nx ny nz r a b c).
    assert (Hk : ic <= k).
    { unfold k. destruct de; auto. specialize (H1 0). cbn in H1. apply H1; auto; lia. }
    assert (HS : StronglySorted le (k :: calc_keys3 nx ny nz r k ps)).
    { apply IH.
      - intros i Hi Hd. unfold k. destruct de.
        + specialize (H1 (S i)). cbn in H1. apply H1; auto; lia.
        + specialize (H2 0 (S i)). cbn in H2. apply H2; auto; lia.
      - intros i j Hij Hd1 Hd2. specialize (H2 (S i) (S j)). cbn in H2. apply H2; auto; lia. }
    constructor; auto. constructor; auto.
    apply StronglySorted_inv in HS. destruct HS as [_ HF].
    eapply Forall_impl; [|exact HF]. cbn; lia.
Qed.

Lemma ref_keys3_eq nx ny nz counts : ref_keys3 nx ny nz counts = ref_keys nx (ny * nz) counts.
Proof.
  unfold ref_keys3, ref_keys. rewrite !flat_map_concat_map. f_equal. apply map_ext. intro ix.
  assert (G : forall (f : nat -> list nat) o k, flat_map (fun iy => flat_map (fun iz => f (iz + iy * nz + o)) (seq 0 nz)) (seq 0 k)
              = flat_map (fun i => f (i + o)) (seq 0 (k * nz))).
  { intros f o k. induction k as [|k IH]; [reflexivity|].
    rewrite seq_S, flat_map_app, IH. cbn [flat_map Nat.add]. rewrite app_nil_r.
    replace (S k * nz) with (k * nz + nz) by lia. rewrite seq_app, flat_map_app. f_equal. cbn [Nat.add].
    generalize (k * nz) as q. intro q. replace (seq q nz) with (map (fun i => i + q) (seq 0 nz)).
    - rewrite !flat_map_concat_map, map_map. reflexivity.
    - clear. revert q; induction nz as [|n IH]; intros q; [reflexivity|].
      rewrite !seq_S, map_app, IH. cbn. now rewrite (Nat.add_comm n q). }
  specialize (G (fun b => repeat b (nth b counts 0)) (ix * (ny * nz)) ny). cbv zeta beta in *.
  rewrite Nat.mul_assoc in *. exact G.
Qed.

Definition sort_patch_alt {V} (d : V) (nx m : nat) (keys : list nat) (buf : list V) (dbuf : list bool) (s : store V) : sorted V :=
  let counts := count_keys (nx * m) keys in
  let '(n, (c', d')) := bucket_sort d nx m counts keys buf dbuf (cols s) (dead s) in
  mkSorted n (mkStore c' d') (bound_min counts) (bound_max counts).
Lemma sort_patch3_alt {V} (d : V) fx fy fz kx ky kz nx ny nz reverse buf dbuf s :
  sort_patch3 d fx fy fz kx ky kz nx ny nz reverse buf dbuf s
  = sort_patch_alt d nx (ny * nz) (calc_keys3 nx ny nz reverse 0 (slots_of3 d fx fy fz kx ky kz s)) buf dbuf s.
Proof.
  unfold sort_patch3, sort_patch_alt, bucket_sort3, bucket_sort. rewrite !ref_keys3_eq.
  now rewrite <- !Nat.mul_assoc.
Qed.

Section Patch.
Context {V : Type} (d : V) (fx fy fz : V -> Z) (kx ky kz nx ny nz : nat) (reverse : bool).
Variables (buf : list V) (dbuf : list bool) (s : store V).
Let n := length (dead s).
Let keys := calc_keys3 nx ny nz reverse 0 (slots_of3 d fx fy fz kx ky kz s).
Let counts := count_keys (nx * (ny * nz)) keys.
Let refs := ref_keys nx (ny * nz) counts.
Let R := sort_patch3 d fx fy fz kx ky kz nx ny nz reverse buf dbuf s.
Hypothesis Hx : 0 < nx.
Hypothesis Hy : 0 < ny.
Hypothesis Hz : 0 < nz.
Hypothesis Hr : rect s.
Hypothesis Hbuf : n <= length buf.
Hypothesis Hdbuf : n <= length dbuf.

Lemma slots_length : length (slots_of3 d fx fy fz kx ky kz s) = n.
Proof. unfold slots_of3. now rewrite map_length, seq_length. Qed.
Lemma keys_length : length keys = n.
Proof. unfold keys. rewrite calc_keys3_length. apply slots_length. Qed.
Lemma keys_lt : forall k, In k keys -> k < nx * (ny * nz).
Proof. apply calc_keys3_lt; auto. repeat apply Nat.mul_pos_pos; auto. Qed.

Lemma sort_patch3_eq :
  s_store R = mkStore (map (fun c => map (fun i => nth i c d) (sort_perm nx (ny * nz) n keys)) (cols s))
                      (map (fun i => nth i (dead s) false) (sort_perm nx (ny * nz) n keys))
  /\ s_nbuf R = length (targets keys refs n)
  /\ s_min R = bound_min counts /\ s_max R = bound_max counts.
Proof.
  unfold R; rewrite !sort_patch3_alt; unfold sort_patch_alt, bucket_sort. fold keys. fold counts. fold refs. fold n.
  assert (HT : length (targets keys refs n) <= n).
  { unfold targets. rewrite <- (seq_length n 0) at 2. apply countb_le. }
  destruct (Nat.eqb_spec (length (targets keys refs n)) 0) as [E|E]; cbn [s_store s_nbuf s_min s_max];
    (split; [|split; [auto|split; reflexivity]]).
  - pose proof (sort_perm_id nx (ny * nz) n keys E) as ->. 
    rewrite (map_nth_seq' (dead s)) by reflexivity. f_equal.
    rewrite <- (map_id (cols s)) at 1. apply map_ext_in. intros c Hc.
    symmetry. apply map_nth_seq'. now apply Hr.
  - f_equal.
    + apply map_ext_in. intros c Hc. apply sort_col_spec; auto using keys_length, keys_lt.
      fold counts; fold refs. lia.
    + apply sort_col_spec; auto using keys_length, keys_lt.
      fold counts; fold refs. lia.
Qed.

End Patch.


(*====*)
Section Final.
Context {V : Type} (d : V) (fx fy fz : V -> Z) (kx ky kz nx ny nz : nat) (reverse : bool).
Variables (buf : list V) (dbuf : list bool) (s : store V).
Let n := length (dead s).
Let keys := calc_keys3 nx ny nz reverse 0 (slots_of3 d fx fy fz kx ky kz s).
Let counts := count_keys (nx * (ny * nz)) keys.
Let refs := ref_keys nx (ny * nz) counts.
Let R := sort_patch3 d fx fy fz kx ky kz nx ny nz reverse buf dbuf s.
Let sg := sort_perm nx (ny * nz) n keys.
Hypothesis Hx : 0 < nx.
Hypothesis Hy : 0 < ny.
Hypothesis Hz : 0 < nz.
Hypothesis Hr : rectangular s.
Hypothesis Hbuf : n <= length buf.
Hypothesis Hdbuf : n <= length dbuf.
Hypothesis Hkx : kx < length (cols s).
Hypothesis Hky : ky < length (cols s).
Hypothesis Hkz : kz < length (cols s).

Let KL : length keys = n := keys_length d fx fy fz kx ky kz nx ny nz reverse s.
Let KB : forall k, In k keys -> k < nx * (ny * nz) := keys_lt d fx fy fz kx ky kz nx ny nz reverse s Hx Hy Hz.
Let EQ := sort_patch3_eq d fx fy fz kx ky kz nx ny nz reverse buf dbuf s Hx Hy Hz Hr Hbuf Hdbuf.

Lemma fin_dead : length (dead (s_store R)) = n.
Proof. destruct EQ as (E & _). unfold R. rewrite E. cbn [dead]. now rewrite map_length, sort_perm_length. Qed.

Lemma fin_cols : length (cols (s_store R)) = length (cols s).
Proof. destruct EQ as (E & _). unfold R. rewrite E. cbn [cols]. now rewrite map_length. Qed.

Lemma fin_rect : rectangular (s_store R).
Proof.
  intros c Hc. rewrite fin_dead. destruct EQ as (E & _). unfold R in Hc. rewrite E in Hc. cbn [cols] in Hc.
  apply in_map_iff in Hc. destruct Hc as (c0 & <- & _). now rewrite map_length, sort_perm_length.
Qed.

Lemma sg_lt i : i < n -> nth i sg 0 < n.
Proof. intro Hi. apply sort_perm_lt; auto. Qed.

Lemma fin_dead_nth i dd : i < n -> nth i (dead (s_store R)) dd = nth (nth i sg 0) (dead s) dd.
Proof.
  intro Hi. destruct EQ as (E & _). unfold R. rewrite E. cbn [dead]. fold keys n sg.
  rewrite (nth_map _ _ _ 0) by (unfold sg; now rewrite sort_perm_length).
  apply nth_indep. apply sg_lt; auto.
Qed.

Lemma fin_col_nth k i : i < n -> k < length (cols s) ->
  nth i (nth k (cols (s_store R)) []) d = nth (nth i sg 0) (nth k (cols s) []) d.
Proof.
  intros Hi Hk. destruct EQ as (E & _). unfold R. rewrite E. cbn [cols]. fold keys n sg.
  rewrite (nth_map _ _ _ []) by auto.
  now rewrite (nth_map _ _ _ 0) by (unfold sg; now rewrite sort_perm_length).
Qed.

Lemma fin_row i : i < n -> row d (s_store R) i = row d s (nth i sg 0).
Proof.
  intro Hi. unfold row. rewrite fin_dead_nth by auto. f_equal.
  destruct EQ as (E & _). unfold R. rewrite E. cbn [cols]. fold keys n sg. rewrite map_map.
  apply map_ext. intro c.
  now rewrite (nth_map _ _ _ 0) by (unfold sg; now rewrite sort_perm_length).
Qed.

Lemma sort_permutes_rows :
  Permutation (rows d (s_store R)) (rows d s) /\ rectangular (s_store R) /\
  length (cols (s_store R)) = length (cols s).
Proof.
  split; [|split; [apply fin_rect|apply fin_cols]].
  unfold rows. rewrite fin_dead.
  transitivity (map (row d s) (map (fun i => nth i sg 0) (seq 0 n))).
  - rewrite map_map. apply Permutation_refl'. apply map_ext_in. intros i Hi. apply in_seq in Hi.
    apply fin_row; lia.
  - apply Permutation_map. unfold sg.
    rewrite map_nth_seq' by apply sort_perm_length. now apply sort_perm_perm.
Qed.

Lemma key_alive i : alive_at s i ->
  nth i keys 0 = bucket_key3 nx ny nz reverse (cell_x d fx kx s i) (cell_y d fy ky s i) (cell_z d fz kz s i).
Proof.
  intros [Hi Hd]. unfold keys.
  assert (E : nth i (slots_of3 d fx fy fz kx ky kz s) (true,(0,0,0)%Z) = (nth i (dead s) true, (cell_x d fx kx s i, cell_y d fy ky s i, cell_z d fz kz s i))).
  { unfold slots_of3. rewrite (nth_map _ _ _ 0) by (now rewrite seq_length). now rewrite seq_nth. }
  rewrite (calc_keys3_alive _ _ _ _ _ _ _ (true,(0,0,0)%Z)).
  - now rewrite E.
  - now rewrite slots_length.
  - rewrite E. exact Hd.
Qed.

Lemma fin_cells i : i < n ->
  cell_x d fx kx (s_store R) i = cell_x d fx kx s (nth i sg 0) /\
  cell_y d fy ky (s_store R) i = cell_y d fy ky s (nth i sg 0) /\
  cell_z d fz kz (s_store R) i = cell_z d fz kz s (nth i sg 0).
Proof. intro Hi. unfold cell_x, cell_y, cell_z. now rewrite !fin_col_nth. Qed.

Lemma fin_alive_ref i : alive_at (s_store R) i ->
  i < n /\ bucket_key3 nx ny nz reverse (cell_x d fx kx (s_store R) i) (cell_y d fy ky (s_store R) i) (cell_z d fz kz (s_store R) i) = nth i refs 0.
Proof.
  intros [Hi Hd]. rewrite fin_dead in Hi. split; auto.
  destruct (fin_cells i Hi) as (-> & -> & ->). rewrite fin_dead_nth in Hd by auto.
  rewrite <- key_alive by (split; auto; now apply sg_lt).
  apply sort_perm_key; auto.
Qed.

Lemma counts_sum : sumn counts = n.
Proof. apply counts_total; auto. Qed.

Lemma min_max_eq : s_min R = bound_min counts /\ s_max R = bound_max counts.
Proof. destruct EQ as (_ & _ & A & B). split; [exact A|exact B]. Qed.

(** C02: the published slices are exactly the buckets. *)
Lemma sort_slices i b :
  alive_at (s_store R) i -> b < nx * (ny * nz) ->
  (nth b (s_min R) 0 <= i < nth b (s_max R) 0 <->
   home3 nx ny nz reverse (cell_x d fx kx (s_store R) i) (cell_y d fy ky (s_store R) i) (cell_z d fz kz (s_store R) i) b).
Proof.
  intros Ha Hb. destruct (fin_alive_ref i Ha) as [Hi E].
  rewrite bucket_key3_home, E by auto. destruct min_max_eq as [-> ->].
  symmetry. unfold refs. apply ref_slot; auto.
  - apply count_keys_length.
  - now rewrite counts_sum.
Qed.

Lemma sort_slices_tile :
  length (s_min R) = nx * (ny * nz) /\ length (s_max R) = nx * (ny * nz) /\
  nth 0 (s_min R) 0 = 0 /\
  (forall b, S b < nx * (ny * nz) -> nth b (s_max R) 0 = nth (S b) (s_min R) 0) /\
  nth (nx * (ny * nz) - 1) (s_max R) 0 = n /\
  (forall b, b < nx * (ny * nz) -> nth b (s_min R) 0 <= nth b (s_max R) 0).
Proof.
  destruct min_max_eq as [-> ->].
  assert (Hc : length counts = nx * (ny * nz)) by apply count_keys_length.
  assert (Hp : 0 < nx * (ny * nz)) by (repeat apply Nat.mul_pos_pos; auto).
  repeat split.
  - unfold bound_min. now rewrite prefix_length.
  - unfold bound_max. rewrite app_length. cbn [length].
    assert (length (bound_min counts) = nx * (ny * nz)) by (unfold bound_min; now rewrite prefix_length).
    destruct (bound_min counts); simpl in *; lia.
  - rewrite bound_min_nth by lia. reflexivity.
  - intros b Hb. rewrite bound_max_nth, bound_min_nth by lia. reflexivity.
  - rewrite bound_max_nth by lia. rewrite firstn_all2 by lia. apply counts_sum.
  - intros b Hb. rewrite bound_min_nth, bound_max_nth, sum_firstn_snoc by lia. lia.
Qed.

(** C03: who is in the right slice does not move. *)
Lemma sort_keeps_placed i b :
  alive_at s i -> b < nx * (ny * nz) ->
  home3 nx ny nz reverse (cell_x d fx kx s i) (cell_y d fy ky s i) (cell_z d fz kz s i) b ->
  nth b (s_min R) 0 <= i < nth b (s_max R) 0 ->
  row d (s_store R) i = row d s i.
Proof.
  intros Ha Hb Hh Hs. rewrite bucket_key3_home in Hh by auto.
  destruct min_max_eq as [E1 E2]. rewrite E1, E2 in Hs.
  assert (Hi : i < n) by apply Ha.
  assert (Hs' : nth i (ref_keys nx (ny * nz) counts) 0 = b).
  { apply ref_slot; auto; [apply count_keys_length|now rewrite counts_sum]. }
  rewrite fin_row by auto. f_equal. apply sort_perm_fixed; auto.
  rewrite key_alive, Hh by auto. symmetry. exact Hs'.
Qed.

(** the returned number bounds the number of changed slots, and zero means "nothing touched" *)
Lemma sort_count_moved :
  (forall l, NoDup l -> (forall i, In i l -> i < n /\ row d (s_store R) i <> row d s i) ->
     length l <= s_nbuf R) /\
  s_nbuf R <= n /\ (s_nbuf R = 0 -> s_store R = s).
Proof.
  destruct EQ as (E & E2 & _). fold R in E2. fold keys in E2. fold counts in E2. fold refs in E2. fold n in E2.
  repeat split.
  - intros l Hnd Hl. rewrite E2. apply NoDup_incl_length; auto.
    intros i Hi. destruct (Hl i Hi) as [Hin Hne]. apply (T_in nx (ny * nz) n keys KL KB). split; auto.
    intro Heq. apply Hne. rewrite fin_row by auto. f_equal. apply sort_perm_fixed; auto.
  - rewrite E2. unfold targets. rewrite <- (seq_length n 0) at 2. apply countb_le.
  - intro H0. unfold R in H0 |- *. rewrite sort_patch3_alt in H0 |- *. unfold sort_patch_alt, bucket_sort in H0 |- *.
    fold keys in H0 |- *. fold counts in H0 |- *.
    fold refs in H0 |- *. fold n in H0 |- *.
    destruct (Nat.eqb_spec (length (targets keys refs n)) 0) as [Z0|Z0]; cbn [s_store s_nbuf] in *.
    + destruct s; reflexivity.
    + lia.
Qed.

(** sorted input is left untouched *)
Lemma sort_noop :
  (forall i j bi bj, i < j -> alive_at s i -> alive_at s j ->
     home3 nx ny nz reverse (cell_x d fx kx s i) (cell_y d fy ky s i) (cell_z d fz kz s i) bi ->
     home3 nx ny nz reverse (cell_x d fx kx s j) (cell_y d fy ky s j) (cell_z d fz kz s j) bj -> bi <= bj) ->
  s_nbuf R = 0 /\ s_store R = s.
Proof.
  intro Hs.
  assert (HS : StronglySorted le keys).
  { assert (H0 : StronglySorted le (0 :: keys)).
    { assert (Hsl : forall i, i < n -> nth i (slots_of3 d fx fy fz kx ky kz s) (true,(0,0,0)%Z) = (nth i (dead s) true, (cell_x d fx kx s i, cell_y d fy ky s i, cell_z d fz kz s i))).
      { intros i Hi. unfold slots_of3. rewrite (nth_map _ _ _ 0) by (now rewrite seq_length). now rewrite seq_nth. }
      apply calc_keys3_sorted; rewrite slots_length; fold n.
      - intros; lia.
      - intros i j Hij. rewrite !Hsl by lia. cbn [fst snd]. intros D1 D2.
        apply (Hs i j); try (split; auto; unfold n in *; lia); try lia;
          now apply bucket_key3_home. }
    apply StronglySorted_inv in H0. tauto. }
  assert (HR : refs = keys).
  { rewrite (sorted_flat keys (nx * (ny * nz)) HS KB). unfold refs. rewrite ref_keys_flat.
    rewrite !flat_map_concat_map. f_equal. apply map_ext_in. intros b Hb. apply in_seq in Hb.
    unfold counts. rewrite count_keys_nth by lia. reflexivity. }
  assert (HN : s_nbuf R = 0).
  { destruct EQ as (_ & E2 & _). fold R in E2. fold keys in E2. fold counts in E2. fold refs in E2.
    rewrite E2, HR. unfold targets. apply countb_false. intros a _. now rewrite Nat.eqb_refl. }
  split; auto. now apply sort_count_moved.
Qed.
End Final.

(** sorting twice = sorting once *)
Lemma sort_idempotent {V} (d : V) fx fy fz kx ky kz nx ny nz reverse buf dbuf buf2 dbuf2 (s : store V) :
  0 < nx -> 0 < ny -> 0 < nz -> rectangular s ->
  length (dead s) <= length buf -> length (dead s) <= length dbuf ->
  length (dead s) <= length buf2 -> length (dead s) <= length dbuf2 ->
  kx < length (cols s) -> ky < length (cols s) -> kz < length (cols s) ->
  let R := sort_patch3 d fx fy fz kx ky kz nx ny nz reverse buf dbuf s in
  let R2 := sort_patch3 d fx fy fz kx ky kz nx ny nz reverse buf2 dbuf2 (s_store R) in
  s_nbuf R2 = 0 /\ s_store R2 = s_store R.
Proof.
  intros Hx Hy Hz Hr Hb Hdb Hb2 Hdb2 Hkx Hky Hkz R R2.
  assert (HD : length (dead (s_store R)) = length (dead s)) by (apply fin_dead; auto).
  apply sort_noop; auto.
  - apply fin_rect; auto.
  - now rewrite HD.
  - now rewrite HD.
  - unfold R. rewrite fin_cols; auto.
  - unfold R. rewrite fin_cols; auto.
  - unfold R. rewrite fin_cols; auto.
  - intros i j bi bj Hij Ai Aj Hi Hj.
    rewrite bucket_key3_home in Hi, Hj by auto.
    destruct (fin_alive_ref d fx fy fz kx ky kz nx ny nz reverse buf dbuf s Hx Hy Hz Hr Hb Hdb Hkx Hky Hkz i Ai) as [Li Ei].
    destruct (fin_alive_ref d fx fy fz kx ky kz nx ny nz reverse buf dbuf s Hx Hy Hz Hr Hb Hdb Hkx Hky Hkz j Aj) as [Lj Ej].
    fold R in Ei, Ej. rewrite <- Hi, <- Hj, Ei, Ej.
    apply sorted_nth; [apply ref_keys_sorted|].
    rewrite ref_keys_length by apply count_keys_length.
    rewrite (counts_total nx (ny * nz) (length (dead s))); [lia|apply keys_length|apply keys_lt; auto].
Qed.
