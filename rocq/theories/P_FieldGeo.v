(** Geometry of the field exchange: the index ranges of the tables are the guard layers and their images. *)
From Verif Require Import Base M_Layout M_PartSync S_PartSync M_FieldSync S_FieldSync P_Layout.
Local Open Scope Z_scope.

Definition map2 {A B C} (f : A -> B -> C) (l : list A) (k : list B) : list C := map (fun ab => f (fst ab) (snd ab)) (combine l k).

(** ** rows per axis and direction *)
Definition ax_currents (ng n d : Z) : Z * Z * Z := if d =? -1 then (0, n, ng) else if d =? 0 then (0, 0, n) else (n - ng, - ng, ng).
Definition ax_guard (ng n d : Z) : Z * Z * Z := if d =? -1 then (- ng, n - ng, ng) else if d =? 0 then (0, 0, n) else (n, 0, ng).
Definition ax_mpi (ng n d : Z) : Z * Z * Z := if d =? -1 then (0, - ng, ng) else if d =? 0 then (0, 0, n) else (n - ng, n, ng).
Definition ax_types (ng N d : Z) : Z * Z * Z := if d =? -1 then (N - ng, 0, ng) else if d =? 0 then (0, 0, N - 2 * ng) else (N - 2 * ng, N - 3 * ng, ng).
Definition tab_is (f : Z -> Z -> Z * Z * Z) (ns : list Z) (bounds : list (list Z)) (tab : list (nat * list (Z * Z * Z))) : Prop :=
  Permutation (map fst tab) (seq 0 (length bounds)) /\ forall b row, In (b, row) tab -> row = map2 f ns (nth b bounds []).

Lemma perm_check (l : list nat) n : NoDup l -> length l = n -> Forall (fun x => (x < n)%nat) l -> Permutation l (seq 0 n).
Proof.
  intros Hn Hl Hf. apply NoDup_Permutation_bis; [auto|rewrite seq_length; lia|].
  intros x Hx. apply in_seq. rewrite Forall_forall in Hf. apply Hf in Hx. lia.
Qed.
Ltac tab_tac :=
  split; [apply perm_check; [cbn; repeat constructor; cbn; lia|reflexivity|cbn; repeat constructor; lia]|
    let b := fresh in let row := fresh in let H := fresh in
    intros b row H; cbn [In] in H; repeat (destruct H as [H|H]; [inversion H; subst; reflexivity|]); contradiction].
Lemma local_currents2_is nx ny ng : tab_is (ax_currents ng) [nx; ny] bounds2 (local_currents2 nx ny ng). Proof. tab_tac. Qed.
Lemma local_guard2_is nx ny ng : tab_is (ax_guard ng) [nx; ny] bounds2 (local_guard2 nx ny ng). Proof. tab_tac. Qed.
Lemma mpi_currents2_is nx ny ng : tab_is (ax_mpi ng) [nx; ny] bounds2 (mpi_currents2 nx ny ng). Proof. tab_tac. Qed.
Lemma mpi_types2_is nx ny ng : tab_is (ax_types ng) [nx; ny] bounds2 (mpi_types2 nx ny ng). Proof. tab_tac. Qed.
Lemma local_currents3_is nx ny nz ng : tab_is (ax_currents ng) [nx; ny; nz] bounds3 (local_currents3 nx ny nz ng). Proof. tab_tac. Qed.
Lemma local_guard3_is nx ny nz ng : tab_is (ax_guard ng) [nx; ny; nz] bounds3 (local_guard3 nx ny nz ng). Proof. tab_tac. Qed.
Lemma mpi_currents3_is nx ny nz ng : tab_is (ax_mpi ng) [nx; ny; nz] bounds3 (mpi_currents3 nx ny nz ng). Proof. tab_tac. Qed.
Lemma mpi_types3_is nx ny nz ng : tab_is (ax_types ng) [nx; ny; nz] bounds3 (mpi_types3 nx ny nz ng). Proof. tab_tac. Qed.

Lemma row_of_is f ns bounds tab b : tab_is f ns bounds tab -> (b < length bounds)%nat -> row_of tab b = map2 f ns (nth b bounds []).
Proof.
  intros [P H] Hb. unfold row_of. destruct (find (fun r => (fst r =? b)%nat) tab) as [[b' row]|] eqn:E.
  - apply find_some in E as [Hi E]. cbn in *. apply Nat.eqb_eq in E. subst. now apply H.
  - exfalso. assert (Hi : In b (map fst tab)) by (apply (Permutation_in _ (Permutation_sym P)); apply in_seq; lia).
    apply in_map_iff in Hi as [[b' row] [E' Hi]]. cbn in E'. subst. apply (find_none _ _ E) in Hi. cbn in Hi. now rewrite Nat.eqb_refl in Hi.
Qed.

Lemma Forall2_len {A B} (R : A -> B -> Prop) l k : Forall2 R l k -> length l = length k.
Proof. induction 1; cbn; auto. Qed.

(** ** blocks *)
Lemma block_in cs k : In k (block cs) <-> Forall2 (fun n x => 0 <= x < n) cs k.
Proof.
  revert k; induction cs as [|n cs IH]; intro k; cbn [block].
  - split; [intros [<-|[]]; constructor|intro H; inversion H; now left].
  - rewrite in_flat_map. split.
    + intros [i [Hi Hk]]. apply in_map_iff in Hk as [k' [<- Hk]]. apply zseq_in in Hi. constructor; auto. now apply IH.
    + intro H. inversion H as [|? x ? k' Hx Hk]; subst. exists x. split; [now apply zseq_in|]. apply in_map_iff. exists k'. split; auto. now apply IH.
Qed.
Lemma nodup_flat {A B} (f : A -> list B) l : NoDup l -> (forall a, In a l -> NoDup (f a)) ->
  (forall a a' b, In a l -> In a' l -> In b (f a) -> In b (f a') -> a = a') -> NoDup (flat_map f l).
Proof.
  induction l as [|a l IH]; intros Hl Hf Hd; [constructor|]. apply NoDup_cons_iff in Hl as [Hni Hl]. cbn [flat_map].
  assert (X : NoDup (flat_map f l)).
  { apply IH; auto; [intros; apply Hf; now right|]. intros x y b Hx Hy. apply Hd; now right. }
  assert (Y : NoDup (f a)) by (apply Hf; now left).
  assert (D : forall x, In x (f a) -> ~ In x (flat_map f l)).
  { intros x Hx Hy. apply in_flat_map in Hy as [a' [Ha' Hy]]. apply Hni. rewrite (Hd a a' x); auto; [now left|now right]. }
  clear IH Hf Hd Hni Hl. revert Y D. generalize (f a) as fa. induction fa as [|z fa IHf]; intros Y D; [exact X|].
  apply NoDup_cons_iff in Y as [Y1 Y2]. cbn [app]. constructor.
  - intro H. apply in_app_or in H as [H|H]; [contradiction|]. apply (D z); [now left|auto].
  - apply IHf; auto. intros x Hx. apply D. now right.
Qed.
Lemma nodup_inj {A B} (f : A -> B) l : NoDup l -> (forall a a', In a l -> In a' l -> f a = f a' -> a = a') -> NoDup (map f l).
Proof.
  induction l as [|a l IH]; intros N I; [constructor|]. apply NoDup_cons_iff in N as [N1 N]. cbn [map]. constructor.
  - intro H. apply in_map_iff in H as [a' [E H]]. assert (a' = a) by (apply I; [now right|now left|auto]). subst; auto.
  - apply IH; auto. intros; apply I; auto; now right.
Qed.
Lemma block_NoDup cs : NoDup (block cs).
Proof.
  induction cs as [|n cs IH]; cbn [block]; [constructor; [intros []|constructor]|].
  apply nodup_flat; [apply zseq_NoDup| |].
  - intros a _. apply nodup_inj; auto. intros; congruence.
  - intros a a' b _ _ Ha Ha'. apply in_map_iff in Ha as [x [<- _]]. apply in_map_iff in Ha' as [y [E _]]. congruence.
Qed.

(** ** regions: the destination cells of a row *)
Definition region (row : list (Z * Z * Z)) : list (list Z) := map (add (dst row)) (block (cnt row)).
Lemma add_inj a : forall x y, length x = length a -> length y = length a -> add a x = add a y -> x = y.
Proof.
  induction a as [|h a IH]; intros [|x xs] [|y ys] Hx Hy E; cbn in *; try discriminate; auto.
  inversion E. f_equal; [lia|]. apply IH; auto.
Qed.
Lemma block_length cs k : In k (block cs) -> length k = length cs.
Proof. intro H. apply block_in in H. symmetry. eapply Forall2_len; eauto. Qed.
Lemma dst_length row : length (dst row) = length row. Proof. apply map_length. Qed.
Lemma cnt_length row : length (cnt row) = length row. Proof. apply map_length. Qed.
Lemma src_length row : length (src row) = length row. Proof. apply map_length. Qed.
Lemma region_NoDup row : NoDup (region row).
Proof.
  apply nodup_inj; [apply block_NoDup|]. intros a a' Ha Ha' E. apply block_length in Ha, Ha'. rewrite cnt_length in Ha, Ha'.
  eapply add_inj; [| |exact E]; rewrite dst_length; auto.
Qed.
(** a row function whose destination range is described by P and whose source is the shifted destination *)
Definition ax_spec (f : Z -> Z -> Z * Z * Z) (P : Z -> Z -> Z -> Prop) (n d : Z) : Prop :=
  (forall x, fst (fst (f n d)) <= x < fst (fst (f n d)) + snd (f n d) <-> P n d x) /\ snd (fst (f n d)) = fst (fst (f n d)) - d * n.
Lemma region_in f P ns ds c : length ns = length ds -> Forall2 (ax_spec f P) ns ds ->
  In c (region (map2 f ns ds)) <-> Forall2 (fun nd x => P (fst nd) (snd nd) x) (combine ns ds) c.
Proof.
  intros Hl H. unfold region. rewrite in_map_iff. revert c. clear Hl.
  induction H as [|n d ns ds [H1 H2] H IH]; intro c.
  - cbn. split; [intros [x [<- [<-|[]]]]; constructor|intro Hc; inversion Hc; exists []; auto].
  - unfold map2 in *. cbn [combine map dst cnt]. split.
    + intros [x [<- Hx]]. apply block_in in Hx. inversion Hx as [|? y ? x' Hy Hx']; subst. cbn [add]. constructor; cbn [fst snd].
      * apply H1. cbn [fst snd] in *. lia.
      * apply IH. exists x'. split; auto. now apply block_in.
    + intro Hc. inversion Hc as [|? y ? c' Hy Hc']; subst. apply IH in Hc' as [x [<- Hx]]. cbn [fst snd] in Hy. apply H1 in Hy.
      exists (y - fst (fst (f n d)) :: x). cbn [add fst snd]. split; [f_equal; lia|]. apply block_in. constructor; [cbn [fst snd]; lia|]. now apply block_in.
Qed.
Lemma region_src f P ns ds k : Forall2 (ax_spec f P) ns ds -> length k = length ns ->
  add (src (map2 f ns ds)) k = seen_from ns ds (add (dst (map2 f ns ds)) k).
Proof.
  intro H. revert k. induction H as [|n d ns ds [H1 H2] H IH]; intros [|x k] Hk; try discriminate; [reflexivity|].
  unfold map2, seen_from in *. cbn [combine map dst src add fst snd]. rewrite H2. f_equal; [lia|]. apply IH. cbn in Hk. lia.
Qed.

(** ** the directions *)
Definition unit_dir (d : Z) : Prop := d = -1 \/ d = 0 \/ d = 1.
Definition P_guard (ng n d x : Z) : Prop := - ng <= x < n + ng /\ d = (if x <? 0 then -1 else if x <? n then 0 else 1).
Definition P_cur (ng n d x : Z) : Prop := 0 <= x < n /\ - ng <= x - d * n < n + ng.
Lemma guard_spec ng n d : 0 <= ng <= n -> 0 < n -> unit_dir d -> ax_spec (ax_guard ng) (P_guard ng) n d.
Proof.
  intros H1 H2 [-> | [-> | ->]]; (split; [intro x|]); unfold ax_guard, P_guard; cbn [Z.eqb Pos.eqb fst snd]; try lia;
    destruct (Z.ltb_spec x 0), (Z.ltb_spec x n); lia.
Qed.
Lemma cur_spec ng n d : 0 <= ng <= n -> 0 < n -> unit_dir d -> ax_spec (ax_currents ng) (P_cur ng) n d.
Proof.
  intros H1 H2 [-> | [-> | ->]]; (split; [intro x|]); unfold ax_currents, P_cur; cbn [Z.eqb Pos.eqb fst snd]; lia.
Qed.
Definition dirs_ok (ns : list Z) (d : list Z) : Prop := length d = length ns /\ Forall unit_dir d.
Definition sizes_ok (ng : Z) (ns : list Z) : Prop := 0 < ng /\ Forall (fun n => ng <= n) ns.
Lemma specs f P ng ns ds : (forall n d, 0 <= ng <= n -> 0 < n -> unit_dir d -> ax_spec f P n d) -> sizes_ok ng ns -> dirs_ok ns ds ->
  Forall2 (ax_spec f P) ns ds.
Proof.
  intros H [Hg Hn] [Hl Hd]. revert ds Hl Hd. induction Hn as [|n ns Hn1 Hn IH]; intros [|d ds] Hl Hd; cbn in Hl; try discriminate; [constructor|].
  apply Forall_cons_iff in Hd as [Hd1 Hd]. constructor; [apply H; auto; lia|]. apply IH; auto.
Qed.

Lemma guard_region ng ns ds c : sizes_ok ng ns -> dirs_ok ns ds ->
  In c (region (map2 (ax_guard ng) ns ds)) <-> within ng ns c /\ sides_of ns c = ds.
Proof.
  intros Hs Hd. rewrite (region_in _ (P_guard ng)); [|symmetry; apply Hd|apply (specs _ _ ng); auto; apply guard_spec].
  destruct Hd as [Hl Hd]. clear Hs. unfold sides_of, within. revert ds c Hl Hd.
  induction ns as [|n ns IH]; intros [|d ds] c Hl Hd; cbn in Hl; try discriminate.
  - cbn [combine]. split; [intro H; inversion H; auto|intros [H _]; inversion H; constructor].
  - apply Forall_cons_iff in Hd as [Hd1 Hd]. cbn [combine]. split.
    + intro H. inversion H as [|? x ? c' [Hx1 Hx2] Hc]; subst. cbn [fst snd] in *. apply IH in Hc as [H1 H2]; auto.
      split; [constructor; auto|]. cbn [combine map fst snd]. congruence.
    + intros [H1 H2]. inversion H1 as [|? x ? c' Hx Hc]; subst. cbn [combine map fst snd] in H2. inversion H2.
      constructor; [split; cbn [fst snd]; auto|].
      apply IH; [congruence|congruence|split; auto].
Qed.
Lemma cur_region ng ns ds c : sizes_ok ng ns -> dirs_ok ns ds ->
  In c (region (map2 (ax_currents ng) ns ds)) <-> interior ns c /\ within ng ns (seen_from ns ds c).
Proof.
  intros Hs Hd. rewrite (region_in _ (P_cur ng)); [|symmetry; apply Hd|apply (specs _ _ ng); auto; apply cur_spec].
  destruct Hd as [Hl Hd]. clear Hs. unfold seen_from, within, interior. revert ds c Hl Hd.
  induction ns as [|n ns IH]; intros [|d ds] c Hl Hd; cbn in Hl; try discriminate.
  - cbn [combine]. split; [intro H; inversion H; split; constructor|intros [H _]; inversion H; constructor].
  - apply Forall_cons_iff in Hd as [Hd1 Hd]. cbn [combine]. split.
    + intro H. inversion H as [|? x ? c' [Hx1 Hx2] Hc]; subst. cbn [fst snd] in *. apply IH in Hc as [H1 H2]; auto.
      split; constructor; auto.
    + intros [H1 H2]. inversion H1 as [|? x ? c' Hx Hc]; subst. cbn [combine map fst snd] in H2. inversion H2; subst.
      constructor; [unfold P_cur; cbn [fst snd]; auto|]. apply IH; auto.
Qed.

(** the cell as the neighbour sees it *)
Lemma seen_length ns ds c : length ds = length ns -> length c = length ns -> length (seen_from ns ds c) = length ns.
Proof. intros H1 H2. unfold seen_from. rewrite map_length, !combine_length. lia. Qed.
Lemma within_length ng ns c : within ng ns c -> length c = length ns.
Proof. intro H. symmetry. eapply Forall2_len; eauto. Qed.
Lemma interior_within ng ns c : 0 <= ng -> interior ns c -> within ng ns c.
Proof. intros Hg H. unfold interior, within in *. induction H as [|n x ns c Hx H IH]; constructor; auto; lia. Qed.
Lemma guard_seen ng ns c : sizes_ok ng ns -> within ng ns c -> interior ns (seen_from ns (sides_of ns c) c).
Proof.
  intros [Hg Hn] H. unfold interior, within, seen_from, sides_of in *. induction H as [|n x ns c Hx H IH]; [constructor|].
  apply Forall_cons_iff in Hn as [Hn1 Hn]. cbn [combine map fst snd]. constructor; [|auto].
  destruct (Z.ltb_spec x 0), (Z.ltb_spec x n); lia.
Qed.
Lemma cur_seen_sides ng ns ds c : sizes_ok ng ns -> dirs_ok ns ds -> interior ns c -> within ng ns (seen_from ns ds c) ->
  sides_of ns (seen_from ns ds c) = neg ds.
Proof.
  intros [Hg Hn] [Hl Hd] Hi Hw. unfold interior, within, seen_from, sides_of, neg in *. revert ds Hl Hd Hw.
  induction Hi as [|n x ns c Hx Hi IH]; intros [|d ds] Hl Hd Hw; cbn in Hl; try discriminate; [reflexivity|].
  apply Forall_cons_iff in Hn as [Hn1 Hn]. apply Forall_cons_iff in Hd as [Hd1 Hd]. cbn [combine map fst snd] in *.
  inversion Hw as [|? ? ? ? Hw1 Hw2]; subst. f_equal; [|apply IH; auto].
  destruct Hd1 as [->|[->| ->]]; destruct (Z.ltb_spec (x - -1 * n) 0), (Z.ltb_spec (x - 0 * n) 0), (Z.ltb_spec (x - 1 * n) 0),
    (Z.ltb_spec (x - -1 * n) n), (Z.ltb_spec (x - 0 * n) n), (Z.ltb_spec (x - 1 * n) n); cbn; lia.
Qed.
Lemma neg_neg d : neg (neg d) = d.
Proof. unfold neg. induction d as [|x d IH]; [reflexivity|]. cbn [map]. rewrite IH. f_equal. lia. Qed.
Lemma seen_back ns ds c : length ds = length ns -> length c = length ns -> seen_from ns (neg ds) (seen_from ns ds c) = c.
Proof.
  unfold seen_from, neg. revert ds c; induction ns as [|n ns IH]; intros [|d ds] [|x c] H1 H2; cbn in H1, H2; try discriminate; [reflexivity|].
  cbn [combine map fst snd]. f_equal; [lia|]. apply IH; lia.
Qed.
(** guard cells are the images of interior cells of the neighbour *)
Lemma seen_dir_inj ng ns d d' c : sizes_ok ng ns -> length d = length ns -> length d' = length ns -> length c = length ns ->
  seen_from ns d c = seen_from ns d' c -> d = d'.
Proof.
  intros [Hg Hn]. unfold seen_from. revert d d' c. induction Hn as [|n ns Hn1 Hn IH]; intros [|a d] [|a' d'] [|x c] H1 H2 H3 E; cbn in H1, H2, H3; try discriminate; auto.
  cbn [combine map fst snd] in E. inversion E as [[E1 E2]]. f_equal; [nia|]. apply (IH d d' c); auto; lia.
Qed.
Lemma sides_zero ns c : length c = length ns -> (interior ns c <-> sides_of ns c = map (fun _ => 0) ns).
Proof.
  unfold interior, sides_of. revert c; induction ns as [|n ns IH]; intros [|x c] H; cbn in H; try discriminate.
  - split; auto; constructor.
  - cbn [combine map fst snd]. split.
    + intro Hc. inversion Hc as [|? ? ? ? Hx Hc']; subst. f_equal; [destruct (Z.ltb_spec x 0), (Z.ltb_spec x n); lia|]. apply IH; auto.
    + intro E. inversion E as [[E1 E2]]. destruct (Z.ltb_spec x 0); [discriminate|]. destruct (Z.ltb_spec x n); [|discriminate].
      constructor; [lia|]. apply IH; auto.
Qed.
Lemma sides_dirs ns c : length c = length ns -> dirs_ok ns (sides_of ns c).
Proof.
  intro H. split.
  - unfold sides_of. rewrite map_length, combine_length. lia.
  - unfold sides_of. apply Forall_forall. intros d Hd. apply in_map_iff in Hd as [[n x] [<- _]]. cbn [fst snd]. unfold unit_dir.
    destruct (x <? 0), (x <? n); auto.
Qed.
(** interior cell c of a patch lies in the guard layers of the neighbour at d exactly when its image does *)
Lemma guard_cell_image ng ns ds c : sizes_ok ng ns -> dirs_ok ns ds -> within ng ns c -> sides_of ns c = neg ds ->
  interior ns (seen_from ns (neg ds) c) /\ seen_from ns ds (seen_from ns (neg ds) c) = c.
Proof.
  intros Hs Hd Hw E. split; [rewrite <- E; apply (guard_seen ng); auto|]. rewrite <- (neg_neg ds) at 1. apply seen_back.
  - unfold neg. rewrite map_length. apply Hd.
  - eapply within_length; eauto.
Qed.

(** ** indices *)
Lemma widx_range ng n x : 0 < ng -> ng <= n -> - ng <= x < n + ng -> 0 <= widx (n + 2 * ng) x < n + 2 * ng.
Proof. intros. unfold widx. destruct (Z.leb_spec 0 x); lia. Qed.
Lemma widx_inj ng n x y : 0 < ng -> ng <= n -> - ng <= x < n + ng -> - ng <= y < n + ng -> widx (n + 2 * ng) x = widx (n + 2 * ng) y -> x = y.
Proof. intros. unfold widx in *. destruct (Z.leb_spec 0 x), (Z.leb_spec 0 y); lia. Qed.
Lemma pair_inj N a b a' b' : 0 <= b < N -> 0 <= b' < N -> b + a * N = b' + a' * N -> a = a' /\ b = b'.
Proof. intros. assert (a = a') by nia. subst. split; auto. lia. Qed.
Definition good_index (ng : Z) (ns : list Z) : Prop :=
  (forall c c', within ng ns c -> within ng ns c' -> index (extents ns ng) c = index (extents ns ng) c' -> c = c') /\
  (forall c, within ng ns c -> 0 <= index (extents ns ng) c < volume (extents ns ng)).
Lemma good_index2 ng nx ny : sizes_ok ng [nx; ny] -> good_index ng [nx; ny].
Proof.
  intros [Hg H]. apply Forall_cons_iff in H as [Hx H]. apply Forall_cons_iff in H as [Hy _]. split.
  - intros c c' Hc Hc' E. inversion Hc as [|? i ? t Hi Ht]; subst. inversion Ht as [|? j ? t' Hj Ht']; subst. inversion Ht'; subst.
    inversion Hc' as [|? i' ? u Hi' Hu]; subst. inversion Hu as [|? j' ? u' Hj' Hu']; subst. inversion Hu'; subst.
    cbn [extents map index] in E. apply pair_inj in E; [|eapply widx_range; eauto|eapply widx_range; eauto]. destruct E as [E1 E2].
    apply widx_inj in E1; auto. apply widx_inj in E2; auto. congruence.
  - intros c Hc. inversion Hc as [|? i ? t Hi Ht]; subst. inversion Ht as [|? j ? t' Hj Ht']; subst. inversion Ht'; subst.
    cbn [extents map index volume fold_right]. pose proof (widx_range ng nx i Hg Hx Hi). pose proof (widx_range ng ny j Hg Hy Hj). nia.
Qed.
Lemma good_index3 ng nx ny nz : sizes_ok ng [nx; ny; nz] -> good_index ng [nx; ny; nz].
Proof.
  intros [Hg H]. apply Forall_cons_iff in H as [Hx H]. apply Forall_cons_iff in H as [Hy H]. apply Forall_cons_iff in H as [Hz _]. split.
  - intros c c' Hc Hc' E. inversion Hc as [|? i ? t Hi Ht]; subst. inversion Ht as [|? j ? t' Hj Ht']; subst. inversion Ht' as [|? k ? t'' Hk Ht'']; subst. inversion Ht''; subst.
    inversion Hc' as [|? i' ? u Hi' Hu]; subst. inversion Hu as [|? j' ? u' Hj' Hu']; subst. inversion Hu' as [|? k' ? u'' Hk' Hu'']; subst. inversion Hu''; subst.
    cbn [extents map index] in E.
    set (wi := widx (nx + 2 * ng) i) in *. set (wj := widx (ny + 2 * ng) j) in *. set (wk := widx (nz + 2 * ng) k) in *.
    set (wi' := widx (nx + 2 * ng) i') in *. set (wj' := widx (ny + 2 * ng) j') in *. set (wk' := widx (nz + 2 * ng) k') in *.
    assert (E' : wk + (wj + wi * (ny + 2 * ng)) * (nz + 2 * ng) = wk' + (wj' + wi' * (ny + 2 * ng)) * (nz + 2 * ng)) by lia.
    apply pair_inj in E'; [|eapply widx_range; eauto|eapply widx_range; eauto]. destruct E' as [E1 E2].
    apply pair_inj in E1; [|eapply widx_range; eauto|eapply widx_range; eauto]. destruct E1 as [E1 E3].
    apply widx_inj in E1; auto. apply widx_inj in E2; auto. apply widx_inj in E3; auto. congruence.
  - intros c Hc. inversion Hc as [|? i ? t Hi Ht]; subst. inversion Ht as [|? j ? t' Hj Ht']; subst. inversion Ht' as [|? k ? t'' Hk Ht'']; subst. inversion Ht''; subst.
    cbn [extents map index volume fold_right]. pose proof (widx_range ng nx i Hg Hx Hi). pose proof (widx_range ng ny j Hg Hy Hj). pose proof (widx_range ng nz k Hg Hz Hk).
    set (wi := widx (nx + 2 * ng) i) in *. set (wj := widx (ny + 2 * ng) j) in *. set (wk := widx (nz + 2 * ng) k) in *.
    assert (0 <= wj + wi * (ny + 2 * ng) < (nx + 2 * ng) * (ny + 2 * ng)) by nia. nia.
Qed.

(** booleans of the specification *)
Lemma within_b_ok ng ns c : length c = length ns -> (within_b ng ns c = true <-> within ng ns c).
Proof.
  unfold within_b, within. revert c; induction ns as [|n ns IH]; intros [|x c] H; cbn in H; try discriminate.
  - cbn. split; auto; constructor.
  - cbn [combine forallb fst snd]. rewrite andb_true_iff, andb_true_iff, Z.leb_le, Z.ltb_lt, IH by auto.
    split; [intros [? ?]; constructor; tauto|intro Hc; inversion Hc; tauto].
Qed.
Lemma interior_b_ok ns c : length c = length ns -> (interior_b ns c = true <-> interior ns c).
Proof.
  unfold interior_b, interior. revert c; induction ns as [|n ns IH]; intros [|x c] H; cbn in H; try discriminate.
  - cbn. split; auto; constructor.
  - cbn [combine forallb fst snd]. rewrite andb_true_iff, andb_true_iff, Z.leb_le, Z.ltb_lt, IH by auto.
    split; [intros [? ?]; constructor; tauto|intro Hc; inversion Hc; tauto].
Qed.
