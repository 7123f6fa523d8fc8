From Verif Require Import Base M_Pairing S_Pairing.
From Coq Require Import QArith.
Local Open Scope nat_scope.

(** ** scanning *)
Section Scan.
Variables (ok : nat -> bool) (n : nat).
Let P := filter ok (seq 0 n).

Lemma P_NoDup : NoDup P.
Proof. apply NoDup_filter, seq_NoDup. Qed.

Lemma seq_cut j : j < n -> seq 0 n = seq 0 j ++ j :: seq (S j) (n - S j).
Proof.
  intro H. replace n with (j + S (n - S j)) at 1 by lia. rewrite seq_app. cbn [seq]. reflexivity.
Qed.

Lemma nodup_split_pos {A} (l1 l2 l : list A) a k d :
  l = l1 ++ a :: l2 -> NoDup l -> k < length l -> nth k l d = a -> length l1 = k.
Proof.
  intros E Hnd Hk Hn. apply (proj1 (NoDup_nth l d) Hnd); auto.
  - subst l. rewrite app_length. cbn. lia.
  - rewrite Hn. subst l. rewrite app_nth2, Nat.sub_diag by lia. reflexivity.
Qed.

Lemma filter_split k : k < length P ->
  ok (nth k P 0) = true /\ nth k P 0 < n /\
  filter ok (seq 0 (nth k P 0)) = firstn k P /\
  filter ok (seq (S (nth k P 0)) (n - S (nth k P 0))) = skipn (S k) P.
Proof.
  intro Hk. set (j := nth k P 0).
  assert (Hin : In j P) by (now apply nth_In).
  assert (Hp : In j (seq 0 n) /\ ok j = true) by (now apply filter_In).
  destruct Hp as [Hs Ho]. apply in_seq in Hs.
  assert (Hj : j < n) by lia. split; auto. split; auto.
  assert (E : P = filter ok (seq 0 j) ++ j :: filter ok (seq (S j) (n - S j))).
  { unfold P. rewrite (seq_cut j Hj), filter_app. cbn [filter]. now rewrite Ho. }
  assert (L : length (filter ok (seq 0 j)) = k).
  { apply (nodup_split_pos _ _ P j k 0 E P_NoDup Hk eq_refl). }
  rewrite E. split.
  - rewrite <- L. rewrite firstn_app, Nat.sub_diag, firstn_all. cbn. now rewrite app_nil_r.
  - rewrite <- L. replace (S (length (filter ok (seq 0 j)))) with (length (filter ok (seq 0 j)) + 1) by lia.
    rewrite skipn_app, skipn_all2 by lia.
    replace (length (filter ok (seq 0 j)) + 1 - length (filter ok (seq 0 j))) with 1 by lia. reflexivity.
Qed.

Lemma find_filter {A} (f : A -> bool) l : find f l = hd_error (filter f l).
Proof. induction l as [|a l IH]; [auto|]. cbn. destruct (f a); auto. Qed.

Lemma hd_error_skipn {A} (l : list A) k d : k < length l -> hd_error (skipn k l) = Some (nth k l d).
Proof.
  revert k; induction l as [|a l IH]; intros [|k] H; cbn in *; try lia; auto. apply IH; lia.
Qed.

Lemma scan_first old : 0 < length P -> scan ok 0 n old = Some (nth 0 P 0).
Proof.
  intro H. unfold scan. rewrite Nat.sub_0_r, find_filter. fold P. destruct P; [cbn in H; lia|reflexivity].
Qed.
Lemma scan_next k old : S k < length P -> scan ok (S (nth k P 0)) n old = Some (nth (S k) P 0).
Proof.
  intro H. unfold scan. rewrite find_filter.
  destruct (filter_split k) as (_ & _ & _ & ->); [lia|]. now rewrite (hd_error_skipn P (S k) 0).
Qed.
Lemma scan_wrap k old : 0 < k < length P -> scan ok 0 (nth k P 0) old = Some (nth 0 P 0).
Proof.
  intro H. unfold scan. rewrite find_filter, Nat.sub_0_r.
  destruct (filter_split k) as (_ & _ & -> & _); [lia|].
  destruct P; cbn in *; [lia|]. destruct k; [lia|reflexivity].
Qed.
Lemma P_pos_lt k : k < length P -> nth k P 0 < n.
Proof. intro H. now apply filter_split. Qed.
Lemma P_succ k : S k < length P -> S (nth k P 0) <= nth (S k) P 0.
Proof.
  intro H. destruct (filter_split k) as (_ & _ & _ & E); [lia|].
  pose proof (hd_error_skipn P (S k) 0 H) as Hh.
  assert (I : In (nth (S k) P 0) (skipn (S k) P)).
  { destruct (skipn (S k) P) as [|a l]; [discriminate|]. left. now injection Hh. }
  rewrite <- E in I. apply filter_In in I. destruct I as [I _]. apply in_seq in I. lia.
Qed.
End Scan.

Lemma map_filter {A B} (f : A -> B) (p : B -> bool) l :
  map f (filter (fun a => p (f a)) l) = filter p (map f l).
Proof. induction l as [|a l IH]; [auto|]. cbn. destruct (p (f a)); cbn; now rewrite IH. Qed.

Lemma live_count_length dead start stop : live_count dead start stop = length (live dead start stop).
Proof.
  unfold live_count, live, is_dead_at. generalize (stop - start) as m. intro m.
  pose proof (seq_length m start) as L. rewrite <- L at 1. generalize (seq start m) as l. clear.
  induction l as [|a l IH]; [auto|]. rewrite countb_cons. cbn [filter length].
  pose proof (countb_le (fun i => nth i dead true) l) as Hc.
  destruct (nth a dead true); cbn [negb length]; lia.
Qed.

Lemma live_NoDup dead start stop : NoDup (live dead start stop).
Proof. apply NoDup_filter, seq_NoDup. Qed.

Lemma Permutation_filter {A} (p : A -> bool) l l' : Permutation l l' -> Permutation (filter p l) (filter p l').
Proof.
  intro H; induction H as [|a l l' H IH|a b l|l l' l'' H1 IH1 H2 IH2]; cbn; auto.
  - destruct (p a); auto.
  - destruct (p a), (p b); auto. apply perm_swap.
  - now transitivity (filter p l').
Qed.

(** ** the positions of live slots in the shuffled array *)
Section Idx.
Variables (dead : list bool) (start stop : nat) (idx : list nat).
Hypothesis Hp : Permutation idx (seq start (stop - start)).
Let ok := fun j => negb (is_dead_at dead (nth j idx 0)).
Let nbuf := stop - start.
Let P := filter ok (seq 0 nbuf).
Let A := map (fun j => nth j idx 0) P.

Lemma idx_length : length idx = nbuf.
Proof. apply Permutation_length in Hp. now rewrite seq_length in Hp. Qed.
Lemma A_filter : A = filter (fun i => negb (nth i dead true)) idx.
Proof.
  unfold A, P, ok, is_dead_at.
  rewrite (map_filter (fun j => nth j idx 0) (fun i => negb (nth i dead true))).
  rewrite <- idx_length. now rewrite map_nth_seq.
Qed.
Lemma A_perm : Permutation A (live dead start stop).
Proof. rewrite A_filter. now apply Permutation_filter. Qed.
Lemma A_length : length A = live_count dead start stop.
Proof. rewrite live_count_length. apply Permutation_length, A_perm. Qed.
Lemma P_length : length P = live_count dead start stop.
Proof. rewrite <- A_length. unfold A. now rewrite map_length. Qed.
Lemma A_NoDup : NoDup A.
Proof. apply (Permutation_NoDup (Permutation_sym A_perm)), live_NoDup. Qed.
Lemma A_nth k : k < length P -> nth (nth k P 0) idx 0 = nth k A 0.
Proof. intro H. unfold A. now rewrite (nth_map _ _ _ 0). Qed.
End Idx.

(** ** intra-species *)
Section Intra.
Variables (dead : list bool) (start stop : nat) (idx : list nat).
Hypothesis Hp : Permutation idx (seq start (stop - start)).
Let ok := fun j => negb (is_dead_at dead (nth j idx 0)).
Let nbuf := stop - start.
Let P := filter ok (seq 0 nbuf).
Let A := map (fun j => nth j idx 0) P.
Let n := live_count dead start stop.
Hypothesis Hn : 2 <= n.

Definition intra_pair_k (k : nat) : pair :=
  mkPair (nth (2 * k) A 0)
         (if S (2 * k) <? n then nth (S (2 * k)) A 0 else nth 0 A 0)
         (if Nat.odd n && ((k =? 0) || (k =? intra_npairs n - 1)) then (1 # 2)%Q else 1%Q)
         (intra_dt n).

Lemma intra_even_odd : intra_even n = negb (Nat.odd n).
Proof.
  unfold intra_even. replace (2 <=? n) with true by (symmetry; now apply Nat.leb_le).
  rewrite <- Nat.negb_even, negb_involutive.
  destruct (Nat.even n) eqn:E; [apply Nat.even_spec in E|].
  - destruct E as [m ->]. apply Nat.eqb_eq. lia.
  - apply Nat.eqb_neq. intro Hm. assert (X : Nat.Even n) by (exists (n / 2); lia).
    apply Nat.even_spec in X. congruence.
Qed.
Lemma intra_npairs_eq : intra_npairs n = (n + 1) / 2.
Proof. unfold intra_npairs. replace (2 <=? n) with true by (symmetry; now apply Nat.leb_le). reflexivity. Qed.

Lemma intra_loop_char m : forall k s,
  m + k = intra_npairs n -> a_pair s = k ->
  a_ip2 s = (if k =? 0 then None else Some (nth (2 * k - 1) P 0)) ->
  intra_loop dead idx nbuf n m s = map intra_pair_k (seq k m).
Proof.
  induction m as [|m IH]; intros k s Hk Ek E2; [reflexivity|].
  cbn [intra_loop seq map].
  assert (LP : length P = n) by (apply P_length; exact Hp).
  rewrite intra_npairs_eq in Hk.
  assert (H2k : 2 * k < n) by lia.
  unfold intra_next. rewrite Ek. fold ok.
  assert (E1 : scan ok (after (a_ip2 s)) nbuf (a_ip1 s) = Some (nth (2 * k) P 0)).
  { rewrite E2. destruct (Nat.eqb_spec k 0) as [->|Hk0]; cbn [after].
    - apply scan_first. fold P. lia.
    - pose proof (scan_next ok nbuf (2 * k - 1) (a_ip1 s)) as X. fold P in X.
      replace (S (2 * k - 1)) with (2 * k) in X by lia.
      replace (S (nth (2 * k - 1) P 0)) with (S (nth (2 * k - 1) P 0)) in X by lia. apply X. lia. }
  rewrite E1. cbn [after].
  set (ip2 := if intra_even n then _ else _).
  assert (Eip : ip2 = Some (if S (2 * k) <? n then nth (S (2 * k)) P 0 else nth 0 P 0)).
  { unfold ip2. rewrite intra_even_odd. rewrite intra_npairs_eq.
    destruct (Nat.odd n) eqn:O; cbn [negb].
    - apply Nat.odd_spec in O. destruct O as [h Hh].
      destruct (Nat.ltb_spec k ((n + 1) / 2 - 1)) as [Hlt|Hge].
      + replace (S (2 * k) <? n) with true by (symmetry; apply Nat.ltb_lt; lia). apply scan_next. fold P. lia.
      + replace (S (2 * k) <? n) with false by (symmetry; apply Nat.ltb_ge; lia). apply scan_wrap. fold P. lia.
    - rewrite <- Nat.negb_even in O. apply negb_false_iff in O. apply Nat.even_spec in O. destruct O as [h Hh].
      replace (S (2 * k) <? n) with true by (symmetry; apply Nat.ltb_lt; lia). apply scan_next. fold P. lia. }
  rewrite Eip. f_equal.
  - unfold intra_pair_k, py_get. rewrite intra_even_odd, negb_involutive.
    assert (XA : forall q, q < n -> nth (nth q P 0) idx 0 = nth q A 0).
    { intros q Hq. apply (A_nth dead start stop idx). fold ok nbuf P. lia. }
    rewrite XA by lia. f_equal. destruct (Nat.ltb_spec (S (2 * k)) n); apply XA; lia.
  - destruct m as [|m']; [reflexivity|].
    apply IH; cbn [a_pair a_ip2]; [rewrite intra_npairs_eq; lia|reflexivity|].
    cbn [Nat.eqb].
    replace (S (2 * k) <? n) with true by (symmetry; apply Nat.ltb_lt; lia).
    do 2 f_equal. lia.
Qed.

Lemma pairs_flat {B} (l : list B) d h : 2 * h <= length l ->
  flat_map (fun k => [nth (2 * k) l d; nth (S (2 * k)) l d]) (seq 0 h) = firstn (2 * h) l.
Proof.
  induction h as [|h IH]; intro H; [reflexivity|].
  rewrite seq_snoc, flat_map_app, IH by lia. cbn [flat_map app].
  replace (2 * S h) with (S (S (2 * h))) by lia.
  assert (G : forall q, S q <= length l -> firstn (S q) l = firstn q l ++ [nth q l d]).
  { clear. induction l as [|a l IH]; intros [|q] Hq; cbn in *; try lia; auto. f_equal. apply IH; lia. }
  rewrite (G (S (2 * h))), (G (2 * h)) by lia. rewrite <- app_assoc. reflexivity.
Qed.

Lemma flat_map_ext' {B C} (f g : B -> list C) l : (forall a, In a l -> f a = g a) -> flat_map f l = flat_map g l.
Proof.
  induction l as [|a l IH]; intro H; [auto|]. cbn. rewrite (H a) by now left. f_equal. apply IH. intros; apply H; now right.
Qed.
Lemma flat_map_map {B C D} (f : B -> C) (g : C -> list D) l : flat_map g (map f l) = flat_map (fun a => g (f a)) l.
Proof. induction l as [|a l IH]; [auto|]. cbn. now rewrite IH. Qed.

Lemma intra_pairs_eq : intra_pairs dead start stop idx = map intra_pair_k (seq 0 (intra_npairs n)).
Proof. unfold intra_pairs. fold n nbuf. apply intra_loop_char; auto. Qed.

Lemma An : length A = n.
Proof. apply A_length. exact Hp. Qed.

Lemma intra_ends_even : Nat.odd n = false -> ends (intra_pairs dead start stop idx) = A.
Proof.
  intro O. rewrite <- Nat.negb_even in O. apply negb_false_iff in O. apply Nat.even_spec in O. destruct O as [h Hh].
  rewrite intra_pairs_eq, intra_npairs_eq. unfold ends. rewrite flat_map_map.
  replace ((n + 1) / 2) with h by lia.
  rewrite (flat_map_ext' _ (fun k => [nth (2 * k) A 0; nth (S (2 * k)) A 0])).
  - rewrite pairs_flat by (rewrite An; lia). apply firstn_all2. rewrite An. lia.
  - intros k Hk. apply in_seq in Hk. unfold intra_pair_k; cbn [p_1 p_2].
    replace (S (2 * k) <? n) with true by (symmetry; apply Nat.ltb_lt; lia). reflexivity.
Qed.

Lemma intra_ends_odd : Nat.odd n = true -> ends (intra_pairs dead start stop idx) = A ++ [nth 0 A 0].
Proof.
  intro O. apply Nat.odd_spec in O. destruct O as [h Hh].
  rewrite intra_pairs_eq, intra_npairs_eq. unfold ends. rewrite flat_map_map.
  replace ((n + 1) / 2) with (S h) by lia. rewrite seq_snoc, flat_map_app.
  rewrite (flat_map_ext' _ (fun k => [nth (2 * k) A 0; nth (S (2 * k)) A 0])).
  - rewrite pairs_flat by (rewrite An; lia). cbn [flat_map app]. unfold intra_pair_k; cbn [p_1 p_2].
    rewrite Nat.add_0_l.
    replace (S (2 * h) <? n) with false by (symmetry; apply Nat.ltb_ge; lia).
    transitivity ((firstn (2 * h) A ++ [nth (2 * h) A 0]) ++ [nth 0 A 0]); [now rewrite <- app_assoc|].
    f_equal.
    assert (G : forall q (l : list nat), S q <= length l -> firstn (S q) l = firstn q l ++ [nth q l 0]).
    { clear. intros q l; revert q; induction l as [|a l IH]; intros [|q] Hq; cbn in *; try lia; auto. f_equal. apply IH; lia. }
    rewrite <- G by (rewrite An; lia). apply firstn_all2. rewrite An. lia.
  - intros k Hk. apply in_seq in Hk. unfold intra_pair_k; cbn [p_1 p_2].
    replace (S (2 * k) <? n) with true by (symmetry; apply Nat.ltb_lt; lia). reflexivity.
Qed.

Lemma A_inj i j : i < n -> j < n -> nth i A 0 = nth j A 0 -> i = j.
Proof.
  intros Hi Hj E. apply (proj1 (NoDup_nth A 0) (A_NoDup dead start stop idx Hp)); auto; fold ok nbuf P A; rewrite An; auto.
Qed.

Lemma intra_distinct p : In p (intra_pairs dead start stop idx) -> p_1 p <> p_2 p.
Proof.
  rewrite intra_pairs_eq. intro H. apply in_map_iff in H. destruct H as (k & <- & Hk). apply in_seq in Hk.
  rewrite intra_npairs_eq in Hk. unfold intra_pair_k; cbn [p_1 p_2]. intro E.
  destruct (Nat.ltb_spec (S (2 * k)) n) as [L|L]; apply A_inj in E; lia.
Qed.

Lemma intra_weights_odd p : Nat.odd n = true -> In p (intra_pairs dead start stop idx) ->
  p_w p = if has_end (nth 0 A 0) p then (1 # 2)%Q else 1%Q.
Proof.
  intro O. rewrite intra_pairs_eq. intro H. apply in_map_iff in H. destruct H as (k & <- & Hk). apply in_seq in Hk.
  rewrite intra_npairs_eq in Hk. unfold intra_pair_k, has_end; cbn [p_1 p_2 p_w]. rewrite O; cbn [andb].
  apply Nat.odd_spec in O. destruct O as [h Hh]. rewrite intra_npairs_eq.
  assert (G : (k =? 0) || (k =? (n + 1) / 2 - 1) =
     (nth (2 * k) A 0 =? nth 0 A 0) || ((if S (2 * k) <? n then nth (S (2 * k)) A 0 else nth 0 A 0) =? nth 0 A 0)).
  { destruct (Nat.eqb_spec k 0) as [->|Hk0].
    - cbn [orb]. rewrite Nat.eqb_refl. reflexivity.
    - assert (N0 : nth (2 * k) A 0 <> nth 0 A 0) by (intro E; apply A_inj in E; lia).
      apply Nat.eqb_neq in N0. rewrite N0. cbn [orb].
      destruct (Nat.ltb_spec (S (2 * k)) n) as [L|L].
      + replace (k =? (n + 1) / 2 - 1) with false by (symmetry; apply Nat.eqb_neq; lia).
        symmetry. apply Nat.eqb_neq. intro E; apply A_inj in E; lia.
      + rewrite Nat.eqb_refl. apply Nat.eqb_eq. lia. }
  now rewrite G.
Qed.

Lemma intra_weights_even p : Nat.odd n = false -> In p (intra_pairs dead start stop idx) -> p_w p = 1%Q.
Proof.
  intro O. rewrite intra_pairs_eq. intro H. apply in_map_iff in H. destruct H as (k & <- & Hk).
  unfold intra_pair_k; cbn [p_w]. now rewrite O.
Qed.
Lemma intra_A_perm : Permutation A (live dead start stop).
Proof. apply A_perm. exact Hp. Qed.
Lemma A0_in : In (nth 0 A 0) A.
Proof. apply nth_In. rewrite An. lia. Qed.
End Intra.

Lemma intra_even_ok dead start stop idx :
  Permutation idx (seq start (stop - start)) ->
  Nat.even (length (live dead start stop)) = true ->
  let ps := intra_pairs dead start stop idx in
  Permutation (ends ps) (live dead start stop) /\
  (forall p, In p ps -> p_1 p <> p_2 p /\ p_w p = 1%Q /\ p_dt p = length (live dead start stop) - 1).
Proof.
  intros Hp He ps. rewrite <- live_count_length in *.
  destruct (Nat.le_gt_cases 2 (live_count dead start stop)) as [Hn|Hn].
  - assert (O : Nat.odd (live_count dead start stop) = false) by (rewrite <- Nat.negb_even, He; reflexivity).
    split.
    + unfold ps. rewrite intra_ends_even by auto. now apply intra_A_perm.
    + intros p Hin. split; [now apply (intra_distinct dead start stop idx Hp Hn)|].
      split; [now apply (intra_weights_even dead start stop idx Hp Hn)|].
      unfold ps in Hin. rewrite intra_pairs_eq in Hin by auto. apply in_map_iff in Hin. destruct Hin as (k & <- & _).
      unfold intra_pair_k, intra_dt. cbn [p_dt]. rewrite intra_npairs_eq by auto.
      apply Nat.even_spec in He. destruct He as [h Hh]. rewrite (proj2 (Nat.leb_le 2 _) Hn). lia.
  - assert (Z : live_count dead start stop = 0).
    { apply Nat.even_spec in He. destruct He as [h Hh]. lia. }
    assert (E : ps = []). { unfold ps, intra_pairs. rewrite Z. reflexivity. }
    rewrite E. split; [|intros p []]. rewrite live_count_length in Z. destruct (live dead start stop); [apply perm_nil|discriminate].
Qed.

Lemma intra_odd_ok dead start stop idx :
  Permutation idx (seq start (stop - start)) ->
  Nat.odd (length (live dead start stop)) = true -> 2 <= length (live dead start stop) ->
  let ps := intra_pairs dead start stop idx in
  exists a, In a (live dead start stop) /\ Permutation (ends ps) (a :: live dead start stop) /\
  (forall p, In p ps -> p_1 p <> p_2 p /\ p_w p = (if has_end a p then (1 # 2)%Q else 1%Q) /\
                        p_dt p = length (live dead start stop)).
Proof.
  intros Hp He Hn ps. rewrite <- live_count_length in *.
  set (A := map (fun j => nth j idx 0) (filter (fun j => negb (is_dead_at dead (nth j idx 0))) (seq 0 (stop - start)))).
  assert (PA : Permutation A (live dead start stop)) by (now apply intra_A_perm).
  exists (nth 0 A 0). split; [|split].
  - apply (Permutation_in _ PA). now apply A0_in.
  - unfold ps. rewrite intra_ends_odd by auto. fold A.
    etransitivity; [symmetry; apply Permutation_cons_append|]. now constructor.
  - intros p Hin. split; [now apply (intra_distinct dead start stop idx Hp Hn)|].
    split; [now apply (intra_weights_odd dead start stop idx Hp Hn)|].
    unfold ps in Hin. rewrite intra_pairs_eq in Hin by auto. apply in_map_iff in Hin. destruct Hin as (k & <- & _).
    unfold intra_pair_k, intra_dt. cbn [p_dt]. rewrite intra_npairs_eq by auto.
    apply Nat.odd_spec in He. destruct He as [h Hh]. rewrite (proj2 (Nat.leb_le 2 _) Hn). lia.
Qed.

Lemma intra_single dead start stop idx : length (live dead start stop) = 1 -> intra_pairs dead start stop idx = [].
Proof. intro H. unfold intra_pairs. rewrite live_count_length, H. reflexivity. Qed.

(** ** inter-species *)
Section Inter.
Variables (deadA deadB : list bool) (startA stopA startB stopB : nat) (idx : list nat).
Hypothesis Hp : Permutation idx (seq startA (stopA - startA)).
Let okA := fun j => negb (is_dead_at deadA (nth j idx 0)).
Let okB := fun j => negb (is_dead_at deadB (startB + j)).
Let nbufA := stopA - startA.
Let nbufB := stopB - startB.
Let PA := filter okA (seq 0 nbufA).
Let PB := filter okB (seq 0 nbufB).
Let A := map (fun j => nth j idx 0) PA.
Let LB := live deadB startB stopB.
Let nA := live_count deadA startA stopA.
Let nB := live_count deadB startB stopB.
Hypothesis HB : 0 < nB.
Hypothesis HAB : nB <= nA.

Lemma LB_eq : LB = map (fun j => startB + j) PB.
Proof.
  unfold LB, live, PB, okB, is_dead_at.
  rewrite (map_filter (fun j => startB + j) (fun i => negb (nth i deadB true))). f_equal.
  fold nbufB. generalize nbufB as m. clear. intro m.
  apply (list_ext _ _ 0); rewrite ?map_length, !seq_length; auto. intros i Hi.
  rewrite (nth_map _ _ _ 0), !seq_nth by (rewrite ?seq_length; auto). lia.
Qed.
Lemma PB_length : length PB = nB.
Proof. unfold nB. rewrite live_count_length. fold LB. rewrite LB_eq. now rewrite map_length. Qed.

Definition inter_w (k : nat) : Q :=
  if k mod nB <? nA mod nB then (1 # Pos.of_nat (nA / nB + 1))%Q else (1 # Pos.of_nat (nA / nB))%Q.
Definition inter_pair_k (k : nat) : pair := mkPair (nth k A 0) (nth (k mod nB) LB 0) (inter_w k) nA.

Lemma inter_loop_char m : forall k s,
  m + k = nA -> a_pair s = k ->
  (k <> 0 -> a_ip1 s = Some (nth (k - 1) PA 0) /\ a_ip2 s = Some (nth ((k - 1) mod nB) PB 0)) ->
  (k = 0 -> a_ip1 s = None) ->
  inter_loop deadA deadB idx startB nbufA nbufB nA nB m s = map inter_pair_k (seq k m).
Proof.
  induction m as [|m IH]; intros k s Hk Ek E2 E0; [reflexivity|].
  cbn [inter_loop seq map].
  assert (LP : length PA = nA) by (apply P_length; exact Hp).
  pose proof PB_length as LPB.
  unfold inter_next. rewrite Ek. fold okA okB.
  assert (E1 : scan okA (after (a_ip1 s)) nbufA (a_ip1 s) = Some (nth k PA 0)).
  { destruct (Nat.eq_dec k 0) as [->|Hk0].
    - rewrite (E0 eq_refl). apply scan_first. fold PA. lia.
    - destruct (E2 Hk0) as [-> _]. cbn [after].
      pose proof (scan_next okA nbufA (k - 1) (Some (nth (k - 1) PA 0))) as X. fold PA in X.
      replace (S (k - 1)) with k in X by lia. apply X. lia. }
  rewrite E1.
  set (ipB0 := if k mod nB =? 0 then None else a_ip2 s).
  assert (EB : scan okB (after ipB0 mod nbufB) nbufB ipB0 = Some (nth (k mod nB) PB 0)).
  { unfold ipB0. destruct (Nat.eqb_spec (k mod nB) 0) as [Hz|Hz].
    - rewrite Hz. cbn [after]. rewrite Nat.mod_0_l.
      + apply scan_first. fold PB. lia.
      + intro Hb. assert (X : PB = []) by (unfold PB; rewrite Hb; reflexivity). rewrite X in LPB. cbn in LPB. lia.
    - assert (Hk0 : k <> 0) by (intros ->; apply Hz; apply Nat.mod_0_l; lia).
      destruct (E2 Hk0) as [_ ->]. cbn [after].
      assert (M : k mod nB < nB) by (apply Nat.mod_upper_bound; lia).
      assert (M1 : (k - 1) mod nB = k mod nB - 1).
      { symmetry. apply (Nat.mod_unique (k - 1) nB (k / nB)); [lia|].
        pose proof (Nat.div_mod k nB ltac:(lia)). lia. }
      rewrite M1.
      assert (S1 : S (k mod nB - 1) = k mod nB) by lia.
      pose proof (P_succ okB nbufB (k mod nB - 1)) as PS. fold PB in PS. rewrite S1 in PS.
      pose proof (P_pos_lt okB nbufB (k mod nB)) as PL. fold PB in PL.
      rewrite Nat.mod_small by lia.
      pose proof (scan_next okB nbufB (k mod nB - 1) (Some (nth (k mod nB - 1) PB 0))) as X. fold PB in X.
      rewrite S1 in X. apply X. lia. }
  rewrite EB. f_equal.
  - unfold inter_pair_k, inter_w, py_get. f_equal.
    + apply (A_nth deadA startA stopA idx). fold okA nbufA PA. lia.
    + rewrite LB_eq. rewrite (nth_map _ _ _ 0); auto. rewrite LPB. apply Nat.mod_upper_bound; lia.
  - apply IH; cbn [a_pair a_ip1 a_ip2]; [lia|reflexivity| |lia].
    intros _. rewrite Nat.sub_succ, Nat.sub_0_r. auto.
Qed.

Definition inter_ab := inter_loop deadA deadB idx startB nbufA nbufB nA nB nA (mkIntra None None 0).
Lemma inter_ab_eq : inter_ab = map inter_pair_k (seq 0 nA).
Proof. apply inter_loop_char; auto; try lia. Qed.

Lemma inter_A : Permutation (map p_1 inter_ab) (live deadA startA stopA).
Proof.
  rewrite inter_ab_eq, map_map. cbn [p_1].
  transitivity A; [|apply A_perm; exact Hp].
  assert (L : length A = nA) by (apply A_length; exact Hp).
  assert (E : map (fun x => p_1 (inter_pair_k x)) (seq 0 nA) = A); [|now rewrite E].
  rewrite <- L. apply (map_nth_seq A 0).
Qed.

Lemma div_mod_succ n m : 0 < m ->
  (S (n mod m) = m /\ S n / m = S (n / m) /\ S n mod m = 0) \/
  (S (n mod m) < m /\ S n / m = n / m /\ S n mod m = S (n mod m)).
Proof.
  intro Hm. pose proof (Nat.mod_upper_bound n m ltac:(lia)) as U. pose proof (Nat.div_mod n m ltac:(lia)) as D.
  destruct (Nat.eq_dec (S (n mod m)) m) as [E|E]; [left|right].
  - split; auto. split; symmetry; [apply (Nat.div_unique _ _ _ 0)|apply (Nat.mod_unique _ _ (S (n / m)))]; lia.
  - split; [lia|]. split; symmetry; [apply (Nat.div_unique _ _ _ (S (n mod m)))|apply (Nat.mod_unique _ _ (n / m))]; lia.
Qed.
Lemma count_mod r m n : r < m ->
  countb (fun k => k mod m =? r) (seq 0 n) = n / m + (if r <? n mod m then 1 else 0).
Proof.
  intro Hr. induction n as [|n IH].
  - rewrite Nat.div_0_l, Nat.mod_0_l by lia. reflexivity.
  - rewrite seq_snoc, countb_app, IH, countb_cons, countb_nil. cbn [plus].
    destruct (div_mod_succ n m ltac:(lia)) as [(E1 & E2 & E3)|(E1 & E2 & E3)]; rewrite E2, E3.
    + destruct (Nat.eqb_spec (n mod m) r), (Nat.ltb_spec r (n mod m)), (Nat.ltb_spec r 0); lia.
    + destruct (Nat.eqb_spec (n mod m) r), (Nat.ltb_spec r (n mod m)), (Nat.ltb_spec r (S (n mod m))); lia.
Qed.

Lemma qsum_const (l : list Q) q : (forall x, In x l -> x = q) -> (qsum l == inject_Z (Z.of_nat (length l)) * q)%Q.
Proof.
  induction l as [|x l IH]; intro H.
  - cbn. ring.
  - cbn [qsum fold_right length]. fold (qsum l). rewrite IH by (intros y Hy; apply H; now right).
    rewrite (H x) by now left. rewrite Nat2Z.inj_succ, <- Z.add_1_r, inject_Z_plus. ring.
Qed.

Lemma inter_B b : In b (live deadB startB stopB) ->
  countb (fun p => p_2 p =? b) inter_ab = nA / nB + (if existsb (fun p => p_2 p =? b) (map inter_pair_k (seq (nA / nB * nB) (nA mod nB))) then 1 else 0) /\
  (qsum (map p_w (filter (fun p => (p_2 p =? b)%nat) inter_ab)) == 1)%Q.
Proof.
  intro Hb. fold LB in Hb.
  assert (LL : length LB = nB) by (unfold LB, nB; now rewrite live_count_length).
  destruct (In_nth _ _ 0 Hb) as (r & Hr & Er). rewrite LL in Hr.
  assert (Q2 : forall k, (p_2 (inter_pair_k k) =? b) = (k mod nB =? r)).
  { intro k. cbn [inter_pair_k p_2]. rewrite <- Er.
    assert (M : k mod nB < nB) by (apply Nat.mod_upper_bound; lia).
    destruct (Nat.eqb_spec (k mod nB) r) as [->|Hne]; [apply Nat.eqb_refl|].
    apply Nat.eqb_neq. intro E. apply Hne.
    apply (proj1 (NoDup_nth LB 0) (live_NoDup deadB startB stopB)); auto; rewrite LL; auto. }
  assert (C : countb (fun p => p_2 p =? b) inter_ab = nA / nB + (if r <? nA mod nB then 1 else 0)).
  { rewrite inter_ab_eq, countb_map. rewrite (countb_ext _ (fun k => k mod nB =? r)); [now apply count_mod|]. intros; apply Q2. }
  assert (EX : existsb (fun p => p_2 p =? b) (map inter_pair_k (seq (nA / nB * nB) (nA mod nB))) = (r <? nA mod nB)).
  { destruct (Nat.ltb_spec r (nA mod nB)) as [Hl|Hl].
    - apply existsb_exists. exists (inter_pair_k (nA / nB * nB + r)). split.
      + apply in_map. apply in_seq. lia.
      + rewrite Q2. rewrite Nat.add_comm, Nat.mod_add, Nat.mod_small by lia. apply Nat.eqb_refl.
    - destruct (existsb _ _) eqn:EE; auto. apply existsb_exists in EE. destruct EE as (p & Hin & Hf).
      apply in_map_iff in Hin. destruct Hin as (k & <- & Hk). apply in_seq in Hk. rewrite Q2 in Hf. apply Nat.eqb_eq in Hf.
      exfalso. assert (k mod nB = k - nA / nB * nB).
      { symmetry. apply (Nat.mod_unique k nB (nA / nB)); [|lia]. pose proof (Nat.mod_upper_bound nA nB); lia. }
      lia. }
  rewrite EX. split; [exact C|].
  set (c := nA / nB + (if r <? nA mod nB then 1 else 0)) in *.
  assert (D1 : 0 < nA / nB) by (apply Nat.div_str_pos; lia).
  rewrite (qsum_const _ (1 # Pos.of_nat c)).
  - rewrite map_length. change (length (filter (fun p => p_2 p =? b) inter_ab)) with (countb (fun p => p_2 p =? b) inter_ab).
    rewrite C. unfold Qeq, Qmult, inject_Z; cbn [Qnum Qden]. rewrite <- (Nat2Pos.id c) at 1 by lia. lia.
  - intros x Hx. apply in_map_iff in Hx. destruct Hx as (p & <- & Hp'). apply filter_In in Hp'. destruct Hp' as [Hin Hf].
    rewrite inter_ab_eq in Hin. apply in_map_iff in Hin. destruct Hin as (k & <- & Hk).
    rewrite Q2 in Hf. apply Nat.eqb_eq in Hf. cbn [inter_pair_k p_w]. unfold inter_w, c. rewrite Hf.
    destruct (r <? nA mod nB); [reflexivity|]. now rewrite Nat.add_0_r.
Qed.

Lemma inter_B_in p : In p inter_ab -> In (p_2 p) (live deadB startB stopB) /\ p_dt p = nA.
Proof.
  rewrite inter_ab_eq. intro H. apply in_map_iff in H. destruct H as (k & <- & _). cbn [inter_pair_k p_2 p_dt]. split; auto.
  apply nth_In. unfold LB. rewrite <- live_count_length. fold nB. apply Nat.mod_upper_bound. lia.
Qed.
End Inter.

Lemma inter_side1 dead1 start1 stop1 dead2 start2 stop2 idx :
  Permutation idx (seq start1 (stop1 - start1)) ->
  0 < length (live dead2 start2 stop2) <= length (live dead1 start1 stop1) ->
  let ps := inter_pairs dead1 start1 stop1 dead2 start2 stop2 idx in
  let n1 := length (live dead1 start1 stop1) in let n2 := length (live dead2 start2 stop2) in
  Permutation (map p_1 ps) (live dead1 start1 stop1) /\
  (forall p, In p ps -> In (p_2 p) (live dead2 start2 stop2) /\ p_dt p = n1) /\
  (forall b, In b (live dead2 start2 stop2) ->
     n1 / n2 <= countb (fun p => p_2 p =? b) ps <= n1 / n2 + 1 /\
     (qsum (map p_w (filter (fun p => (p_2 p =? b)%nat) ps)) == 1)%Q).
Proof.
  intros Hp Hn ps n1 n2. rewrite <- !live_count_length in Hn.
  assert (E : ps = inter_ab dead1 dead2 start1 stop1 start2 stop2 idx).
  { unfold ps, inter_pairs. destruct (Nat.eqb_spec (live_count dead1 start1 stop1) 0); [lia|].
    destruct (Nat.eqb_spec (live_count dead2 start2 stop2) 0); [lia|]. cbn [orb].
    rewrite (proj2 (Nat.leb_le _ _)) by lia. reflexivity. }
  unfold n1, n2. rewrite <- !live_count_length, E.
  destruct Hn as [Hn1 Hn2].
  split; [now apply inter_A|]. split.
  - intros p Hin. now apply (inter_B_in dead1 dead2 start1 stop1 start2 stop2 idx).
  - intros b Hb. destruct (inter_B dead1 dead2 start1 stop1 start2 stop2 idx Hp Hn1 Hn2 b Hb) as [C W].
    split; [|exact W]. rewrite C. destruct (existsb _ _); lia.
Qed.

Lemma inter_side2 dead1 start1 stop1 dead2 start2 stop2 idx :
  Permutation idx (seq start2 (stop2 - start2)) ->
  0 < length (live dead1 start1 stop1) < length (live dead2 start2 stop2) ->
  let ps := inter_pairs dead1 start1 stop1 dead2 start2 stop2 idx in
  let n1 := length (live dead1 start1 stop1) in let n2 := length (live dead2 start2 stop2) in
  Permutation (map p_2 ps) (live dead2 start2 stop2) /\
  (forall p, In p ps -> In (p_1 p) (live dead1 start1 stop1) /\ p_dt p = n2) /\
  (forall a, In a (live dead1 start1 stop1) ->
     n2 / n1 <= countb (fun p => p_1 p =? a) ps <= n2 / n1 + 1 /\
     (qsum (map p_w (filter (fun p => (p_1 p =? a)%nat) ps)) == 1)%Q).
Proof.
  intros Hp Hn ps n1 n2. rewrite <- !live_count_length in Hn.
  assert (E : ps = map swap_pair (inter_ab dead2 dead1 start2 stop2 start1 stop1 idx)).
  { unfold ps, inter_pairs. destruct (Nat.eqb_spec (live_count dead1 start1 stop1) 0); [lia|].
    destruct (Nat.eqb_spec (live_count dead2 start2 stop2) 0); [lia|]. cbn [orb].
    destruct (Nat.leb_spec (live_count dead2 start2 stop2) (live_count dead1 start1 stop1)); [lia|]. reflexivity. }
  unfold n1, n2. rewrite <- !live_count_length, E.
  destruct Hn as [Hn1 Hn2]. assert (Hn2' : live_count dead1 start1 stop1 <= live_count dead2 start2 stop2) by lia.
  split; [|split].
  - rewrite map_map. cbn [swap_pair p_2]. now apply inter_A.
  - intros p Hin. apply in_map_iff in Hin. destruct Hin as (q & <- & Hq). cbn [swap_pair p_1 p_dt].
    now apply (inter_B_in dead2 dead1 start2 stop2 start1 stop1 idx).
  - intros b Hb. destruct (inter_B dead2 dead1 start2 stop2 start1 stop1 idx Hp Hn1 Hn2' b Hb) as [C W].
    rewrite countb_map. cbn [swap_pair p_1]. split.
    + rewrite C. destruct (existsb _ _); lia.
    + rewrite <- (map_filter swap_pair (fun p => p_1 p =? b)), map_map. cbn [swap_pair p_1 p_w]. exact W.
Qed.

Lemma inter_none dead1 start1 stop1 dead2 start2 stop2 idx :
  live dead1 start1 stop1 = [] \/ live dead2 start2 stop2 = [] ->
  inter_pairs dead1 start1 stop1 dead2 start2 stop2 idx = [].
Proof.
  intros [H|H]; unfold inter_pairs; rewrite !live_count_length, H; cbn [length]; [reflexivity|].
  now rewrite orb_true_r.
Qed.

(** ** species pairs *)
Lemma peqb_eq p q : peqb p q = true <-> p = q.
Proof.
  destruct p, q; unfold peqb; cbn. rewrite andb_true_iff, !Nat.eqb_eq. split; [intros [-> ->]; auto|intros [= -> ->]; auto].
Qed.
Lemma existsb_peqb p l : existsb (peqb p) l = true <-> In p l.
Proof.
  rewrite existsb_exists. split.
  - intros (q & Hq & E). apply peqb_eq in E. now subst.
  - intro H. exists p. split; auto. now apply peqb_eq.
Qed.
Lemma add_fold ps : forall acc, NoDup acc ->
  NoDup (fold_left add_pair ps acc) /\
  (forall p, In p (fold_left add_pair ps acc) <-> In p acc \/ exists q, In q ps /\ p = norm_pair q).
Proof.
  induction ps as [|q ps IH]; intros acc Hnd; cbn [fold_left].
  - split; auto. intro p. split; [auto|]. intros [H|(q & [] & _)]; auto.
  - assert (H : NoDup (add_pair acc q) /\ forall p, In p (add_pair acc q) <-> In p acc \/ p = norm_pair q).
    { unfold add_pair. destruct (existsb (peqb (norm_pair q)) acc) eqn:E.
      - apply existsb_peqb in E. split; auto. intro p; split; [auto|]. intros [H| ->]; auto.
      - assert (N : ~ In (norm_pair q) acc) by (intro X; apply existsb_peqb in X; congruence).
        split.
        + apply (Permutation_NoDup (Permutation_cons_append acc (norm_pair q))). now constructor.
        + intro p. rewrite in_app_iff. cbn. split; [intros [H|[H|[]]]; auto|intros [H|H]; auto]. }
    destruct H as [H1 H2]. destruct (IH _ H1) as [N I]. split; auto.
    intro p. rewrite I, H2. split.
    + intros [[H|H]|(r & Hr & E)]; auto; right; [exists q; split; auto; now left|exists r; split; auto; now right].
    + intros [H|(r & [<-|Hr] & E)]; auto. right. exists r; auto.
Qed.

Lemma comb_in g : forall a b, In (a, b) (combinations2 g) <->
  exists l1 l2 l3, g = l1 ++ a :: l2 ++ b :: l3.
Proof.
  induction g as [|s g IH]; intros a b; cbn [combinations2].
  - split; [intros []|intros (l1 & l2 & l3 & E)]. destruct l1; discriminate.
  - rewrite in_app_iff, in_map_iff, IH. split.
    + intros [(t & [= <- <-] & Ht)|(l1 & l2 & l3 & ->)].
      * apply in_split in Ht. destruct Ht as (l2 & l3 & ->). now exists [], l2, l3.
      * now exists (s :: l1), l2, l3.
    + intros (l1 & l2 & l3 & E). destruct l1 as [|x l1]; cbn in E; injection E as -> ->.
      * left. exists b. split; auto. apply in_or_app. right. now left.
      * right. now exists l1, l2, l3.
Qed.

Lemma norm_comb g a b : (exists q, In q (combinations2 g) /\ (a, b) = norm_pair q) <->
  (a < b /\ In a g /\ In b g) \/ (a = b /\ 2 <= count_occ Nat.eq_dec g a).
Proof.
  split.
  - intros ([x y] & Hq & E). apply comb_in in Hq. destruct Hq as (l1 & l2 & l3 & ->).
    unfold norm_pair in E; cbn [fst snd] in E.
    assert (Ix : In x (l1 ++ x :: l2 ++ y :: l3)) by (apply in_or_app; right; now left).
    assert (Iy : In y (l1 ++ x :: l2 ++ y :: l3)) by (apply in_or_app; right; right; apply in_or_app; right; now left).
    destruct (Nat.ltb_spec x y) as [L|L]; injection E as -> ->; [left; auto|].
    destruct (Nat.eq_dec y x) as [->|Hne]; [right|left; split; [lia|auto]].
    split; auto. rewrite count_occ_app. cbn. rewrite count_occ_app. cbn.
    destruct (Nat.eq_dec x x); [|congruence]. lia.
  - intros [(L & Ha & Hb)|(-> & Hc)].
    + apply in_split in Ha. destruct Ha as (l1 & l2 & ->). apply in_app_or in Hb.
      destruct Hb as [Hb|[Hb|Hb]]; [|lia|].
      * apply in_split in Hb. destruct Hb as (m1 & m2 & ->). exists (b, a). split.
        -- apply comb_in. exists m1, m2, l2. now rewrite <- app_assoc.
        -- unfold norm_pair; cbn [fst snd]. destruct (Nat.ltb_spec b a); [lia|reflexivity].
      * apply in_split in Hb. destruct Hb as (m1 & m2 & ->). exists (a, b). split.
        -- apply comb_in. now exists l1, m1, m2.
        -- unfold norm_pair; cbn [fst snd]. destruct (Nat.ltb_spec a b); [reflexivity|lia].
    + exists (b, b). split; [|unfold norm_pair; cbn [fst snd]; now rewrite Nat.ltb_irrefl].
      apply comb_in.
      assert (I : In b g) by (apply (count_occ_In Nat.eq_dec); lia).
      apply in_split in I. destruct I as (l1 & l2 & ->).
      rewrite count_occ_app in Hc. cbn in Hc. destruct (Nat.eq_dec b b); [|congruence].
      assert (J : In b l1 \/ In b l2).
      { destruct (count_occ Nat.eq_dec l1 b) eqn:E1.
        - right. apply (count_occ_In Nat.eq_dec). lia.
        - left. apply (count_occ_In Nat.eq_dec). lia. }
      destruct J as [J|J]; apply in_split in J; destruct J as (m1 & m2 & ->).
      * exists m1, m2, l2. now rewrite <- app_assoc.
      * now exists l1, m1, m2.
Qed.

Lemma collisions_spec groups :
  NoDup (collisions groups) /\
  forall a b, In (a, b) (collisions groups) <->
    (a < b /\ exists g, In g groups /\ In a g /\ In b g) \/
    (a = b /\ exists g, In g groups /\ 2 <= count_occ Nat.eq_dec g a).
Proof.
  unfold collisions. destruct (add_fold (flat_map combinations2 groups) [] (NoDup_nil _)) as [N I].
  split; auto. intros a b. rewrite I. split.
  - intros [[]|(q & Hq & E)]. apply in_flat_map in Hq. destruct Hq as (g & Hg & Hq).
    destruct (proj1 (norm_comb g a b) (ex_intro _ q (conj Hq E))) as [(L & Ha & Hb)|(E' & Hc)]; [left|right]; split; auto; exists g; auto.
  - intro H. right.
    assert (exists g, In g groups /\ exists q, In q (combinations2 g) /\ (a, b) = norm_pair q) as (g & Hg & q & Hq & E).
    { destruct H as [(L & g & Hg & Ha & Hb)|(E & g & Hg & Hc)]; exists g; split; auto; apply norm_comb; auto. }
    exists q. split; auto. apply in_flat_map. eauto.
Qed.

Lemma set_enabled_spec cs en v s1 s2 :
  let p := if s1 <? s2 then (s1, s2) else (s2, s1) in
  (In p cs -> exists en', set_enabled cs en v s1 s2 = Some en' /\ en' p = v /\ forall q, q <> p -> en' q = en q) /\
  (~ In p cs -> set_enabled cs en v s1 s2 = None).
Proof.
  intro p. unfold set_enabled. change (norm_pair (s1, s2)) with p. split.
  - intro H. rewrite (proj2 (existsb_peqb p cs) H). eexists. split; [reflexivity|]. split.
    + now rewrite (proj2 (peqb_eq p p) eq_refl).
    + intros q Hq. destruct (peqb p q) eqn:E; auto. apply peqb_eq in E. congruence.
  - intro H. destruct (existsb (peqb p) cs) eqn:E; auto. apply existsb_peqb in E. contradiction.
Qed.
