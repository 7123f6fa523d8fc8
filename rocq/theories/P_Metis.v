(** Proofs about the relabelling of parts (M_Balance, first half). *)
From Verif Require Import Base M_Balance S_Balance.
Local Open Scope list_scope.

Lemma swap_length {A} (d : A) i j l : length (swap d i j l) = length l.
Proof. unfold swap. now rewrite !upd_length. Qed.
Lemma swap_nth {A} (d : A) i j l k : i < length l -> j < length l ->
  nth k (swap d i j l) d = nth (if k =? i then j else if k =? j then i else k) l d.
Proof.
  intros Hi Hj. unfold swap. rewrite !nth_upd, upd_length.
  rewrite (proj2 (Nat.ltb_lt i (length l)) Hi), (proj2 (Nat.ltb_lt j (length l)) Hj), !andb_true_r.
  rewrite (Nat.eqb_sym i k), (Nat.eqb_sym j k). now destruct (k =? i), (k =? j).
Qed.
Lemma swap_perm {A} (d : A) i j l : i < length l -> j < length l -> Permutation l (swap d i j l).
Proof.
  intros Hi Hj. apply (Permutation_nth _ _ d). cbn zeta. split; [apply swap_length|].
  exists (fun k => if k =? i then j else if k =? j then i else k). split; [|split].
  - intros x Hx. destruct (x =? i); [auto|destruct (x =? j); auto].
  - intros x y Hx Hy E. destruct (Nat.eqb_spec x i), (Nat.eqb_spec x j), (Nat.eqb_spec y i), (Nat.eqb_spec y j); lia.
  - intros k _. now apply swap_nth.
Qed.
Lemma swap_map {A B} (f : A -> B) (d : A) (e : B) i j l : i < length l -> j < length l ->
  map f (swap d i j l) = swap e i j (map f l).
Proof.
  intros Hi Hj. apply (nth_ext _ _ (f d) e); [now rewrite map_length, !swap_length, map_length|].
  intros k Hk. rewrite map_length, swap_length in Hk.
  rewrite map_nth, swap_nth by assumption. rewrite swap_nth by (now rewrite map_length).
  set (k' := if k =? i then j else if k =? j then i else k).
  assert (k' < length l) by (subst k'; destruct (k =? i); [auto|destruct (k =? j); auto]).
  rewrite (nth_indep (map f l) e (f d)) by (now rewrite map_length). now rewrite map_nth.
Qed.

Lemma argmax_from_spec l : forall best bi k pre,
  length pre = k -> bi < k -> nth bi pre 0 = best -> (forall j, j < k -> nth j pre 0 <= best) ->
  let m := argmax_from best bi k l in
  m < k + length l /\ forall j, j < k + length l -> nth j (pre ++ l) 0 <= nth m (pre ++ l) 0.
Proof.
  induction l as [|x l IH]; intros best bi k pre Hp Hb Hn Hm; cbn [argmax_from length]; cbn zeta.
  - rewrite app_nil_r. split; [lia|]. intros j Hj. rewrite Hn. apply Hm. lia.
  - destruct (Nat.ltb_spec best x) as [Hl|Hl].
    + destruct (IH x k (S k) (pre ++ [x])) as [H1 H2].
      * rewrite app_length. cbn. lia.
      * lia.
      * rewrite app_nth2 by lia. now rewrite Hp, Nat.sub_diag.
      * intros j Hj. destruct (Nat.eq_dec j k) as [->|Hne].
        -- rewrite app_nth2 by lia. rewrite Hp, Nat.sub_diag. cbn. lia.
        -- rewrite app_nth1 by lia. specialize (Hm j). lia.
      * rewrite <- app_assoc in H2. cbn [app] in H2. split; [lia|]. intros j Hj. apply H2. lia.
    + destruct (IH best bi (S k) (pre ++ [x])) as [H1 H2].
      * rewrite app_length. cbn. lia.
      * lia.
      * rewrite app_nth1 by lia. exact Hn.
      * intros j Hj. destruct (Nat.eq_dec j k) as [->|Hne].
        -- rewrite app_nth2 by lia. rewrite Hp, Nat.sub_diag. cbn. lia.
        -- rewrite app_nth1 by lia. apply Hm. lia.
      * rewrite <- app_assoc in H2. cbn [app] in H2. split; [lia|]. intros j Hj. apply H2. lia.
Qed.
Lemma argmax_spec l : l <> [] -> argmax l < length l /\ forall j, j < length l -> nth j l 0 <= nth (argmax l) l 0.
Proof.
  destruct l as [|x t]; [congruence|]. intros _. cbn [argmax].
  destruct (argmax_from_spec t x 0 1 [x]) as [H1 H2]; [reflexivity|lia|reflexivity|intros [|j] Hj; [cbn; lia|lia]|].
  cbn [app] in H2. cbn [length]. split; [lia|]. exact H2.
Qed.
Lemma nth_skipn' {A} (d : A) n : forall l k, nth k (skipn n l) d = nth (n + k) l d.
Proof. induction n as [|n IH]; intros [|x l] k; cbn [skipn]; auto. now destruct k. apply IH. Qed.

Section Greedy.
Variable n : nat.
Variable matrix : nat -> nat -> nat.
Definition column (c : nat) : nat -> nat := fun i => matrix i c.
Definition ordered_upto (i : nat) (cols : list nat) : Prop :=
  forall i' j, i' < i -> i' <= j -> j < n -> matrix i' (nth j cols 0) <= matrix i' (nth i' cols 0).

Lemma pick_max_spec i cols : i < n -> length cols = n -> ordered_upto i cols ->
  exists cols', pick_max (cols, map column cols) i = (cols', map column cols') /\ Permutation cols cols' /\
    ordered_upto (S i) cols'.
Proof.
  intros Hi Hl Ho. unfold pick_max.
  set (row := map (fun c : nat -> nat => c i) (skipn i (map column cols))).
  assert (Lr : length row = n - i) by (unfold row; now rewrite map_length, skipn_length, map_length, Hl).
  assert (Hr : forall k, k < n - i -> nth k row 0 = matrix i (nth (i + k) cols 0)).
  { intros k Hk. unfold row. rewrite skipn_map, map_map.
    rewrite (nth_indep _ 0 (column 0 i)) by (rewrite map_length, skipn_length; lia).
    rewrite (map_nth (fun c => column c i)). rewrite nth_skipn'. reflexivity. }
  destruct (argmax_spec row) as [A1 A2]; [intro E; rewrite E in Lr; cbn in Lr; lia|].
  set (m := i + argmax row). exists (swap 0 i m cols).
  assert (Hm : m < n) by (unfold m; lia).
  split; [|split].
  - f_equal. symmetry. apply swap_map; lia.
  - apply swap_perm; lia.
  - intros i' j H1 H2 H3. rewrite !swap_nth by lia.
    destruct (Nat.eqb_spec i' i) as [->|Hne].
    + (* row i itself *)
      assert (E : matrix i (nth m cols 0) = nth (argmax row) row 0) by (rewrite Hr by lia; reflexivity).
      rewrite E.
      set (j' := if j =? i then m else if j =? m then i else j).
      assert (i <= j' < n) by (subst j'; destruct (Nat.eqb_spec j i); [lia|destruct (Nat.eqb_spec j m); lia]).
      replace j' with (i + (j' - i)) by lia. rewrite <- Hr by lia. apply A2. lia.
    + destruct (Nat.eqb_spec i' m) as [E|_]; [unfold m in E; lia|].
      apply Ho; [lia| |]; destruct (Nat.eqb_spec j i); try destruct (Nat.eqb_spec j m); lia.
Qed.

Lemma pick_all k : forall cols, k <= n -> length cols = n ->
  exists cols', fold_left pick_max (seq 0 k) (cols, map column cols) = (cols', map column cols') /\
    Permutation cols cols' /\ ordered_upto k cols'.
Proof.
  induction k as [|k IH]; intros cols Hk Hl.
  - exists cols. split; [reflexivity|]. split; [auto|]. intros i' j H. lia.
  - rewrite seq_S, fold_left_app. destruct (IH cols) as (c1 & E1 & P1 & O1); [lia|auto|]. rewrite E1. cbn [fold_left plus].
    destruct (pick_max_spec k c1) as (c2 & E2 & P2 & O2); [lia| |exact O1|].
    { rewrite <- (Permutation_length P1). exact Hl. }
    exists c2. split; [exact E2|]. split; [|exact O2]. eapply Permutation_trans; eauto.
Qed.

Variable order : list nat.
Hypothesis Ord : order_of n order.
Lemma cols_spec : Permutation (cols_order n matrix order) (seq 0 n) /\ ordered_upto n (cols_order n matrix order).
Proof using Ord.
  assert (Hl : length order = n) by (rewrite (Permutation_length Ord); apply seq_length).
  destruct (pick_all n order) as (c & E & P & O); [lia|exact Hl|].
  unfold cols_order. unfold column in E. rewrite E. cbn [fst]. split; [|exact O].
  eapply Permutation_trans; [apply Permutation_sym; exact P|exact Ord].
Qed.

Variable garbage : list nat.
Hypothesis Lg : length garbage = n.
Lemma rank_map_upto cols k : Permutation cols (seq 0 n) -> k <= n ->
  let m := fold_left (fun m k => upd (nth k cols 0) k m) (seq 0 k) garbage in
  length m = n /\ forall i, i < k -> nth (nth i cols 0) m 0 = i.
Proof using Lg.
  clear Ord order matrix. intros P. induction k as [|k IH]; intro Hk; cbn zeta.
  - split; [exact Lg|]. intros; lia.
  - rewrite seq_S, fold_left_app. cbn [fold_left plus]. destruct (IH ltac:(lia)) as [L N].
    set (m := fold_left _ (seq 0 k) garbage) in *.
    assert (Lc : length cols = n) by (rewrite (Permutation_length P); apply seq_length).
    assert (Nd : NoDup cols) by (eapply Permutation_NoDup; [apply Permutation_sym; exact P|apply seq_NoDup]).
    assert (Hin : forall i, i < n -> nth i cols 0 < n).
    { intros i Hi. assert (I : In (nth i cols 0) (seq 0 n)) by (eapply Permutation_in; [exact P|apply nth_In; lia]).
      apply in_seq in I. lia. }
    split; [now rewrite upd_length|]. intros i Hi. destruct (Nat.eq_dec i k) as [->|Hne].
    + apply nth_upd_eq. rewrite L. apply Hin. lia.
    + rewrite nth_upd_neq; [apply N; lia|]. intro E.
      pose proof (proj1 (NoDup_nth cols 0) Nd k i). lia.
Qed.
Definition label : nat -> nat := fun c => nth c (rank_map n garbage (cols_order n matrix order)) 0.
(** the part that process i gets *)
Definition part_of (i : nat) : nat := nth i (cols_order n matrix order) 0.
Lemma label_part i : i < n -> label (part_of i) = i.
Proof using Ord Lg.
  intro Hi. unfold label, part_of, rank_map. destruct (rank_map_upto (cols_order n matrix order) n) as [_ H]; auto.
  apply cols_spec.
Qed.
Lemma part_lt i : i < n -> part_of i < n.
Proof using Ord.
  clear Lg garbage. intro Hi. unfold part_of. pose proof (proj1 cols_spec) as P.
  assert (I : In (nth i (cols_order n matrix order) 0) (seq 0 n)).
  { eapply Permutation_in; [exact P|]. apply nth_In. rewrite (Permutation_length P), seq_length. exact Hi. }
  apply in_seq in I. lia.
Qed.
Lemma part_onto c : c < n -> exists i, i < n /\ part_of i = c.
Proof using Ord.
  clear Lg garbage. intro Hc. pose proof (proj1 cols_spec) as P.
  assert (I : In c (cols_order n matrix order)) by (eapply Permutation_in; [apply Permutation_sym; exact P|apply in_seq; lia]).
  apply (In_nth _ _ 0) in I as (i & Hi & E). rewrite (Permutation_length P), seq_length in Hi. eauto.
Qed.
Lemma label_lt c : c < n -> label c < n.
Proof using Ord Lg. intro Hc. destruct (part_onto c Hc) as (i & Hi & <-). now rewrite label_part. Qed.
Lemma part_label c : c < n -> part_of (label c) = c.
Proof using Ord Lg. intro Hc. destruct (part_onto c Hc) as (i & Hi & <-). now rewrite label_part. Qed.
Lemma label_inj c c' : c < n -> c' < n -> label c = label c' -> c = c'.
Proof using Ord Lg. intros H H' E. rewrite <- (part_label c H), <- (part_label c' H'). now rewrite E. Qed.
Lemma greedy i c : i < n -> c < n -> i <= label c -> matrix i c <= matrix i (part_of i).
Proof using Ord Lg.
  intros Hi Hc Hl. rewrite <- (part_label c Hc) at 1. apply (proj2 cols_spec); auto. now apply label_lt.
Qed.
End Greedy.

Lemma nsame_overlap prev parts i j : length prev = length parts -> nsame prev parts i j = overlap prev parts i j.
Proof.
  intro L. unfold nsame, overlap, countb. revert prev L.
  induction parts as [|q parts IH]; intros [|p prev] L; try discriminate; [reflexivity|].
  cbn [length seq combine filter fst snd]. change (nth 0 (p :: prev) 0) with p. change (nth 0 (q :: parts) 0) with q. injection L as L. specialize (IH prev L).
  rewrite <- seq_shift.
  assert (E : length (filter (fun p0 => (nth p0 (p :: prev) 0 =? i) && (nth p0 (q :: parts) 0 =? j)) (map S (seq 0 (length parts))))
            = length (filter (fun e : nat * nat => (fst e =? i) && (snd e =? j)) (combine prev parts))).
  { rewrite <- IH. change (countb (fun p0 => (nth p0 (p :: prev) 0 =? i) && (nth p0 (q :: parts) 0 =? j)) (map S (seq 0 (length parts)))
      = countb (fun p0 => (nth p0 prev 0 =? i) && (nth p0 parts 0 =? j)) (seq 0 (length parts))).
    rewrite countb_map. reflexivity. }
  destruct ((p =? i) && (q =? j)); cbn [length]; now rewrite E.
Qed.

Section Relabel.
Variables (n : nat) (prev parts order garbage : list nat).
Hypothesis Ord : order_of n order.
Hypothesis Lg : length garbage = n.
Hypothesis Lp : length prev = length parts.
Hypothesis Hparts : Forall (fun r => r < n) parts.
Let new := compute_rank n prev parts order garbage.
Let lab := label n (nsame prev parts) order garbage.
Let part := part_of n (nsame prev parts) order.

Lemma new_length : length new = length parts.
Proof. unfold new, compute_rank. apply map_length. Qed.
Lemma new_nth p : p < length parts -> nth p new 0 = lab (nth p parts 0).
Proof.
  intro Hp. unfold new, compute_rank, lab, label.
  set (f := fun r => nth r (rank_map n garbage (cols_order n (nsame prev parts) order)) 0).
  rewrite (nth_indep _ 0 (f 0)) by (now rewrite map_length). now rewrite map_nth.
Qed.
Lemma parts_lt p : p < length parts -> nth p parts 0 < n.
Proof using Hparts. intro Hp. rewrite Forall_forall in Hparts. apply Hparts. now apply nth_In. Qed.

Lemma relabel_same p q : p < length parts -> q < length parts ->
  nth p new 0 < n /\ (nth p new 0 = nth q new 0 <-> nth p parts 0 = nth q parts 0).
Proof using Ord Lg Hparts.
  intros Hp Hq. rewrite !new_nth by assumption. split; [apply label_lt; auto; now apply parts_lt|].
  split; [|congruence]. apply label_inj; auto using parts_lt.
Qed.

(** greedy choice: the part given to process i overlaps with i at least as much as any part given to i or a later process *)
Lemma relabel_greedy :
  exists f : nat -> nat, (forall i, i < n -> f i < n) /\ (forall i i', i < n -> i' < n -> f i = f i' -> i = i') /\
    (forall p, p < length parts -> nth p parts 0 = f (nth p new 0)) /\
    forall i j, i <= j -> j < n -> overlap prev parts i (f j) <= overlap prev parts i (f i).
Proof using Ord Lg Lp Hparts.
  exists part. split; [|split; [|split]].
  - intros i Hi. now apply part_lt.
  - intros i i' Hi Hi' E. unfold part in E. rewrite <- (label_part n (nsame prev parts) order Ord garbage Lg i Hi), E.
    now apply label_part.
  - intros p Hp. rewrite new_nth by exact Hp. symmetry. apply part_label; auto. now apply parts_lt.
  - intros i j Hij Hj. rewrite <- !nsame_overlap by exact Lp. unfold part.
    apply (greedy n (nsame prev parts) order Ord garbage Lg); [lia|now apply part_lt|].
    now rewrite label_part.
Qed.

(** an unchanged partition keeps every patch where it is *)
Lemma relabel_unchanged :
  Forall (fun r => r < n) prev ->
  (forall i, i < n -> In i prev) ->
  (forall p q, p < length parts -> q < length parts -> (nth p prev 0 = nth q prev 0 <-> nth p parts 0 = nth q parts 0)) ->
  new = prev.
Proof using Ord Lg Lp Hparts.
  intros Hprev Honto Hsame.
  destruct relabel_greedy as (f & F1 & F2 & F3 & F4).
  assert (Pl : forall p, p < length parts -> nth p prev 0 < n).
  { intros p Hp. rewrite Forall_forall in Hprev. apply Hprev. apply nth_In. lia. }
  (* a representative patch of every process *)
  assert (Key : forall i, i < n -> forall p, p < length parts -> nth p prev 0 = i -> nth p new 0 = i).
  { intro i. induction i as [i IH] using lt_wf_ind. intros Hi p Hp E.
    destruct (lt_eq_lt_dec (nth p new 0) i) as [[Hlt|He]|Hgt]; [|exact He|].
    - (* the label is that of an earlier process, which already has its own part *)
      exfalso. set (j := nth p new 0) in *.
      assert (Hj : j < n) by lia. destruct (In_nth _ _ 0 (Honto j Hj)) as (q & Hq & Eq).
      rewrite Lp in Hq. pose proof (IH j Hlt Hj q Hq Eq) as Enew.
      destruct (relabel_same p q Hp Hq) as [_ H]. assert (nth p parts 0 = nth q parts 0) by (apply H; unfold j in *; congruence).
      assert (nth p prev 0 = nth q prev 0) by (apply Hsame; auto). lia.
    - (* a later process got it: then process i preferred a part with no patch of its own *)
      exfalso. set (j := nth p new 0) in *.
      assert (Hj : j < n) by (apply (relabel_same p p Hp Hp)).
      pose proof (F4 i j ltac:(lia) Hj) as Hov. pose proof (F3 p Hp) as Fp. change (nth p parts 0 = f j) in Fp. rewrite <- Fp in Hov.
      assert (0 < overlap prev parts i (nth p parts 0)).
      { unfold overlap. destruct (filter _ _) eqn:Ef; [|cbn; lia].
        assert (I : In (nth p prev 0, nth p parts 0) (combine prev parts)).
        { rewrite <- combine_nth by exact Lp. apply nth_In. rewrite combine_length. lia. }
        assert (I' : In (nth p prev 0, nth p parts 0) (filter (fun e => (fst e =? i) && (snd e =? nth p parts 0)) (combine prev parts))).
        { apply filter_In. split; [exact I|]. cbn. rewrite E, !Nat.eqb_refl. reflexivity. }
        rewrite Ef in I'. destruct I'. }
      assert (Hov' : 0 < overlap prev parts i (f i)) by lia.
      unfold overlap in Hov'. destruct (filter _ _) as [|[a b] t] eqn:Ef; [cbn in Hov'; lia|].
      assert (I : In (a, b) (filter (fun e => (fst e =? i) && (snd e =? f i)) (combine prev parts))) by (rewrite Ef; now left).
      apply filter_In in I as [I Eab]. cbn in Eab. apply andb_true_iff in Eab as [Ea Eb].
      apply Nat.eqb_eq in Ea. apply Nat.eqb_eq in Eb. subst a b.
      apply (In_nth _ _ (0, 0)) in I as (q & Hq & Eq). rewrite combine_length in Hq. rewrite combine_nth in Eq by exact Lp.
      injection Eq as Eq1 Eq2. assert (Hq' : q < length parts) by lia.
      assert (Epq : nth p parts 0 = nth q parts 0) by (apply Hsame; auto; congruence).
      assert (Eff : f i = f j) by congruence.
      apply F2 in Eff; lia. }
  apply (nth_ext _ _ 0 0); [rewrite new_length; lia|].
  intros p Hp. rewrite new_length in Hp. apply (Key (nth p prev 0)); auto.
Qed.
End Relabel.
