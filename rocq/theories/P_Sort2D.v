(** Proofs about the bucket sort (M_Sort2D). *)
From Verif Require Import Base M_Sort2D.
From Coq Require Import Sorted.

(* ---------- generic: counting, prefix sums, concatenated segments ---------- *)

Lemma count_fold_length {A} (f : A -> nat) l c0 :
  length (fold_left (fun c a => upd (f a) (S (nth (f a) c 0)) c) l c0) = length c0.
Proof. revert c0; induction l as [|a l IH]; intros c0; simpl; [auto|]. now rewrite IH, upd_length. Qed.

Lemma count_fold_nth {A} (f : A -> nat) l c0 b :
  b < length c0 ->
  nth b (fold_left (fun c a => upd (f a) (S (nth (f a) c 0)) c) l c0) 0
  = nth b c0 0 + countb (fun a => f a =? b) l.
Proof.
  revert c0; induction l as [|a l IH]; intros c0 Hb; simpl; [rewrite countb_nil; lia|].
  rewrite IH by (now rewrite upd_length). rewrite countb_cons, nth_upd.
  destruct (Nat.eqb_spec (f a) b) as [->|Hn]; cbn [andb].
  - rewrite (proj2 (Nat.ltb_lt _ _)) by auto. lia.
  - lia.
Qed.

Lemma nth_repeat0 n b : nth b (repeat 0 n) 0 = 0.
Proof. revert b; induction n as [|n IH]; intros [|b]; simpl; auto. Qed.

Lemma count_keys_length nbin keys : length (count_keys nbin keys) = nbin.
Proof.
  unfold count_keys. pose proof (count_fold_length (fun k : nat => k) keys (repeat 0 nbin)) as H.
  cbv beta in H. rewrite H. apply repeat_length.
Qed.

Lemma count_keys_nth nbin keys b :
  b < nbin -> nth b (count_keys nbin keys) 0 = countb (fun k => k =? b) keys.
Proof.
  intro Hb. unfold count_keys.
  pose proof (count_fold_nth (fun k : nat => k) keys (repeat 0 nbin) b) as H. cbv beta in H.
  rewrite H by (now rewrite repeat_length). now rewrite nth_repeat0.
Qed.

Lemma count_not_length nbin refs tgt : length (count_not nbin refs tgt) = nbin.
Proof.
  unfold count_not.
  pose proof (count_fold_length (fun ip : nat => nth ip refs 0) tgt (repeat 0 nbin)) as H.
  cbv beta zeta in *. rewrite H. apply repeat_length.
Qed.

Lemma count_not_nth nbin refs tgt b :
  b < nbin -> nth b (count_not nbin refs tgt) 0 = countb (fun ip => nth ip refs 0 =? b) tgt.
Proof.
  intro Hb. unfold count_not.
  pose proof (count_fold_nth (fun ip : nat => nth ip refs 0) tgt (repeat 0 nbin) b) as H.
  cbv beta zeta in *. rewrite H by (now rewrite repeat_length). now rewrite nth_repeat0.
Qed.

Lemma prefix_length acc c : length (prefix acc c) = length c.
Proof. revert acc; induction c as [|a c IH]; intros acc; simpl; auto. Qed.

Lemma prefix_nth acc c b :
  b < length c -> nth b (prefix acc c) 0 = acc + sumn (firstn b c).
Proof.
  revert acc b; induction c as [|a c IH]; intros acc [|b] Hb; simpl in *; try lia.
  rewrite IH by lia. rewrite ?sumn_cons. unfold sumn; lia.
Qed.

Lemma concat_nth {A} (segs : list (list A)) b i d :
  b < length segs -> i < length (nth b segs []) ->
  nth (sumn (firstn b (map (@length A) segs)) + i) (concat segs) d = nth i (nth b segs []) d.
Proof.
  revert b; induction segs as [|s segs IH]; intros [|b] Hb Hi; simpl in *; try lia.
  - now rewrite app_nth1.
  - rewrite app_nth2 by lia.
    replace (_ - length s) with (sumn (firstn b (map (@length A) segs)) + i) by (unfold sumn; lia).
    apply IH; auto; lia.
Qed.

Lemma concat_nth_inv {A} (segs : list (list A)) s :
  s < length (concat segs) ->
  exists b i, b < length segs /\ i < length (nth b segs []) /\
              s = sumn (firstn b (map (@length A) segs)) + i.
Proof.
  revert s; induction segs as [|h segs IH]; intros s Hs; simpl in *; [lia|].
  rewrite app_length in Hs.
  destruct (Nat.lt_ge_cases s (length h)) as [H|H].
  - exists 0, s. simpl. repeat split; auto; lia.
  - destruct (IH (s - length h)) as (b & i & Hb & Hi & He); [lia|].
    exists (S b), i. simpl. repeat split; auto; try lia.
Qed.

Lemma concat_length' {A} (segs : list (list A)) : length (concat segs) = sumn (map (@length A) segs).
Proof. induction segs as [|s t IH]; simpl; [auto|]. now rewrite app_length, IH. Qed.

Lemma flat_map_concat {A B} (f : A -> list B) l : flat_map f l = concat (map f l).
Proof. apply flat_map_concat_map. Qed.

Lemma countb_concat {A} (p : A -> bool) segs : countb p (concat segs) = sumn (map (countb p) segs).
Proof. induction segs as [|s t IH]; simpl; [auto|]. now rewrite countb_app, IH. Qed.

Lemma sumn_single (f : nat -> nat) n b :
  b < n -> (forall i, i < n -> i <> b -> f i = 0) -> sumn (map f (seq 0 n)) = f b.
Proof.
  induction n as [|n IH]; intros Hb Hf; [lia|].
  rewrite seq_snoc, map_app, sumn_app. cbn [map]. rewrite sumn_cons. cbn [Nat.add].
  change (sumn []) with 0.
  destruct (Nat.eq_dec b n) as [->|Hn].
  - assert (Hz : sumn (map f (seq 0 n)) = 0).
    { clear IH Hb. assert (Hf' : forall i, i < n -> f i = 0) by (intros; apply Hf; lia).
      clear Hf. induction n as [|n IH]; [auto|].
      rewrite seq_snoc, map_app, sumn_app, IH by (intros; apply Hf'; lia).
      cbn [map Nat.add]. rewrite sumn_cons, Hf' by lia. reflexivity. }
    lia.
  - rewrite IH, (Hf n) by (try lia; intros; apply Hf; lia). lia.
Qed.

Lemma sumn_zero (f : nat -> nat) l : (forall i, In i l -> f i = 0) -> sumn (map f l) = 0.
Proof.
  induction l as [|a l IH]; intros H; [auto|]. cbn [map]. rewrite sumn_cons, (H a) by (now left).
  rewrite IH; auto. intros; apply H; now right.
Qed.

(** Splitting a list by a key with values below [nbin] keeps every element. *)
Lemma segs_perm {A} (k : A -> nat) (T : list A) nbin :
  (forall t, In t T -> k t < nbin) ->
  Permutation (flat_map (fun b => filter (fun t => k t =? b) T) (seq 0 nbin)) T.
Proof.
  induction T as [|t T IH]; intros HT.
  - induction (seq 0 nbin) as [|s l IHl]; simpl; auto.
  - assert (Ht : k t < nbin) by (apply HT; now left).
    assert (IH' := IH (fun x Hx => HT x (or_intror Hx))). clear IH.
    eapply Permutation_trans; [|apply perm_skip, IH'].
    assert (Hs : seq 0 nbin = seq 0 (k t) ++ k t :: seq (S (k t)) (nbin - S (k t))).
    { replace (k t :: seq (S (k t)) (nbin - S (k t))) with (seq (0 + k t) (nbin - k t)).
      - rewrite <- seq_app. f_equal. lia.
      - replace (nbin - k t) with (S (nbin - S (k t))) by lia. reflexivity. }
    rewrite Hs, !flat_map_app. cbn [flat_map].
    assert (E : forall l, ~ In (k t) l ->
       flat_map (fun b => filter (fun t0 => k t0 =? b) (t :: T)) l
       = flat_map (fun b => filter (fun t0 => k t0 =? b) T) l).
    { induction l as [|a l IHl]; intros Hn; [auto|]. cbn [flat_map].
      rewrite IHl by (intro; apply Hn; now right). f_equal. cbn [filter].
      rewrite (proj2 (Nat.eqb_neq _ _)); auto. intro; apply Hn; left; auto. }
    rewrite !E by (rewrite in_seq; lia).
    cbn [filter]. rewrite Nat.eqb_refl.
    cbn [app]. symmetry. apply Permutation_middle.
Qed.

(* ---------- the gather pass is a stable counting sort ---------- *)

Section Gather.
Context {V : Type} (d : V).
Variables (keys tgt start : list nat) (col buf0 : list V) (nbin : nat).
Let key t := nth t keys 0.
Let seg b l := filter (fun t => key t =? b) l.
Hypothesis Hlen : length start = nbin.
Hypothesis Hkeys : forall t, In t tgt -> key t < nbin.
Hypothesis Hstart : forall b, b < nbin -> nth b start 0 = sumn (map (fun b' => length (seg b' tgt)) (seq 0 b)).
Hypothesis Hbuf : length tgt <= length buf0.

Lemma sumn_seq_mono (f : nat -> nat) a b : a <= b -> sumn (map f (seq 0 a)) <= sumn (map f (seq 0 b)).
Proof.
  intro H. replace b with (a + (b - a)) by lia. rewrite seq_app, map_app, sumn_app. lia.
Qed.

Lemma seg_total : sumn (map (fun b' => length (seg b' tgt)) (seq 0 nbin)) = length tgt.
Proof.
  rewrite <- (Permutation_length (segs_perm key tgt nbin Hkeys)).
  rewrite flat_map_concat, concat_length', map_map. reflexivity.
Qed.

Let step := fun (st : list V * list nat) ip =>
         let '(b, cnt) := st in
         let k := nth ip keys 0 in
         (upd (nth k cnt 0) (nth ip col d) b, upd k (S (nth k cnt 0)) cnt).

Lemma gather_inv P Q :
  tgt = P ++ Q ->
  let st := fold_left step P (buf0, start) in
  length (fst st) = length buf0 /\ length (snd st) = nbin /\
  (forall b, b < nbin -> nth b (snd st) 0 = nth b start 0 + length (seg b P)) /\
  (forall b i, b < nbin -> i < length (seg b P) ->
     nth (nth b start 0 + i) (fst st) d = nth (nth i (seg b P) 0) col d).
Proof.
  revert Q. induction P as [|t P IH] using rev_ind; intros Q HT st.
  - subst st; simpl. repeat split; auto; intros; lia.
  - destruct (IH (t :: Q)) as (I1 & I2 & I3 & I4).
    { rewrite HT, <- app_assoc. reflexivity. }
    subst st. rewrite fold_left_app. cbn [fold_left].
    destruct (fold_left step P (buf0, start)) as [bf cnt]. cbn [fst snd] in *.
    unfold step. cbn [fst snd]. fold (key t).
    assert (Hkt : key t < nbin).
    { apply Hkeys. rewrite HT. apply in_or_app; left; apply in_or_app; right; now left. }
    assert (Hseg : forall b, seg b (P ++ [t]) = seg b P ++ (if key t =? b then [t] else [])).
    { intro b. unfold seg. rewrite filter_app. cbn [filter]. destruct (key t =? b); auto. }
    assert (Hsl : forall b, length (seg b (P ++ [t])) <= length (seg b tgt)).
    { intro b. rewrite HT. unfold seg. rewrite (filter_app _ (P ++ [t]) Q), app_length. lia. }
    assert (Hlast : length (seg (key t) (P ++ [t])) = S (length (seg (key t) P))).
    { rewrite Hseg, Nat.eqb_refl, app_length. simpl. lia. }
    assert (Hpos : nth (key t) cnt 0 < length bf).
    { rewrite I3 by auto. rewrite I1. eapply Nat.lt_le_trans; [|exact Hbuf].
      rewrite <- seg_total, Hstart by auto.
      pose proof (Hsl (key t)).
      eapply Nat.lt_le_trans; [|apply (sumn_seq_mono _ (S (key t)) nbin); lia].
      rewrite seq_snoc, map_app, sumn_app. cbn [map Nat.add]. rewrite sumn_cons.
      change (sumn []) with 0. lia. }
    repeat split.
    + now rewrite upd_length.
    + now rewrite upd_length.
    + intros b Hb. rewrite nth_upd. rewrite Hseg, app_length.
      destruct (Nat.eqb_spec (key t) b) as [<-|Hn]; cbn [andb].
      * rewrite (proj2 (Nat.ltb_lt _ _)) by lia. rewrite I3 by auto. simpl. lia.
      * rewrite I3 by auto. simpl. lia.
    + intros b i Hb Hi. rewrite nth_upd.
      rewrite Hseg in Hi |- *. rewrite I3 by auto.
      destruct (Nat.eqb_spec (key t) b) as [<-|Hn].
      * rewrite app_length in Hi; cbn [length] in Hi.
        destruct (Nat.eq_dec i (length (seg (key t) P))) as [->|Hne].
        -- rewrite Nat.eqb_refl. cbn [andb]. rewrite I3 in Hpos by auto.
           rewrite (proj2 (Nat.ltb_lt _ _)) by auto.
           rewrite app_nth2, Nat.sub_diag by lia. reflexivity.
        -- rewrite (proj2 (Nat.eqb_neq _ _)) by lia. cbn [andb].
           rewrite I4 by lia. rewrite app_nth1 by lia. reflexivity.
      * rewrite app_nil_r in Hi |- *.
        rewrite (proj2 (Nat.eqb_neq _ _)). { cbn [andb]. apply I4; auto. }
        (* segments of different buckets do not overlap *)
        rewrite !Hstart by auto. pose proof (Hsl b) as Hb1. rewrite Hseg in Hb1.
        rewrite (proj2 (Nat.eqb_neq _ _)), app_nil_r in Hb1 by auto.
        pose proof (Hsl (key t)) as Hb2. rewrite Hlast in Hb2.
        set (f := fun b' => length (seg b' tgt)) in *.
        destruct (Nat.lt_ge_cases (key t) b) as [Hlt|Hge].
        -- pose proof (sumn_seq_mono f (S (key t)) b Hlt) as Hm.
           rewrite seq_snoc, map_app, sumn_app in Hm. cbn [map Nat.add] in Hm.
           rewrite sumn_cons in Hm. change (sumn []) with 0 in Hm. unfold f at 2 in Hm. lia.
        -- assert (Hlt : S b <= key t) by lia.
           pose proof (sumn_seq_mono f (S b) (key t) Hlt) as Hm.
           rewrite seq_snoc, map_app, sumn_app in Hm. cbn [map Nat.add] in Hm.
           rewrite sumn_cons in Hm. change (sumn []) with 0 in Hm. unfold f at 2 in Hm. lia.
Qed.

Definition by_bucket : list nat := flat_map (fun b => seg b tgt) (seq 0 nbin).

Lemma gather_length : length (gather d keys tgt start col buf0) = length buf0.
Proof.
  destruct (gather_inv tgt [] (eq_sym (app_nil_r tgt))) as (H & _). exact H.
Qed.

Lemma by_bucket_perm : Permutation by_bucket tgt.
Proof. apply (segs_perm key tgt nbin Hkeys). Qed.

Lemma firstn_seq k s n : firstn k (seq s n) = seq s (Nat.min k n).
Proof. revert s k; induction n as [|n IH]; intros s [|k]; simpl; auto. now rewrite IH. Qed.

Lemma gather_nth i : i < length tgt ->
  nth i (gather d keys tgt start col buf0) d = nth (nth i by_bucket 0) col d.
Proof.
  intro Hi. destruct (gather_inv tgt [] (eq_sym (app_nil_r tgt))) as (_ & _ & _ & H).
  unfold by_bucket. rewrite flat_map_concat.
  set (segs := map (fun b => seg b tgt) (seq 0 nbin)).
  destruct (concat_nth_inv segs i) as (b & j & Hb & Hj & He).
  { unfold segs. rewrite <- flat_map_concat. fold by_bucket.
    now rewrite (Permutation_length by_bucket_perm). }
  assert (Hb' : b < nbin) by (unfold segs in Hb; now rewrite map_length, seq_length in Hb).
  assert (Hsb : nth b segs [] = seg b tgt).
  { unfold segs. rewrite (nth_map _ _ _ 0) by (now rewrite seq_length). now rewrite seq_nth. }
  assert (Hs : sumn (firstn b (map (@length nat) segs)) = nth b start 0).
  { rewrite Hstart by auto. unfold segs. rewrite map_map, firstn_map, firstn_seq.
    now rewrite Nat.min_l by lia. }
  rewrite He, concat_nth by auto. rewrite Hs, Hsb.
  rewrite Hsb in Hj. apply (H b j Hb' Hj).
Qed.

End Gather.

(* ---------- writing back ---------- *)

Section FillBack.
Context {V : Type} (d : V).

Lemma fill_back_length tgt buf (col : list V) : length (fill_back d tgt buf col) = length col.
Proof.
  unfold fill_back. generalize (seq 0 (length tgt)) as l. intro l. revert col.
  induction l as [|a l IH]; intros col; simpl; [auto|]. now rewrite IH, upd_length.
Qed.

Lemma fill_back_other tgt buf (col : list V) s :
  ~ In s tgt -> nth s (fill_back d tgt buf col) d = nth s col d.
Proof.
  intro Hn. unfold fill_back.
  assert (Hl : forall i, In i (seq 0 (length tgt)) -> nth i tgt 0 <> s).
  { intros i Hi He. apply Hn. rewrite <- He. apply nth_In. apply in_seq in Hi; lia. }
  revert Hl. generalize (seq 0 (length tgt)) as l. intro l. revert col.
  induction l as [|a l IH]; intros col Hl; simpl; [auto|].
  rewrite IH by (intros; apply Hl; now right).
  apply nth_upd_neq. apply Hl. now left.
Qed.

Lemma fill_back_target tgt buf (col : list V) i :
  NoDup tgt -> (forall t, In t tgt -> t < length col) -> i < length tgt ->
  nth (nth i tgt 0) (fill_back d tgt buf col) d = nth i buf d.
Proof.
  intros Hnd Hb Hi. unfold fill_back.
  replace (seq 0 (length tgt)) with (seq 0 i ++ i :: seq (S i) (length tgt - S i)).
  2:{ replace (i :: seq (S i) (length tgt - S i)) with (seq (0 + i) (length tgt - i)).
      - rewrite <- seq_app. f_equal. lia.
      - replace (length tgt - i) with (S (length tgt - S i)) by lia. reflexivity. }
  rewrite fold_left_app. cbn [fold_left].
  set (c1 := fold_left _ (seq 0 i) col).
  assert (Hc1 : length c1 = length col).
  { unfold c1. generalize (seq 0 i) as l. intro l. generalize col.
    induction l as [|a l IH]; intros c0; simpl; [auto|]. now rewrite IH, upd_length. }
  assert (Hg : forall l c, (forall j, In j l -> i < j < length tgt) ->
    nth (nth i tgt 0) (fold_left (fun c ib => upd (nth ib tgt 0) (nth ib buf d) c) l c) d
    = nth (nth i tgt 0) c d).
  { induction l as [|a l IH]; intros c Hl; simpl; [auto|].
    rewrite IH by (intros; apply Hl; now right).
    apply nth_upd_neq. intro He. assert (Ha := Hl a (or_introl eq_refl)).
    pose proof (proj1 (NoDup_nth tgt 0) Hnd a i) as Hnn. lia. }
  rewrite Hg by (intros j Hj; apply in_seq in Hj; lia).
  apply nth_upd_eq. rewrite Hc1. apply Hb, nth_In, Hi.
Qed.
End FillBack.

(* ---------- keys ---------- *)

Lemma calc_keys_length nx ny r ic ps : length (calc_keys nx ny r ic ps) = length ps.
Proof. revert ic; induction ps as [|[dd [a b]] ps IH]; intros ic; simpl; auto. Qed.

Lemma bucket_key_lt nx ny r ix iy : 0 < nx -> 0 < ny -> bucket_key nx ny r ix iy < nx * ny.
Proof.
  intros Hx Hy. unfold bucket_key. destruct r.
  - cbv zeta.
    assert (Hcl : forall n i, 0 < n ->
      (0 <= (if i <? 0 then 0 else if Z.of_nat n <=? i then Z.of_nat n - 1 else i) < Z.of_nat n)%Z).
    { intros n i Hn. destruct (i <? 0)%Z eqn:?; [lia|]. destruct (Z.of_nat n <=? i)%Z eqn:?; lia. }
    pose proof (Hcl nx ix Hx) as H1. pose proof (Hcl ny iy Hy) as H2. clear Hcl.
    revert H1 H2.
    generalize (if (ix <? 0)%Z then 0%Z else if (Z.of_nat nx <=? ix)%Z then (Z.of_nat nx - 1)%Z else ix) as ix'.
    generalize (if (iy <? 0)%Z then 0%Z else if (Z.of_nat ny <=? iy)%Z then (Z.of_nat ny - 1)%Z else iy) as iy'.
    intros iy' ix' H1 H2.
    assert ((Z.of_nat nx - 1 - ix') * Z.of_nat ny <= (Z.of_nat nx - 1) * Z.of_nat ny)%Z by nia.
    assert (0 <= (Z.of_nat nx - 1 - ix') * Z.of_nat ny)%Z by nia.
    assert (iy' + (Z.of_nat nx - 1 - ix') * Z.of_nat ny < Z.of_nat (nx * ny))%Z by nia.
    lia.
  - destruct (_ && _) eqn:E.
    + assert (0 <= ix < Z.of_nat nx /\ 0 <= iy < Z.of_nat ny)%Z by lia.
      assert (0 <= ix * Z.of_nat ny <= (Z.of_nat nx - 1) * Z.of_nat ny)%Z by nia.
      assert (iy + ix * Z.of_nat ny < Z.of_nat (nx * ny))%Z by nia. lia.
    + assert (0 < nx * ny) by nia. lia.
Qed.

Lemma calc_keys_lt nx ny r ic ps :
  0 < nx -> 0 < ny -> ic < nx * ny -> forall k, In k (calc_keys nx ny r ic ps) -> k < nx * ny.
Proof.
  intros Hx Hy. revert ic; induction ps as [|[dd [a b]] ps IH]; intros ic Hic k Hk; simpl in Hk; [easy|].
  assert (Hc : (if dd then ic else bucket_key nx ny r a b) < nx * ny)
    by (destruct dd; auto using bucket_key_lt).
  destruct Hk as [<-|Hk]; eauto.
Qed.

Lemma calc_keys_alive nx ny r ic ps i dd :
  i < length ps -> fst (nth i ps dd) = false ->
  nth i (calc_keys nx ny r ic ps) 0
  = bucket_key nx ny r (fst (snd (nth i ps dd))) (snd (snd (nth i ps dd))).
Proof.
  revert ic i; induction ps as [|[de [a b]] ps IH]; intros ic [|i] Hi Hd; simpl in *; try lia.
  - now rewrite Hd.
  - apply IH; auto; lia.
Qed.

(** If the alive particles are in non-decreasing bucket order, so are the keys the next sort
    computes (dead particles inherit). *)
Lemma calc_keys_sorted nx ny r ps ic :
  (forall i, i < length ps -> fst (nth i ps (true,(0,0)%Z)) = false ->
     ic <= bucket_key nx ny r (fst (snd (nth i ps (true,(0,0)%Z)))) (snd (snd (nth i ps (true,(0,0)%Z))))) ->
  (forall i j, i < j < length ps -> fst (nth i ps (true,(0,0)%Z)) = false ->
     fst (nth j ps (true,(0,0)%Z)) = false ->
     bucket_key nx ny r (fst (snd (nth i ps (true,(0,0)%Z)))) (snd (snd (nth i ps (true,(0,0)%Z))))
     <= bucket_key nx ny r (fst (snd (nth j ps (true,(0,0)%Z)))) (snd (snd (nth j ps (true,(0,0)%Z))))) ->
  StronglySorted le (ic :: calc_keys nx ny r ic ps).
Proof.
  revert ic; induction ps as [|[de [a b]] ps IH]; intros ic H1 H2.
  - constructor; constructor.
  - cbn [calc_keys]. set (k := if de then ic else bucket_key nx ny r a b).
    assert (Hk : ic <= k).
    { unfold k. destruct de; auto. specialize (H1 0). cbn in H1. apply H1; auto; lia. }
    assert (HS : StronglySorted le (k :: calc_keys nx ny r k ps)).
    { apply IH.
      - intros i Hi Hd. unfold k. destruct de.
        + specialize (H1 (S i)). cbn in H1. apply H1; auto; lia.
        + specialize (H2 0 (S i)). cbn in H2. apply H2; auto; lia.
      - intros i j Hij Hd1 Hd2. specialize (H2 (S i) (S j)). cbn in H2. apply H2; auto; lia. }
    constructor; auto. constructor; auto.
    apply StronglySorted_inv in HS. destruct HS as [_ HF].
    eapply Forall_impl; [|exact HF]. cbn; lia.
Qed.

(* ---------- reference keys ---------- *)

Lemma ref_keys_flat nx ny counts :
  ref_keys nx ny counts = flat_map (fun b => repeat b (nth b counts 0)) (seq 0 (nx * ny)).
Proof.
  unfold ref_keys. induction nx as [|nx IH]; [reflexivity|].
  rewrite seq_snoc, flat_map_app, IH. cbn [flat_map Nat.add]. rewrite app_nil_r.
  replace (S nx * ny) with (nx * ny + ny) by lia.
  rewrite seq_app, flat_map_app. f_equal. cbn [Nat.add].
  generalize (nx * ny) as o. intro o.
  replace (seq o ny) with (map (fun iy => iy + o) (seq 0 ny)).
  - rewrite !flat_map_concat_map, map_map. reflexivity.
  - clear IH. revert o; induction ny as [|ny IH]; intros o; [reflexivity|].
    rewrite !seq_snoc, map_app, IH. cbn. now rewrite (Nat.add_comm ny o).
Qed.

Lemma ref_keys_length nx ny counts :
  length counts = nx * ny -> length (ref_keys nx ny counts) = sumn counts.
Proof.
  intro H. rewrite ref_keys_flat, flat_map_concat, concat_length', map_map.
  rewrite <- H. transitivity (sumn (map (fun i => nth i counts 0) (seq 0 (length counts)))).
  - f_equal. apply map_ext. intros b. apply repeat_length.
  - now rewrite map_nth_seq.
Qed.

Lemma ref_keys_count nx ny counts b :
  b < nx * ny -> countb (fun k => k =? b) (ref_keys nx ny counts) = nth b counts 0.
Proof.
  intro Hb. rewrite ref_keys_flat, flat_map_concat, countb_concat, map_map.
  rewrite (sumn_single _ _ b Hb).
  - rewrite countb_repeat, Nat.eqb_refl. reflexivity.
  - intros i Hi Hn. rewrite countb_repeat, (proj2 (Nat.eqb_neq _ _)); auto.
Qed.

Lemma flat_repeat_sorted (f : nat -> nat) n s :
  StronglySorted le (flat_map (fun b => repeat b (f b)) (seq s n)).
Proof.
  revert s; induction n as [|n IH]; intros s; cbn [seq flat_map]; [constructor|].
  assert (Hr : forall m, StronglySorted le (repeat s m ++ flat_map (fun b => repeat b (f b)) (seq (S s) n))).
  { induction m as [|m IHm]; cbn [repeat app]; [apply IH|].
    constructor; auto. apply Forall_app. split.
    - apply Forall_forall. intros x Hx. apply repeat_spec in Hx. lia.
    - apply Forall_forall. intros x Hx. apply in_flat_map in Hx. destruct Hx as (b & Hb & Hx).
      apply in_seq in Hb. apply repeat_spec in Hx. lia. }
  apply Hr.
Qed.

Lemma ref_keys_sorted nx ny counts : StronglySorted le (ref_keys nx ny counts).
Proof. rewrite ref_keys_flat. apply flat_repeat_sorted. Qed.

Lemma sorted_nth (l : list nat) i j :
  StronglySorted le l -> i <= j < length l -> nth i l 0 <= nth j l 0.
Proof.
  revert i j; induction l as [|a l IH]; intros [|i] [|j] HS Hij; simpl in *; try lia.
  - apply StronglySorted_inv in HS. destruct HS as [_ HF].
    rewrite Forall_forall in HF. apply HF, nth_In. lia.
  - apply StronglySorted_inv in HS. apply IH; [tauto|lia].
Qed.

(** A sorted list of naturals below [n] is determined by its counts. *)
Lemma sorted_flat (l : list nat) n :
  StronglySorted le l -> (forall x, In x l -> x < n) ->
  l = flat_map (fun b => repeat b (countb (fun k => k =? b) l)) (seq 0 n).
Proof.
  intros HS Hn.
  assert (G : forall n s l, StronglySorted le l -> (forall x, In x l -> s <= x < s + n) ->
            l = flat_map (fun b => repeat b (countb (fun k => k =? b) l)) (seq s n)).
  2:{ apply (G n 0 l HS). intros x Hx. specialize (Hn x Hx). lia. }
  clear. induction n as [|n IH]; intros s l HS Hx.
  - destruct l as [|a l]; [reflexivity|]. specialize (Hx a (or_introl eq_refl)). lia.
  - cbn [seq flat_map].
    assert (Hsp : exists l2, l = repeat s (countb (fun k => k =? s) l) ++ l2 /\
                    StronglySorted le l2 /\ (forall x, In x l2 -> S s <= x < S s + n)).
    { clear IH. induction l as [|a l IHl].
      - exists []. simpl. repeat split; auto; easy.
      - apply StronglySorted_inv in HS. destruct HS as [HS HF].
        destruct (Nat.eq_dec a s) as [->|Hne].
        + destruct IHl as (l2 & E & H1 & H2); auto. { intros x Hi. apply Hx. now right. }
          exists l2. rewrite countb_cons, Nat.eqb_refl. cbn [Nat.add repeat app].
          split; [now rewrite <- E|auto].
        + exists (a :: l). rewrite Forall_forall in HF.
          assert (Hz : forall x, In x (a :: l) -> S s <= x < S s + n).
          { intros x [<-|Hi]. - specialize (Hx a (or_introl eq_refl)). lia.
            - specialize (HF x Hi). pose proof (Hx a (or_introl eq_refl)).
              pose proof (Hx x (or_intror Hi)). lia. }
          split; [|split; [constructor; auto; now apply Forall_forall|exact Hz]].
          rewrite countb_false; [reflexivity|]. intros x Hi. apply Nat.eqb_neq.
          specialize (Hz x Hi). lia. }
    destruct Hsp as (l2 & E & H1 & H2).
    rewrite E at 1. f_equal. rewrite (IH (S s) l2 H1 H2) at 1.
    rewrite !flat_map_concat_map. f_equal. apply map_ext_in. intros b Hb. apply in_seq in Hb.
    f_equal. rewrite E, countb_app, countb_repeat, (proj2 (Nat.eqb_neq s b)); auto; lia.
Qed.

(* ---------- the sort as one permutation of the slots ---------- *)

Section Sort.
Variables (nx ny n : nat) (keys : list nat).
Let nbin := nx * ny.
Let counts := count_keys nbin keys.
Let refs := ref_keys nx ny counts.
Let T := targets keys refs n.
Let start := prefix 0 (count_not nbin refs T).
Let U := by_bucket keys T nbin.
Hypothesis Hlen : length keys = n.
Hypothesis Hlt : forall k, In k keys -> k < nbin.

Definition sort_perm : list nat := fill_back 0 T U (seq 0 n).

Lemma counts_total : sumn counts = n.
Proof.
  rewrite <- Hlen.
  rewrite <- (Permutation_length (segs_perm (fun k : nat => k) keys nbin Hlt)).
  rewrite flat_map_concat, concat_length', map_map.
  rewrite <- (map_nth_seq counts 0). unfold counts. rewrite count_keys_length.
  f_equal. apply map_ext_in. intros b Hb. apply in_seq in Hb.
  rewrite count_keys_nth by lia. reflexivity.
Qed.

Lemma refs_length : length refs = n.
Proof.
  unfold refs. rewrite ref_keys_length; [apply counts_total|]. apply count_keys_length.
Qed.

Lemma refs_lt s : s < n -> nth s refs 0 < nbin.
Proof.
  intro Hs. assert (Hin : In (nth s refs 0) refs) by (apply nth_In; now rewrite refs_length).
  unfold refs in Hin at 2. rewrite ref_keys_flat in Hin. apply in_flat_map in Hin.
  destruct Hin as (b & Hb & Hr). apply in_seq in Hb. apply repeat_spec in Hr. unfold nbin. lia.
Qed.

Lemma keys_nth_lt s : s < n -> nth s keys 0 < nbin.
Proof. intro Hs. apply Hlt, nth_In. now rewrite Hlen. Qed.

Lemma T_in t : In t T <-> t < n /\ nth t keys 0 <> nth t refs 0.
Proof.
  unfold T, targets. rewrite filter_In, in_seq.
  split; intros [H1 H2]; split; lia.
Qed.

Lemma T_NoDup : NoDup T.
Proof. apply NoDup_filter, seq_NoDup. Qed.

Lemma filter_seq_sorted p s m : StronglySorted lt (filter p (seq s m)).
Proof.
  revert s; induction m as [|m IH]; intros s; cbn [seq filter]; [constructor|].
  destruct (p s); auto. constructor; auto. apply Forall_forall. intros x Hx.
  apply filter_In in Hx. destruct Hx as [Hx _]. apply in_seq in Hx. lia.
Qed.

Lemma countb_seq_nth (l : list nat) (p : nat -> bool) :
  countb (fun i => p (nth i l 0)) (seq 0 (length l)) = countb p l.
Proof. rewrite <- (countb_map (fun i => nth i l 0) p). now rewrite map_nth_seq. Qed.

Lemma mismatch_balance b : b < nbin ->
  countb (fun t => nth t keys 0 =? b) T = countb (fun t => nth t refs 0 =? b) T.
Proof.
  intro Hb. unfold T, targets. rewrite !countb_filter.
  assert (E : countb (fun t => nth t keys 0 =? b) (seq 0 n) = countb (fun t => nth t refs 0 =? b) (seq 0 n)).
  { rewrite <- Hlen at 1. rewrite (countb_seq_nth keys (fun k => k =? b)).
    rewrite <- refs_length. rewrite (countb_seq_nth refs (fun k => k =? b)).
    unfold refs. rewrite ref_keys_count by auto. unfold counts. now rewrite count_keys_nth. }
  rewrite (countb_split (fun t => nth t keys 0 =? b) (fun t => nth t keys 0 =? nth t refs 0)) in E.
  rewrite (countb_split (fun t => nth t refs 0 =? b) (fun t => nth t keys 0 =? nth t refs 0)) in E.
  assert (E2 : countb (fun a => (nth a keys 0 =? b) && (nth a keys 0 =? nth a refs 0)) (seq 0 n)
             = countb (fun a => (nth a refs 0 =? b) && (nth a keys 0 =? nth a refs 0)) (seq 0 n)).
  { apply countb_ext. intros a _. lia. }
  lia.
Qed.

Lemma start_length : length start = nbin.
Proof. unfold start. now rewrite prefix_length, count_not_length. Qed.

Lemma start_nth b : b < nbin ->
  nth b start 0 = sumn (map (fun b' => length (filter (fun t => nth t keys 0 =? b') T)) (seq 0 b)).
Proof.
  intro Hb. unfold start. rewrite prefix_nth by (now rewrite count_not_length). cbn [Nat.add].
  f_equal.
  assert (Hl : length (count_not nbin refs T) = nbin) by apply count_not_length.
  apply (list_ext _ _ 0).
  { rewrite firstn_length, map_length, seq_length. lia. }
  intros i Hi. rewrite firstn_length in Hi.
  rewrite (nth_map _ _ _ 0) by (rewrite seq_length; lia). rewrite seq_nth by lia. cbn [Nat.add].
  rewrite nth_firstn_lt by lia.
  rewrite count_not_nth by lia. rewrite <- mismatch_balance by lia. reflexivity.
Qed.

Lemma T_keys_lt : forall t, In t T -> nth t keys 0 < nbin.
Proof. intros t Ht. apply T_in in Ht. now apply keys_nth_lt. Qed.

Lemma U_perm : Permutation U T.
Proof. apply by_bucket_perm. exact T_keys_lt. Qed.

Lemma U_length : length U = length T.
Proof. apply Permutation_length, U_perm. Qed.

Lemma map_sorted_lt (f : nat -> nat) l :
  StronglySorted lt l -> (forall i j, In i l -> In j l -> i < j -> f i <= f j) ->
  StronglySorted le (map f l).
Proof.
  induction l as [|a l IH]; intros HS Hf; [constructor|].
  apply StronglySorted_inv in HS. destruct HS as [HS HF]. cbn [map]. constructor.
  - apply IH; auto. intros i j Hi Hj. apply Hf; now right.
  - apply Forall_forall. intros x Hx. apply in_map_iff in Hx. destruct Hx as (y & <- & Hy).
    rewrite Forall_forall in HF. apply Hf; [now left|now right|auto].
Qed.

Lemma UT_keys : map (fun t => nth t keys 0) U = map (fun t => nth t refs 0) T.
Proof.
  assert (HS : StronglySorted le (map (fun t => nth t refs 0) T)).
  { apply map_sorted_lt; [apply filter_seq_sorted|]. intros i j Hi Hj Hij.
    apply T_in in Hi. apply T_in in Hj.
    apply sorted_nth; [apply ref_keys_sorted|]. rewrite refs_length. lia. }
  rewrite (sorted_flat (map (fun t => nth t refs 0) T) nbin HS).
  2:{ intros x Hx. apply in_map_iff in Hx. destruct Hx as (t & <- & Ht).
      apply T_in in Ht. apply refs_lt. tauto. }
  unfold U, by_bucket. rewrite !flat_map_concat_map, concat_map, map_map. f_equal.
  apply map_ext_in. intros b Hb. apply in_seq in Hb.
  rewrite countb_map. rewrite <- mismatch_balance by lia.
  unfold countb. generalize T as l. induction l as [|t l IH]; [reflexivity|].
  cbn [filter]. destruct (Nat.eqb_spec (nth t keys 0) b) as [E|E]; [|exact IH].
  cbn [map length repeat]. now rewrite E, IH.
Qed.

Lemma sort_perm_length : length sort_perm = n.
Proof. unfold sort_perm. now rewrite fill_back_length, seq_length. Qed.

Lemma sort_perm_fixed s : s < n -> nth s keys 0 = nth s refs 0 -> nth s sort_perm 0 = s.
Proof.
  intros Hs He. unfold sort_perm. rewrite fill_back_other.
  - rewrite seq_nth; auto.
  - intro Hin. apply T_in in Hin. tauto.
Qed.

Lemma T_lt : forall t, In t T -> t < n.
Proof. intros t Ht. apply T_in in Ht. tauto. Qed.

Lemma sort_perm_moved i : i < length T -> nth (nth i T 0) sort_perm 0 = nth i U 0.
Proof.
  intro Hi. unfold sort_perm. apply fill_back_target; auto using T_NoDup.
  intros t Ht. rewrite seq_length. now apply T_lt.
Qed.

Lemma slot_cases s : s < n ->
  (nth s keys 0 = nth s refs 0) \/ (exists i, i < length T /\ nth i T 0 = s).
Proof.
  intro Hs. destruct (Nat.eq_dec (nth s keys 0) (nth s refs 0)) as [E|E]; [now left|right].
  apply In_nth. apply T_in. auto.
Qed.

Lemma U_nth_in i : i < length T -> In (nth i U 0) T.
Proof.
  intro Hi. apply (Permutation_in (l := U)); [apply U_perm|]. apply nth_In. now rewrite U_length.
Qed.

Lemma sort_perm_key s : s < n -> nth (nth s sort_perm 0) keys 0 = nth s refs 0.
Proof.
  intro Hs. destruct (slot_cases s Hs) as [E|(i & Hi & <-)].
  - now rewrite sort_perm_fixed.
  - rewrite sort_perm_moved by auto.
    pose proof UT_keys as HK.
    assert (E := f_equal (fun l => nth i l 0) HK). cbn beta in E.
    rewrite (nth_map _ U i 0) in E by (now rewrite U_length).
    rewrite (nth_map _ T i 0) in E by auto. exact E.
Qed.

Lemma sort_perm_lt s : s < n -> nth s sort_perm 0 < n.
Proof.
  intro Hs. destruct (slot_cases s Hs) as [E|(i & Hi & <-)].
  - now rewrite sort_perm_fixed.
  - rewrite sort_perm_moved by auto. apply T_lt, U_nth_in, Hi.
Qed.

Lemma sort_perm_inj s t : s < n -> t < n -> nth s sort_perm 0 = nth t sort_perm 0 -> s = t.
Proof.
  intros Hs Ht.
  destruct (slot_cases s Hs) as [E|(i & Hi & <-)]; destruct (slot_cases t Ht) as [F|(j & Hj & <-)].
  - now rewrite !sort_perm_fixed.
  - rewrite sort_perm_fixed, sort_perm_moved by auto. intros ->.
    pose proof (U_nth_in j Hj) as Hin. apply T_in in Hin. tauto.
  - rewrite (sort_perm_fixed t), sort_perm_moved by auto. intros <-.
    pose proof (U_nth_in i Hi) as Hin. apply T_in in Hin. tauto.
  - rewrite !sort_perm_moved by auto. intro E.
    assert (HU : NoDup U) by (apply (Permutation_NoDup (l := T)); [symmetry; apply U_perm|apply T_NoDup]).
    f_equal. apply (proj1 (NoDup_nth U 0) HU); rewrite ?U_length; auto.
Qed.

Lemma sort_perm_perm : Permutation sort_perm (seq 0 n).
Proof.
  rewrite <- (map_nth_seq sort_perm 0). rewrite sort_perm_length.
  apply inj_endo_perm; [apply sort_perm_lt|apply sort_perm_inj].
Qed.

(** One column, whatever the scratch buffer contained. *)
Lemma sort_col_spec {V} (d : V) buf col :
  length col = n -> length T <= length buf ->
  sort_col d keys T start buf col = map (fun i => nth i col d) sort_perm.
Proof.
  intros Hc Hb. apply (list_ext _ _ d).
  { unfold sort_col. rewrite fill_back_length, map_length, sort_perm_length. auto. }
  unfold sort_col. rewrite fill_back_length, Hc. intros s Hs.
  rewrite (nth_map _ _ _ 0) by (now rewrite sort_perm_length).
  destruct (slot_cases s Hs) as [E|(i & Hi & <-)].
  - rewrite sort_perm_fixed by auto. apply fill_back_other.
    intro Hin. apply T_in in Hin. tauto.
  - rewrite sort_perm_moved by auto. rewrite fill_back_target; auto using T_NoDup.
    + apply (gather_nth d keys T start col buf nbin); auto using start_length, T_keys_lt.
      apply start_nth.
    + intros t Ht. rewrite Hc. now apply T_lt.
Qed.

Lemma sort_perm_id : length T = 0 -> sort_perm = seq 0 n.
Proof. intro H. apply length_zero_iff_nil in H. unfold sort_perm. rewrite H. reflexivity. Qed.

End Sort.

Lemma map_nth_seq' {A} (l : list A) d n : length l = n -> map (fun i => nth i l d) (seq 0 n) = l.
Proof. intros <-. apply map_nth_seq. Qed.

(** All arrays of a patch have the same length. *)
Definition rect {V} (s : store V) : Prop := forall c, In c (cols s) -> length c = length (dead s).

Section Patch.
Context {V : Type} (d : V) (fx fy : V -> Z) (kx ky nx ny : nat) (reverse : bool).
Variables (buf : list V) (dbuf : list bool) (s : store V).
Let n := length (dead s).
Let keys := calc_keys nx ny reverse 0 (slots_of d fx fy kx ky s).
Let counts := count_keys (nx * ny) keys.
Let refs := ref_keys nx ny counts.
Let R := sort_patch d fx fy kx ky nx ny reverse buf dbuf s.
Hypothesis Hx : 0 < nx.
Hypothesis Hy : 0 < ny.
Hypothesis Hr : rect s.
Hypothesis Hbuf : n <= length buf.
Hypothesis Hdbuf : n <= length dbuf.

Lemma slots_length : length (slots_of d fx fy kx ky s) = n.
Proof. unfold slots_of. now rewrite map_length, seq_length. Qed.
Lemma keys_length : length keys = n.
Proof. unfold keys. rewrite calc_keys_length. apply slots_length. Qed.
Lemma keys_lt : forall k, In k keys -> k < nx * ny.
Proof. apply calc_keys_lt; auto. apply Nat.mul_pos_pos; auto. Qed.

Lemma sort_patch_eq :
  s_store R = mkStore (map (fun c => map (fun i => nth i c d) (sort_perm nx ny n keys)) (cols s))
                      (map (fun i => nth i (dead s) false) (sort_perm nx ny n keys))
  /\ s_nbuf R = length (targets keys refs n)
  /\ s_min R = bound_min counts /\ s_max R = bound_max counts.
Proof.
  unfold R, sort_patch, bucket_sort. fold keys. fold counts. fold refs. fold n.
  assert (HT : length (targets keys refs n) <= n).
  { unfold targets. rewrite <- (seq_length n 0) at 2. apply countb_le. }
  destruct (Nat.eqb_spec (length (targets keys refs n)) 0) as [E|E]; cbn [s_store s_nbuf s_min s_max];
    (split; [|split; [auto|split; reflexivity]]).
  - pose proof (sort_perm_id nx ny n keys E) as ->. 
    rewrite (map_nth_seq' (dead s)) by reflexivity. f_equal.
    rewrite <- (map_id (cols s)) at 1. apply map_ext_in. intros c Hc.
    symmetry. apply map_nth_seq'. now apply Hr.
  - f_equal.
    + apply map_ext_in. intros c Hc. apply sort_col_spec; auto using keys_length, keys_lt.
      fold counts; fold refs. lia.
    + apply sort_col_spec; auto using keys_length, keys_lt.
      fold counts; fold refs. lia.
Qed.

End Patch.

(* ---------- statements ---------- *)
From Verif Require Import S_Sort2D.

Lemma bucket_key_home nx ny r ix iy : 0 < nx -> 0 < ny ->
  forall b, home nx ny r ix iy b <-> bucket_key nx ny r ix iy = b.
Proof.
  intros Hx Hy.
  assert (H1 : home nx ny r ix iy (bucket_key nx ny r ix iy)).
  { unfold home, bucket_key. destruct r.
    - cbv zeta.
      set (X := Z.of_nat nx). set (Y := Z.of_nat ny).
      assert (HX : (0 < X)%Z) by lia. assert (HY : (0 < Y)%Z) by lia.
      assert (C1 : (if (ix <? 0)%Z then 0%Z else if (X <=? ix)%Z then (X - 1)%Z else ix) = Z.max 0 (Z.min (X - 1) ix)).
      { destruct (ix <? 0)%Z eqn:?; [lia|]. destruct (X <=? ix)%Z eqn:?; lia. }
      assert (C2 : (if (iy <? 0)%Z then 0%Z else if (Y <=? iy)%Z then (Y - 1)%Z else iy) = Z.max 0 (Z.min (Y - 1) iy)).
      { destruct (iy <? 0)%Z eqn:?; [lia|]. destruct (Y <=? iy)%Z eqn:?; lia. }
      rewrite C1, C2.
      assert (P : (0 <= (X - 1 - Z.max 0 (Z.min (X - 1) ix)) * Y)%Z).
      { apply Z.mul_nonneg_nonneg; lia. }
      rewrite Z2Nat.id by lia.
      destruct (Z_lt_dec ix X); destruct (Z_le_dec 0 ix); destruct (Z_lt_dec iy Y); destruct (Z_le_dec 0 iy);
        try (right; right; split; [lia|split; [auto|]]; eexists; eexists; split; [reflexivity|split; reflexivity]).
      left. split; [lia|].
      replace (Z.max 0 (Z.min (X - 1) ix)) with ix by lia.
      replace (Z.max 0 (Z.min (Y - 1) iy)) with iy by lia. reflexivity.
    - destruct (_ && _) eqn:E.
      + left. split; [lia|].
        assert (0 <= ix * Z.of_nat ny)%Z by (apply Z.mul_nonneg_nonneg; lia).
        rewrite Z2Nat.id; lia.
      + right; left. split; [lia|split; auto].
        assert (0 < nx * ny) by (apply Nat.mul_pos_pos; auto). lia. }
  intro b; split; [|intros <-; exact H1].
  unfold home in *. intro H2. cbv zeta in *.
  destruct H1 as [(A1&A2)|[(A1&A2&A3)|(A1&A2&jx&jy&A3&A4&A5)]];
  destruct H2 as [(B1&B2)|[(B1&B2&B3)|(B1&B2&kx&ky&B3&B4&B5)]]; try (exfalso; tauto); try congruence; lia.
Qed.

Lemma sum_firstn_snoc c b : b < length c -> sumn (firstn (S b) c) = sumn (firstn b c) + nth b c 0.
Proof.
  revert b; induction c as [|a c IH]; intros [|b] H; simpl in *; try lia.
  specialize (IH b ltac:(lia)). simpl in IH. unfold sumn in *. lia.
Qed.

Lemma bound_min_nth c b : b < length c -> nth b (bound_min c) 0 = sumn (firstn b c).
Proof. intro H. unfold bound_min. now rewrite prefix_nth. Qed.

Lemma last_nth {A} (l : list A) d : last l d = nth (length l - 1) l d.
Proof.
  induction l as [|a [|b l] IH]; simpl; auto.
  change (match l with [] => b | _ :: _ => last l d end) with (last (b :: l) d).
  rewrite IH. simpl. now rewrite Nat.sub_0_r.
Qed.

Lemma bound_max_nth c b : b < length c -> nth b (bound_max c) 0 = sumn (firstn (S b) c).
Proof.
  intro H. unfold bound_max.
  assert (Hl : length (bound_min c) = length c) by apply prefix_length.
  assert (Ht : length (tl (bound_min c)) = length c - 1).
  { destruct (bound_min c); simpl in *; lia. }
  destruct (Nat.eq_dec b (length c - 1)) as [E|E].
  - rewrite app_nth2, Ht, E, Nat.sub_diag by lia. cbn [nth].
    rewrite !last_nth, Hl, bound_min_nth by lia. rewrite <- sum_firstn_snoc by lia. reflexivity.
  - rewrite app_nth1 by lia.
    replace (nth b (tl (bound_min c)) 0) with (nth (S b) (bound_min c) 0).
    + apply bound_min_nth. lia.
    + destruct (bound_min c); auto. destruct b; auto.
Qed.

Lemma ref_slot nx ny c b i :
  length c = nx * ny -> b < nx * ny -> i < sumn c ->
  (nth i (ref_keys nx ny c) 0 = b <-> nth b (bound_min c) 0 <= i < nth b (bound_max c) 0).
Proof.
  intros Hc Hb Hi. rewrite bound_min_nth, bound_max_nth, sum_firstn_snoc by lia.
  assert (Hseg : forall b, b < nx * ny -> nth b (map (fun b => repeat b (nth b c 0)) (seq 0 (nx*ny))) [] = repeat b (nth b c 0)).
  { intros b' Hb'. rewrite (nth_map _ _ _ 0) by (now rewrite seq_length). now rewrite seq_nth. }
  assert (Hpre : forall b, b < nx * ny ->
     sumn (firstn b (map (@length nat) (map (fun b => repeat b (nth b c 0)) (seq 0 (nx*ny))))) = sumn (firstn b c)).
  { intros b' Hb'. f_equal. f_equal. rewrite map_map. rewrite <- Hc.
    transitivity (map (fun i => nth i c 0) (seq 0 (length c))); [|apply map_nth_seq].
    apply map_ext. intros; apply repeat_length. }
  assert (Hlen : length (concat (map (fun b => repeat b (nth b c 0)) (seq 0 (nx*ny)))) = sumn c).
  { rewrite <- flat_map_concat, <- ref_keys_flat. now apply ref_keys_length. }
  rewrite ref_keys_flat, flat_map_concat. split.
  - intros He. destruct (concat_nth_inv _ _ (eq_ind_r (fun x => i < x) Hi Hlen)) as (b' & j & Hb' & Hj & E).
    rewrite map_length, seq_length in Hb'. rewrite Hseg, repeat_length in Hj by auto.
    rewrite E, concat_nth, Hseg in He by (rewrite ?Hseg, ?repeat_length, ?map_length, ?seq_length; auto).
    assert (b' = b).
    { rewrite <- He. symmetry. apply (repeat_spec (nth b' c 0)). apply nth_In. now rewrite repeat_length. }
    subst b'. rewrite Hpre in E by auto. lia.
  - intros [H1 H2]. replace i with (sumn (firstn b c) + (i - sumn (firstn b c))) by lia.
    rewrite <- (Hpre b Hb).
    rewrite concat_nth.
    + rewrite Hseg by auto. apply (repeat_spec (nth b c 0)). apply nth_In. rewrite repeat_length, Hpre by auto. lia.
    + now rewrite map_length, seq_length.
    + rewrite Hseg, repeat_length, Hpre by auto. lia.
Qed.

Section Final.
Context {V : Type} (d : V) (fx fy : V -> Z) (kx ky nx ny : nat) (reverse : bool).
Variables (buf : list V) (dbuf : list bool) (s : store V).
Let n := length (dead s).
Let keys := calc_keys nx ny reverse 0 (slots_of d fx fy kx ky s).
Let counts := count_keys (nx * ny) keys.
Let refs := ref_keys nx ny counts.
Let R := sort_patch d fx fy kx ky nx ny reverse buf dbuf s.
Let sg := sort_perm nx ny n keys.
Hypothesis Hx : 0 < nx.
Hypothesis Hy : 0 < ny.
Hypothesis Hr : rectangular s.
Hypothesis Hbuf : n <= length buf.
Hypothesis Hdbuf : n <= length dbuf.
Hypothesis Hkx : kx < length (cols s).
Hypothesis Hky : ky < length (cols s).

Let KL : length keys = n := keys_length d fx fy kx ky nx ny reverse s.
Let KB : forall k, In k keys -> k < nx * ny := keys_lt d fx fy kx ky nx ny reverse s Hx Hy.
Let EQ := sort_patch_eq d fx fy kx ky nx ny reverse buf dbuf s Hx Hy Hr Hbuf Hdbuf.

Lemma fin_dead : length (dead (s_store R)) = n.
Proof. destruct EQ as (E & _). unfold R. rewrite E. cbn [dead]. now rewrite map_length, sort_perm_length. Qed.

Lemma fin_cols : length (cols (s_store R)) = length (cols s).
Proof. destruct EQ as (E & _). unfold R. rewrite E. cbn [cols]. now rewrite map_length. Qed.

Lemma fin_rect : rectangular (s_store R).
Proof.
  intros c Hc. rewrite fin_dead. destruct EQ as (E & _). unfold R in Hc. rewrite E in Hc. cbn [cols] in Hc.
  apply in_map_iff in Hc. destruct Hc as (c0 & <- & _). now rewrite map_length, sort_perm_length.
Qed.

Lemma sg_lt i : i < n -> nth i sg 0 < n.
Proof. intro Hi. apply sort_perm_lt; auto. Qed.

Lemma fin_dead_nth i dd : i < n -> nth i (dead (s_store R)) dd = nth (nth i sg 0) (dead s) dd.
Proof.
  intro Hi. destruct EQ as (E & _). unfold R. rewrite E. cbn [dead]. fold keys n sg.
  rewrite (nth_map _ _ _ 0) by (unfold sg; now rewrite sort_perm_length).
  apply nth_indep. apply sg_lt; auto.
Qed.

Lemma fin_col_nth k i : i < n -> k < length (cols s) ->
  nth i (nth k (cols (s_store R)) []) d = nth (nth i sg 0) (nth k (cols s) []) d.
Proof.
  intros Hi Hk. destruct EQ as (E & _). unfold R. rewrite E. cbn [cols]. fold keys n sg.
  rewrite (nth_map _ _ _ []) by auto.
  now rewrite (nth_map _ _ _ 0) by (unfold sg; now rewrite sort_perm_length).
Qed.

Lemma fin_row i : i < n -> row d (s_store R) i = row d s (nth i sg 0).
Proof.
  intro Hi. unfold row. rewrite fin_dead_nth by auto. f_equal.
  destruct EQ as (E & _). unfold R. rewrite E. cbn [cols]. fold keys n sg. rewrite map_map.
  apply map_ext. intro c.
  now rewrite (nth_map _ _ _ 0) by (unfold sg; now rewrite sort_perm_length).
Qed.

Lemma sort_permutes_rows :
  Permutation (rows d (s_store R)) (rows d s) /\ rectangular (s_store R) /\
  length (cols (s_store R)) = length (cols s).
Proof.
  split; [|split; [apply fin_rect|apply fin_cols]].
  unfold rows. rewrite fin_dead.
  transitivity (map (row d s) (map (fun i => nth i sg 0) (seq 0 n))).
  - rewrite map_map. apply Permutation_refl'. apply map_ext_in. intros i Hi. apply in_seq in Hi.
    apply fin_row; lia.
  - apply Permutation_map. unfold sg.
    rewrite map_nth_seq' by apply sort_perm_length. now apply sort_perm_perm.
Qed.

Lemma key_alive i : alive_at s i ->
  nth i keys 0 = bucket_key nx ny reverse (cell_x d fx kx s i) (cell_y d fy ky s i).
Proof.
  intros [Hi Hd]. unfold keys.
  assert (E : nth i (slots_of d fx fy kx ky s) (true,(0,0)%Z) = (nth i (dead s) true, (cell_x d fx kx s i, cell_y d fy ky s i))).
  { unfold slots_of. rewrite (nth_map _ _ _ 0) by (now rewrite seq_length). now rewrite seq_nth. }
  rewrite (calc_keys_alive _ _ _ _ _ _ (true,(0,0)%Z)).
  - now rewrite E.
  - now rewrite slots_length.
  - rewrite E. exact Hd.
Qed.

Lemma fin_cells i : i < n ->
  cell_x d fx kx (s_store R) i = cell_x d fx kx s (nth i sg 0) /\
  cell_y d fy ky (s_store R) i = cell_y d fy ky s (nth i sg 0).
Proof. intro Hi. unfold cell_x, cell_y. now rewrite !fin_col_nth. Qed.

Lemma fin_alive_ref i : alive_at (s_store R) i ->
  i < n /\ bucket_key nx ny reverse (cell_x d fx kx (s_store R) i) (cell_y d fy ky (s_store R) i) = nth i refs 0.
Proof.
  intros [Hi Hd]. rewrite fin_dead in Hi. split; auto.
  destruct (fin_cells i Hi) as [-> ->]. rewrite fin_dead_nth in Hd by auto.
  rewrite <- key_alive by (split; auto; now apply sg_lt).
  apply sort_perm_key; auto.
Qed.

Lemma counts_sum : sumn counts = n.
Proof. apply counts_total; auto. Qed.

Lemma min_max_eq : s_min R = bound_min counts /\ s_max R = bound_max counts.
Proof. destruct EQ as (_ & _ & A & B). split; [exact A|exact B]. Qed.

(** C02: the published slices are exactly the buckets. *)
Lemma sort_slices i b :
  alive_at (s_store R) i -> b < nx * ny ->
  (nth b (s_min R) 0 <= i < nth b (s_max R) 0 <->
   home nx ny reverse (cell_x d fx kx (s_store R) i) (cell_y d fy ky (s_store R) i) b).
Proof.
  intros Ha Hb. destruct (fin_alive_ref i Ha) as [Hi E].
  rewrite bucket_key_home, E by auto. destruct min_max_eq as [-> ->].
  symmetry. unfold refs. apply ref_slot; auto.
  - apply count_keys_length.
  - now rewrite counts_sum.
Qed.

Lemma sort_slices_tile :
  length (s_min R) = nx * ny /\ length (s_max R) = nx * ny /\
  nth 0 (s_min R) 0 = 0 /\
  (forall b, S b < nx * ny -> nth b (s_max R) 0 = nth (S b) (s_min R) 0) /\
  nth (nx * ny - 1) (s_max R) 0 = n /\
  (forall b, b < nx * ny -> nth b (s_min R) 0 <= nth b (s_max R) 0).
Proof.
  destruct min_max_eq as [-> ->].
  assert (Hc : length counts = nx * ny) by apply count_keys_length.
  assert (Hp : 0 < nx * ny) by (apply Nat.mul_pos_pos; auto).
  repeat split.
  - unfold bound_min. now rewrite prefix_length.
  - unfold bound_max. rewrite app_length. cbn [length].
    assert (length (bound_min counts) = nx * ny) by (unfold bound_min; now rewrite prefix_length).
    destruct (bound_min counts); simpl in *; lia.
  - rewrite bound_min_nth by lia. reflexivity.
  - intros b Hb. rewrite bound_max_nth, bound_min_nth by lia. reflexivity.
  - rewrite bound_max_nth by lia. rewrite firstn_all2 by lia. apply counts_sum.
  - intros b Hb. rewrite bound_min_nth, bound_max_nth, sum_firstn_snoc by lia. lia.
Qed.

(** C03: who is in the right slice does not move. *)
Lemma sort_keeps_placed i b :
  alive_at s i -> b < nx * ny ->
  home nx ny reverse (cell_x d fx kx s i) (cell_y d fy ky s i) b ->
  nth b (s_min R) 0 <= i < nth b (s_max R) 0 ->
  row d (s_store R) i = row d s i.
Proof.
  intros Ha Hb Hh Hs. rewrite bucket_key_home in Hh by auto.
  destruct min_max_eq as [E1 E2]. rewrite E1, E2 in Hs.
  assert (Hi : i < n) by apply Ha.
  assert (Hs' : nth i (ref_keys nx ny counts) 0 = b).
  { apply ref_slot; auto; [apply count_keys_length|now rewrite counts_sum]. }
  rewrite fin_row by auto. f_equal. apply sort_perm_fixed; auto.
  rewrite key_alive, Hh by auto. symmetry. exact Hs'.
Qed.

(** the returned number bounds the number of changed slots, and zero means "nothing touched" *)
Lemma sort_count_moved :
  (forall l, NoDup l -> (forall i, In i l -> i < n /\ row d (s_store R) i <> row d s i) ->
     length l <= s_nbuf R) /\
  s_nbuf R <= n /\ (s_nbuf R = 0 -> s_store R = s).
Proof.
  destruct EQ as (E & E2 & _). fold R in E2. fold keys in E2. fold counts in E2. fold refs in E2. fold n in E2.
  repeat split.
  - intros l Hnd Hl. rewrite E2. apply NoDup_incl_length; auto.
    intros i Hi. destruct (Hl i Hi) as [Hin Hne]. apply (T_in nx ny n keys KL KB). split; auto.
    intro Heq. apply Hne. rewrite fin_row by auto. f_equal. apply sort_perm_fixed; auto.
  - rewrite E2. unfold targets. rewrite <- (seq_length n 0) at 2. apply countb_le.
  - intro Hz. unfold R, sort_patch, bucket_sort in Hz |- *. fold keys in Hz |- *. fold counts in Hz |- *.
    fold refs in Hz |- *. fold n in Hz |- *.
    destruct (Nat.eqb_spec (length (targets keys refs n)) 0) as [Z0|Z0]; cbn [s_store s_nbuf] in *.
    + destruct s; reflexivity.
    + lia.
Qed.

(** sorted input is left untouched *)
Lemma sort_noop :
  (forall i j bi bj, i < j -> alive_at s i -> alive_at s j ->
     home nx ny reverse (cell_x d fx kx s i) (cell_y d fy ky s i) bi ->
     home nx ny reverse (cell_x d fx kx s j) (cell_y d fy ky s j) bj -> bi <= bj) ->
  s_nbuf R = 0 /\ s_store R = s.
Proof.
  intro Hs.
  assert (HS : StronglySorted le keys).
  { assert (H0 : StronglySorted le (0 :: keys)).
    { assert (Hsl : forall i, i < n -> nth i (slots_of d fx fy kx ky s) (true,(0,0)%Z) = (nth i (dead s) true, (cell_x d fx kx s i, cell_y d fy ky s i))).
      { intros i Hi. unfold slots_of. rewrite (nth_map _ _ _ 0) by (now rewrite seq_length). now rewrite seq_nth. }
      apply calc_keys_sorted; rewrite slots_length; fold n.
      - intros; lia.
      - intros i j Hij. rewrite !Hsl by lia. cbn [fst snd]. intros D1 D2.
        apply (Hs i j); try (split; auto; unfold n in *; lia); try lia;
          now apply bucket_key_home. }
    apply StronglySorted_inv in H0. tauto. }
  assert (HR : refs = keys).
  { rewrite (sorted_flat keys (nx * ny) HS KB). unfold refs. rewrite ref_keys_flat.
    rewrite !flat_map_concat_map. f_equal. apply map_ext_in. intros b Hb. apply in_seq in Hb.
    unfold counts. rewrite count_keys_nth by lia. reflexivity. }
  assert (HN : s_nbuf R = 0).
  { destruct EQ as (_ & E2 & _). fold R in E2. fold keys in E2. fold counts in E2. fold refs in E2.
    rewrite E2, HR. unfold targets. apply countb_false. intros a _. now rewrite Nat.eqb_refl. }
  split; auto. now apply sort_count_moved.
Qed.
End Final.

(** sorting twice = sorting once *)
Lemma sort_idempotent {V} (d : V) fx fy kx ky nx ny reverse buf dbuf buf2 dbuf2 (s : store V) :
  0 < nx -> 0 < ny -> rectangular s ->
  length (dead s) <= length buf -> length (dead s) <= length dbuf ->
  length (dead s) <= length buf2 -> length (dead s) <= length dbuf2 ->
  kx < length (cols s) -> ky < length (cols s) ->
  let R := sort_patch d fx fy kx ky nx ny reverse buf dbuf s in
  let R2 := sort_patch d fx fy kx ky nx ny reverse buf2 dbuf2 (s_store R) in
  s_nbuf R2 = 0 /\ s_store R2 = s_store R.
Proof.
  intros Hx Hy Hr Hb Hdb Hb2 Hdb2 Hkx Hky R R2.
  assert (HD : length (dead (s_store R)) = length (dead s)) by (apply fin_dead; auto).
  apply sort_noop; auto.
  - apply fin_rect; auto.
  - now rewrite HD.
  - now rewrite HD.
  - unfold R. rewrite fin_cols; auto.
  - unfold R. rewrite fin_cols; auto.
  - intros i j bi bj Hij Ai Aj Hi Hj.
    rewrite bucket_key_home in Hi, Hj by auto.
    destruct (fin_alive_ref d fx fy kx ky nx ny reverse buf dbuf s Hx Hy Hr Hb Hdb Hkx Hky i Ai) as [Li Ei].
    destruct (fin_alive_ref d fx fy kx ky nx ny reverse buf dbuf s Hx Hy Hr Hb Hdb Hkx Hky j Aj) as [Lj Ej].
    fold R in Ei, Ej. rewrite <- Hi, <- Hj, Ei, Ej.
    apply sorted_nth; [apply ref_keys_sorted|].
    rewrite ref_keys_length by apply count_keys_length.
    rewrite (counts_total nx ny (length (dead s))); [lia|apply keys_length|apply keys_lt; auto].
Qed.
