From Verif Require Import Base M_Output S_Output.

(* ---------- particle output ---------- *)
Section SP.
Context {V : Type} (zero : V).
Notation pp := (ppatch V).

Lemma compress_length (mask : list bool) (data : list V) :
  length data = length mask -> length (compress mask data) = countb negb mask.
Proof.
  revert data; induction mask as [|m ms IH]; intros [|v vs] H; try discriminate; [reflexivity|].
  cbn [compress]. rewrite countb_cons. injection H as H. specialize (IH vs H).
  destruct (negb m); cbn [length]; lia.
Qed.

Lemma put_seg_length s (vals arr : list V) :
  s + length vals <= length arr -> length (put_seg s vals arr) = length arr.
Proof.
  intro H. unfold put_seg. rewrite !app_length, firstn_length, skipn_length. lia.
Qed.

Lemma nth_skipn {A} (l : list A) k i d : nth i (skipn k l) d = nth (k + i) l d.
Proof. revert k i; induction l as [|a l IH]; intros [|k] i; simpl; auto; destruct i; auto. Qed.

Lemma put_seg_nth s (vals arr : list V) q d :
  s + length vals <= length arr ->
  nth q (put_seg s vals arr) d = if (s <=? q) && (q <? s + length vals) then nth (q - s) vals d else nth q arr d.
Proof.
  intro H. unfold put_seg.
  destruct (Nat.lt_ge_cases q s) as [Hq|Hq].
  - rewrite app_nth1 by (rewrite firstn_length; lia). rewrite nth_firstn_lt by auto.
    destruct (s <=? q) eqn:E; [lia|reflexivity].
  - rewrite app_nth2 by (rewrite firstn_length; lia). rewrite firstn_length, Nat.min_l by lia.
    destruct (s <=? q) eqn:E; [|lia]. cbn [andb].
    destruct (q <? s + length vals) eqn:E2.
    + rewrite app_nth1 by lia. reflexivity.
    + rewrite app_nth2 by lia. rewrite nth_skipn. f_equal. lia.
Qed.

(** A write agrees with the final content [fin]. *)
Definition agrees (fin : nat -> list V) (w : @wop V) : Prop :=
  length (w_vals w) = w_len w /\ w_start w + w_len w <= length (fin (w_attr w)) /\
  forall i, i < w_len w -> nth i (w_vals w) zero = nth (w_start w + i) (fin (w_attr w)) zero.

Lemma apply_ws_agree fin ws : forall file,
  (forall a, length (file a) = length (fin a)) ->
  (forall w, In w ws -> agrees fin w) ->
  exists f', apply_ws ws file = Some f' /\ (forall a, length (f' a) = length (fin a)) /\
  (forall a q, nth q (file a) zero = nth q (fin a) zero -> nth q (f' a) zero = nth q (fin a) zero) /\
  (forall w q, In w ws -> w_start w <= q < w_start w + w_len w ->
     nth q (f' (w_attr w)) zero = nth q (fin (w_attr w)) zero).
Proof.
  induction ws as [|w ws IH]; intros file Hf Hw.
  - exists file. cbn. repeat split; auto. intros w q [].
  - destruct (Hw w (or_introl eq_refl)) as (A1 & A2 & A3).
    set (f1 := fun a => if a =? w_attr w then put_seg (w_start w) (w_vals w) (file a) else file a).
    assert (L1 : forall a, length (f1 a) = length (fin a)).
    { intro a. unfold f1. destruct (Nat.eqb_spec a (w_attr w)) as [->|]; auto.
      rewrite put_seg_length; auto. rewrite Hf, A1. exact A2. }
    assert (N1 : forall a q, (nth q (file a) zero = nth q (fin a) zero \/
                  (a = w_attr w /\ w_start w <= q < w_start w + w_len w)) -> nth q (f1 a) zero = nth q (fin a) zero).
    { intros a q Hq. unfold f1. destruct (Nat.eqb_spec a (w_attr w)) as [->|Hne].
      - rewrite put_seg_nth by (rewrite Hf, A1; exact A2). rewrite A1.
        destruct ((w_start w <=? q) && (q <? w_start w + w_len w)) eqn:E.
        + rewrite A3 by lia. f_equal. lia.
        + destruct Hq as [Hq|(_ & Hq)]; [exact Hq|lia].
      - destruct Hq as [Hq|(Hq & _)]; [exact Hq|congruence]. }
    destruct (IH f1 L1 (fun x Hx => Hw x (or_intror Hx))) as (f' & E & F1 & F2 & F3).
    exists f'. cbn [apply_ws]. unfold apply_w. rewrite A1, Nat.eqb_refl, Hf.
    rewrite (proj2 (Nat.leb_le _ _) A2). cbn [andb]. fold f1. split; auto. split; auto. split.
    + intros a q Hq. apply F2, N1. auto.
    + intros w' q [<-|Hin] Hq; [|now apply F3]. apply F2, N1. auto.
Qed.

Definition good (ps : list pp) (attrs : list nat) : Prop :=
  forall p a, In p ps -> In a attrs -> length (pp_attr p a) = length (pp_dead p).

Definition expected (a : nat) (ps : list pp) : list V :=
  concat (map (fun p => compress (pp_dead p) (pp_attr p a)) ps).

Lemma expected_length a ps attrs : In a attrs -> good ps attrs -> length (expected a ps) = sumn (map n_alive ps).
Proof.
  intros Ha; induction ps as [|p ps IH]; intros Hg; [reflexivity|]. unfold expected in *. cbn [map concat].
  rewrite app_length, sumn_cons, IH by (intros x b Hx; apply Hg; now right).
  rewrite compress_length by (apply Hg; [now left|auto]). reflexivity.
Qed.

Lemma rank_writes_spec attrs ps : good ps attrs -> forall start pre,
  start = length pre ->
  (forall w, In w (rank_writes attrs start ps) ->
     In (w_attr w) attrs /\ length (w_vals w) = w_len w /\
     w_start w + w_len w <= start + sumn (map n_alive ps) /\
     forall i, i < w_len w -> nth i (w_vals w) zero = nth (w_start w + i) (pre ++ expected (w_attr w) ps) zero \/
                              start <> length pre) /\
  (forall a q, In a attrs -> start <= q < start + sumn (map n_alive ps) ->
     exists w, In w (rank_writes attrs start ps) /\ w_attr w = a /\ w_start w <= q < w_start w + w_len w).
Proof.
  induction ps as [|p ps IH]; intros Hg start pre Hs.
  - split; [intros w []|]. cbn. intros a q _ Hq. lia.
  - assert (Hg' : good ps attrs) by (intros x a Hx; apply Hg; now right).
    cbn [rank_writes map]. rewrite sumn_cons. split.
    + intros w Hw. apply in_app_or in Hw. destruct Hw as [Hw|Hw].
      * apply in_map_iff in Hw. destruct Hw as (a & <- & Ha). cbn [w_attr w_vals w_len w_start].
        assert (L : length (compress (pp_dead p) (pp_attr p a)) = n_alive p).
        { apply compress_length. apply Hg; [now left|auto]. }
        repeat split; auto; try lia. intros i Hi. left. rewrite app_nth2 by lia.
        replace (start + i - length pre) with i by lia. unfold expected. cbn [map concat].
        rewrite app_nth1 by lia. reflexivity.
      * destruct (in_dec Nat.eq_dec (w_attr w) attrs) as [Hin|Hnin].
        -- assert (L : length (compress (pp_dead p) (pp_attr p (w_attr w))) = n_alive p).
           { apply compress_length. apply Hg; [now left|auto]. }
           destruct (proj1 (IH Hg' (start + n_alive p) (pre ++ compress (pp_dead p) (pp_attr p (w_attr w)))
                      ltac:(rewrite app_length; lia)) w Hw) as (B1 & B2 & B3 & B4).
           repeat split; auto; try lia. intros i Hi. left. destruct (B4 i Hi) as [E|E].
           ++ rewrite E, <- app_assoc. unfold expected. reflexivity.
           ++ rewrite app_length in E. lia.
        -- exfalso. apply Hnin. 
           destruct (proj1 (IH Hg' (start + n_alive p) (repeat zero (start + n_alive p))
                      ltac:(now rewrite repeat_length)) w Hw) as (B1 & _). exact B1.
    + intros a q Ha Hq.
      destruct (Nat.lt_ge_cases q (start + n_alive p)) as [Hlt|Hge].
      * exists (mkW a start (n_alive p) (compress (pp_dead p) (pp_attr p a))). split.
        -- apply in_or_app; left. apply in_map_iff. eauto.
        -- cbn. split; auto; lia.
      * destruct (proj2 (IH Hg' (start + n_alive p) (repeat zero (start + n_alive p))
                      ltac:(now rewrite repeat_length)) a q Ha ltac:(lia)) as (w & Hw & He).
        exists w. split; auto. apply in_or_app; now right.
Qed.

Lemma rank_writes_app attrs (ps1 : list pp) : forall start ps2,
  rank_writes attrs start (ps1 ++ ps2)
  = rank_writes attrs start ps1 ++ rank_writes attrs (start + sumn (map n_alive ps1)) ps2.
Proof.
  induction ps1 as [|p ps1 IH]; intros start ps2.
  - cbn. now rewrite Nat.add_0_r.
  - cbn [app rank_writes map]. rewrite sumn_cons, IH, <- app_assoc. do 3 f_equal. lia.
Qed.

Lemma all_writes_flat attrs (ranks : list (list pp)) :
  all_writes attrs ranks = rank_writes attrs 0 (concat ranks).
Proof.
  unfold all_writes, rank_start.
  assert (G : forall (ranks : list (list pp)) start,
    flat_map (fun r => rank_writes attrs (start + sumn (map (fun ps => sumn (map n_alive ps)) (firstn r ranks))) (nth r ranks []))
             (seq 0 (length ranks)) = rank_writes attrs start (concat ranks)).
  { clear. induction ranks as [|ps ranks IH]; intros start; [reflexivity|].
    cbn [length concat]. rewrite rank_writes_app. rewrite <- IH.
    cbn [seq flat_map]. rewrite <- seq_shift, !flat_map_concat_map, map_map.
    cbn [firstn map nth]. change (sumn []) with 0. rewrite Nat.add_0_r. f_equal. f_equal.
    apply map_ext. intro r. cbn [firstn map nth]. rewrite sumn_cons. f_equal. lia. }
  apply (G ranks 0).
Qed.

Lemma total_flat (ranks : list (list pp)) :
  sumn (map (fun ps => sumn (map n_alive ps)) ranks) = sumn (map n_alive (concat ranks)).
Proof.
  induction ranks as [|ps ranks IH]; [reflexivity|]. cbn [map concat].
  now rewrite sumn_cons, map_app, sumn_app, IH.
Qed.

Lemma compress_slots (mask : list bool) (data : list V) :
  length data = length mask ->
  compress mask data = map (fun s => nth s data zero) (filter (fun s => negb (nth s mask true)) (seq 0 (length mask))).
Proof.
  revert data; induction mask as [|m ms IH]; intros [|v vs] H; try discriminate; [reflexivity|].
  injection H as H. cbn [compress length seq filter].
  rewrite <- seq_shift. change (nth 0 (m :: ms) true) with m.
  assert (E : forall l, map (fun s => nth s (v :: vs) zero) (filter (fun s => negb (nth s (m :: ms) true)) (map S l))
             = map (fun s => nth s vs zero) (filter (fun s => negb (nth s ms true)) l)).
  { induction l as [|a l IHl]; [reflexivity|]. cbn [map filter].
    change (nth (S a) (m :: ms) true) with (nth a ms true).
    destruct (negb (nth a ms true)); cbn [map]; rewrite IHl; reflexivity. }
  destruct (negb m); cbn [map]; rewrite E, IH by auto; reflexivity.
Qed.

Lemma map_flat_map {A B C} (g : B -> C) (f : A -> list B) l :
  map g (flat_map f l) = flat_map (fun a => map g (f a)) l.
Proof. induction l as [|a l IH]; cbn; [reflexivity|]. now rewrite map_app, IH. Qed.

Lemma flat_nth {A B} (h : A -> list B) l d :
  concat (map h l) = flat_map (fun i => h (nth i l d)) (seq 0 (length l)).
Proof.
  rewrite flat_map_concat_map. f_equal. rewrite <- (map_map (fun i => nth i l d) h).
  now rewrite map_nth_seq.
Qed.

Lemma flat_map_ext_in' {A B} (f g : A -> list B) l :
  (forall a, In a l -> f a = g a) -> flat_map f l = flat_map g l.
Proof.
  induction l as [|a l IH]; intro H; cbn; [reflexivity|].
  rewrite H by (now left). f_equal. apply IH. intros; apply H; now right.
Qed.

Lemma expected_concat a (ranks : list (list pp)) :
  expected a (concat ranks) = concat (map (expected a) ranks).
Proof.
  unfold expected. induction ranks as [|ps ranks IH]; [reflexivity|].
  cbn [concat map]. now rewrite map_app, concat_app, IH.
Qed.

Lemma expected_rows a attrs (ranks : list (list pp)) :
  In a attrs -> good (concat ranks) attrs ->
  expected a (concat ranks) = map (attr_value zero ranks a) (alive_all ranks).
Proof.
  intros Ha Hg. rewrite expected_concat, (flat_nth _ _ []). unfold alive_all. rewrite map_flat_map.
  apply flat_map_ext_in'. intros r Hr. apply in_seq in Hr.
  unfold expected. rewrite (flat_nth _ _ (mkPP [] (fun _ => []))), map_flat_map.
  apply flat_map_ext_in'. intros i Hi. apply in_seq in Hi.
  set (p := nth i (nth r ranks []) (mkPP [] (fun _ => []))).
  rewrite map_map. cbn [attr_value]. fold p.
  rewrite compress_slots. { reflexivity. }
  apply Hg; auto. apply in_concat. exists (nth r ranks []). split; [apply nth_In; lia|apply nth_In; lia].
Qed.

Lemma save_particles_ok attrs (ranks : list (list pp)) ws :
  good (concat ranks) attrs -> Permutation ws (all_writes attrs ranks) ->
  exists f, apply_ws ws (fresh_file zero ranks) = Some f /\
  forall a, In a attrs -> f a = map (attr_value zero ranks a) (alive_all ranks).
Proof.
  intros Hg Hp. rewrite all_writes_flat in Hp.
  set (fin := fun a => if in_dec Nat.eq_dec a attrs then expected a (concat ranks)
                       else repeat zero (sumn (map n_alive (concat ranks)))).
  assert (Lfin : forall a, length (fin a) = sumn (map n_alive (concat ranks))).
  { intro a. unfold fin. destruct (in_dec Nat.eq_dec a attrs) as [H|H].
    - now apply (expected_length a _ attrs).
    - apply repeat_length. }
  destruct (rank_writes_spec attrs (concat ranks) Hg 0 [] eq_refl) as [W1 W2].
  destruct (apply_ws_agree fin ws (fresh_file zero ranks)) as (f & E & F1 & F2 & F3).
  - intro a. unfold fresh_file. rewrite repeat_length, Lfin. apply total_flat.
  - intros w Hw. apply (Permutation_in (l' := rank_writes attrs 0 (concat ranks))) in Hw; auto.
    destruct (W1 w Hw) as (A & B & C & D). split; [auto|]. split; [now rewrite Lfin|].
    intros i Hi. destruct (D i Hi) as [->|Hd]; [|cbn in Hd; lia]. cbn [app]. unfold fin.
    destruct (in_dec Nat.eq_dec (w_attr w) attrs); [reflexivity|tauto].
  - exists f. split; auto. intros a Ha. rewrite <- (expected_rows a attrs) by auto.
    apply (list_ext _ _ zero). { rewrite F1, Lfin. symmetry. now apply (expected_length a _ attrs). }
    intros q Hq. rewrite F1, Lfin in Hq.
    destruct (W2 a q Ha ltac:(lia)) as (w & Hw & <- & Hr).
    apply (Permutation_in (l' := ws)) in Hw; [|now symmetry].
    rewrite (F3 w q Hw Hr). unfold fin. destruct (in_dec Nat.eq_dec (w_attr w) attrs); [reflexivity|tauto].
Qed.

(** [alive_all] lists exactly the alive slots, each once. *)
Lemma alive_all_spec (ranks : list (list pp)) :
  NoDup (alive_all ranks) /\
  forall r i s, In (r, i, s) (alive_all ranks) <->
    r < length ranks /\ i < length (nth r ranks []) /\
    s < length (pp_dead (nth i (nth r ranks []) (mkPP [] (fun _ => [])))) /\
    nth s (pp_dead (nth i (nth r ranks []) (mkPP [] (fun _ => [])))) true = false.
Proof.
  assert (ND : forall A B (f : A -> list B) l, NoDup l -> (forall a, In a l -> NoDup (f a)) ->
     (forall a a' b, In a l -> In a' l -> In b (f a) -> In b (f a') -> a = a') -> NoDup (flat_map f l)).
  { clear. intros A B f l. induction l as [|a l IH]; intros Hl Hf Hd; [constructor|].
    inversion Hl as [|? ? Hni Hl']; subst. cbn [flat_map].
    assert (X : NoDup (flat_map f l)).
    { apply IH; auto. - intros; apply Hf; now right. - intros x y b Hx Hy. apply Hd; now right. }
    assert (Y : forall b, In b (f a) -> ~ In b (flat_map f l)).
    { intros b Hb Hin. apply in_flat_map in Hin. destruct Hin as (a' & Ha' & Hb').
      assert (a = a') by (apply (Hd a a' b); auto; [now left|now right]). subst. auto. }
    revert X Y. generalize (flat_map f l) as m. intros m X Y.
    assert (F : NoDup (f a)) by (apply Hf; now left). revert F Y. generalize (f a) as k.
    induction k as [|b k IHk]; intros F Y; cbn; auto. inversion F; subst. constructor.
    - intro Hin. apply in_app_or in Hin. destruct Hin; [auto|]. apply (Y b); auto. now left.
    - apply IHk; auto. intros c Hc. apply Y. now right. }
  split.
  - unfold alive_all. apply ND.
    + apply seq_NoDup.
    + intros r _. apply ND.
      * apply seq_NoDup.
      * intros i _. apply FinFun.Injective_map_NoDup; [intros x y [=]; auto|].
        apply NoDup_filter, seq_NoDup.
      * intros i i' b _ _ Hb Hb'. apply in_map_iff in Hb. apply in_map_iff in Hb'.
        destruct Hb as (s & <- & _). destruct Hb' as (s' & [=] & _). auto.
    + intros r r' b _ _ Hb Hb'. apply in_flat_map in Hb. apply in_flat_map in Hb'.
      destruct Hb as (i & _ & Hb). destruct Hb' as (i' & _ & Hb').
      apply in_map_iff in Hb. apply in_map_iff in Hb'.
      destruct Hb as (s & <- & _). destruct Hb' as (s' & [=] & _). auto.
  - intros r i s. unfold alive_all. rewrite in_flat_map. split.
    + intros (r' & Hr & H). apply in_flat_map in H. destruct H as (i' & Hi & H).
      apply in_map_iff in H. destruct H as (s' & [= -> -> ->] & H).
      apply in_seq in Hr. apply in_seq in Hi. unfold alive_slots in H. apply filter_In in H.
      destruct H as [H1 H2]. apply in_seq in H1. apply negb_true_iff in H2. repeat split; auto; lia.
    + intros (Hr & Hi & Hs & Hd). exists r. split; [apply in_seq; lia|].
      apply in_flat_map. exists i. split; [apply in_seq; lia|].
      apply in_map_iff. exists s. split; auto. unfold alive_slots. apply filter_In.
      split; [apply in_seq; lia|]. now rewrite Hd.
Qed.
End SP.

(* ---------- gathering fields ---------- *)
Section G2.
Context {V : Type} (zero nan : V).
Notation fp := (fpatch V).

Lemma pos_eqb_eq a b : pos_eqb a b = true <-> a = b.
Proof.
  destruct a as [a1 a2], b as [b1 b2]. unfold pos_eqb; cbn. rewrite andb_true_iff, !Nat.eqb_eq.
  split; [intros [-> ->]; auto|intros [= -> ->]; auto].
Qed.

Lemma find_unique {A} (f : A -> bool) l p :
  In p l -> f p = true -> (forall q, In q l -> f q = true -> q = p) -> find f l = Some p.
Proof.
  intros Hin Hf Hu. destruct (find f l) as [q|] eqn:E.
  - apply find_some in E. f_equal. apply Hu; tauto.
  - exfalso. apply (find_none _ _ E) in Hin. congruence.
Qed.

Lemma find_absent {A} (f : A -> bool) l : (forall q, In q l -> f q = false) -> find f l = None.
Proof.
  intro H. destruct (find f l) as [q|] eqn:E; auto. apply find_some in E. rewrite H in E; tauto || (destruct E; congruence).
Qed.

Variables (nxp nyp npx npy ng : nat) (ranks : list (list fp)).
Hypothesis Hnx : 0 < nxp.
Hypothesis Hny : 0 < nyp.
Hypothesis Hng : 0 < ng.
Hypothesis Hpos : NoDup (map f_pos (concat ranks)).
Hypothesis Hidx : NoDup (map f_index (concat ranks)).
Hypothesis Hne : ranks <> [].

Lemma nodup_map_inj {A B} (f : A -> B) l p q : NoDup (map f l) -> In p l -> In q l -> f p = f q -> p = q.
Proof.
  induction l as [|a l IH]; intros Hn Hp Hq He; [easy|]. cbn in Hn. inversion Hn as [|? ? Hni Hn']; subst.
  destruct Hp as [->|Hp], Hq as [->|Hq]; auto.
  - exfalso. apply Hni. rewrite He. now apply in_map.
  - exfalso. apply Hni. rewrite <- He. now apply in_map.
Qed.

Lemma index_at_some p : In p (concat ranks) -> index_at ranks (f_pos p) = Some (f_index p).
Proof.
  intro Hp. unfold index_at. rewrite (find_unique _ _ p); auto.
  - now apply in_rev in Hp.
  - now apply pos_eqb_eq.
  - intros q Hq Hf. apply in_rev in Hq. apply pos_eqb_eq in Hf.
    apply (nodup_map_inj f_pos (concat ranks)); auto.
Qed.

Lemma index_at_none pos : ~ In pos (map f_pos (concat ranks)) -> index_at ranks pos = None.
Proof.
  intro H. unfold index_at. rewrite find_absent; auto. intros q Hq. apply in_rev in Hq.
  destruct (pos_eqb (f_pos q) pos) eqn:E; auto. apply pos_eqb_eq in E. exfalso. apply H.
  rewrite <- E. now apply in_map.
Qed.

Lemma step_some mask p out : In p (concat ranks) ->
  gather_step nxp nyp ng mask ranks (Done out) (f_pos p)
  = put_patch nxp nyp ng (f_pos p) (f_data p) out.
Proof.
  intro Hp. unfold gather_step. rewrite index_at_some by auto.
  destruct ranks as [|root others] eqn:ER; [congruence|]. cbn [hd tl].
  assert (Hc : concat (root :: others) = root ++ concat others) by reflexivity.
  rewrite Hc in *.
  destruct (find_local root (f_index p)) as [q|] eqn:E.
  - unfold find_local in E. apply find_some in E. destruct E as [Hq Hi].
    apply in_rev in Hq. apply Nat.eqb_eq in Hi.
    assert (q = p) as -> by (eapply (nodup_map_inj f_index); eauto; apply in_or_app; now left).
    reflexivity.
  - assert (Hr : In p (concat others)).
    { apply in_app_or in Hp. destruct Hp as [Hp|Hp]; auto. exfalso. unfold find_local in E.
      apply in_rev in Hp. pose proof (find_none _ _ E p Hp) as Hf. cbn in Hf.
      rewrite Nat.eqb_refl in Hf. discriminate. }
    unfold recv. rewrite (find_unique _ _ p); auto.
    + apply Nat.eqb_refl.
    + intros q Hq Hf. apply Nat.eqb_eq in Hf. eapply (nodup_map_inj f_index); eauto. apply in_or_app; now right.
Qed.

Lemma cell_of_patch a b n : 0 < n -> ((b * n <=? a) && (a <? b * n + n) = true <-> a / n = b).
Proof.
  intro Hn. split.
  - intro H. assert (Hb : b * n <= a < b * n + n) by lia. symmetry.
    apply (Nat.div_unique a n b (a - b * n)); lia.
  - intros <-. pose proof (Nat.div_mod a n ltac:(lia)). pose proof (Nat.mod_upper_bound a n ltac:(lia)). lia.
Qed.

Lemma gather_fold mask l : NoDup l ->
  (mask = true \/ forall pos, In pos l -> In pos (map f_pos (concat ranks))) ->
  forall out0, exists out, fold_left (gather_step nxp nyp ng mask ranks) l (Done out0) = Done out /\
  (forall p x y, In p (concat ranks) -> In (f_pos p) l -> f_pos p = (x / nxp, y / nyp) ->
      out x y = f_data p (x mod nxp) (y mod nyp)) /\
  (forall x y, ~ (In (x / nxp, y / nyp) l /\ In (x / nxp, y / nyp) (map f_pos (concat ranks))) -> out x y = out0 x y).
Proof.
  induction l as [|pos l IH]; intros Hnd Hm out0.
  - exists out0. cbn. repeat split; auto; intros; tauto.
  - inversion Hnd as [|? ? Hni Hnd']; subst.
    assert (Hm' : mask = true \/ forall pos, In pos l -> In pos (map f_pos (concat ranks))).
    { destruct Hm as [|Hm]; [now left|right]. intros q Hq. apply Hm. now right. }
    cbn [fold_left].
    assert (Hdec : In pos (map f_pos (concat ranks)) \/ ~ In pos (map f_pos (concat ranks))).
    { destruct (in_dec (fun a b : nat * nat => ltac:(decide equality; apply Nat.eq_dec)) pos (map f_pos (concat ranks))); auto. }
    destruct Hdec as [Hin|Hnin].
    + apply in_map_iff in Hin. destruct Hin as (p & Hpp & Hp). subst pos. rewrite step_some by auto.
      unfold put_patch. destruct (Nat.eqb_spec ng 0) as [|_]; [lia|].
      set (o1 := fun x y : nat => _).
      destruct (IH Hnd' Hm' o1) as (out & E & O1 & O2). exists out. split; auto.
      assert (Ho1 : forall x y, f_pos p = (x / nxp, y / nyp) -> o1 x y = f_data p (x mod nxp) (y mod nyp)).
      { intros x y Hq. unfold o1. rewrite Hq. cbn [fst snd].
        pose proof (proj2 (cell_of_patch x (x / nxp) nxp Hnx) eq_refl) as B1.
        pose proof (proj2 (cell_of_patch y (y / nyp) nyp Hny) eq_refl) as B2.
        apply andb_prop in B1. apply andb_prop in B2. destruct B1 as [B1 B1'], B2 as [B2 B2'].
        rewrite B1, B1', B2, B2'. cbn [andb].
        rewrite (Nat.mod_eq x nxp), (Nat.mod_eq y nyp) by lia.
        now rewrite (Nat.mul_comm nxp), (Nat.mul_comm nyp). }
      assert (Ho2 : forall x y, f_pos p <> (x / nxp, y / nyp) -> o1 x y = out0 x y).
      { intros x y Hq. unfold o1.
        destruct ((fst (f_pos p) * nxp <=? x) && (x <? fst (f_pos p) * nxp + nxp) && (snd (f_pos p) * nyp <=? y)
                  && (y <? snd (f_pos p) * nyp + nyp)) eqn:EB; auto.
        exfalso. apply Hq. repeat (apply andb_prop in EB; destruct EB as [EB ?]).
        assert (x / nxp = fst (f_pos p)) as -> by (apply cell_of_patch; auto; apply andb_true_intro; auto).
        assert (y / nyp = snd (f_pos p)) as -> by (apply cell_of_patch; auto; apply andb_true_intro; auto).
        now destruct (f_pos p). }
      split.
      * intros q x y Hq Hql Hqp. destruct Hql as [Hql|Hql].
        -- assert (q = p) as -> by (eapply (nodup_map_inj f_pos); eauto).
           rewrite O2; [now apply Ho1|]. rewrite <- Hqp. tauto.
        -- now apply O1.
      * intros x y Hn. rewrite O2.
        -- apply Ho2. intro Hq. apply Hn. split; [now left|]. rewrite <- Hq. now apply in_map.
        -- intros [H1 H2]. apply Hn. split; auto. now right.
    + destruct Hm as [->|Hm].
      2:{ exfalso. apply Hnin, Hm. now left. }
      assert (ES : gather_step nxp nyp ng true ranks (Done out0) pos = Done out0).
      { unfold gather_step. now rewrite index_at_none. }
      rewrite ES. destruct (IH Hnd' (or_introl eq_refl) out0) as (out & E & O1 & O2).
      exists out. split; auto. split.
      * intros q x y Hq [Hql|Hql] Hqp; [|now apply O1]. exfalso. apply Hnin. rewrite Hql. now apply in_map.
      * intros x y Hn. apply O2. intros [H1 H2]. apply Hn. split; auto. now right.
Qed.

Lemma grid_in i j : In (i, j) (grid npx npy) <-> i < npx /\ j < npy.
Proof.
  unfold grid. rewrite in_flat_map. split.
  - intros (a & Ha & H). apply in_map_iff in H. destruct H as (b & [= -> ->] & Hb).
    apply in_seq in Ha. apply in_seq in Hb. lia.
  - intros [H1 H2]. exists i. split; [apply in_seq; lia|]. apply in_map_iff. exists j. split; auto. apply in_seq; lia.
Qed.

Lemma grid_NoDup : NoDup (grid npx npy).
Proof.
  unfold grid. generalize 0 at 2 as s. induction npx as [|n IH]; intros s; [constructor|].
  cbn [seq flat_map]. 
  assert (A : NoDup (map (fun j => (s, j)) (seq 0 npy))).
  { apply FinFun.Injective_map_NoDup; [intros x y [=]; auto|apply seq_NoDup]. }
  assert (D : forall q, In q (map (fun j => (s, j)) (seq 0 npy)) ->
              ~ In q (flat_map (fun i => map (fun j => (i, j)) (seq 0 npy)) (seq (S s) n))).
  { intros q Hq Hin. apply in_map_iff in Hq. destruct Hq as (j & <- & _).
    apply in_flat_map in Hin. destruct Hin as (i & Hi & Hin). apply in_map_iff in Hin.
    destruct Hin as (k & [= -> _] & _). apply in_seq in Hi. lia. }
  revert A D. generalize (map (fun j => (s, j)) (seq 0 npy)) as k. induction k as [|b k IHk]; intros A D; cbn; [apply IH|].
  inversion A; subst. constructor.
  - intro Hin. apply in_app_or in Hin. destruct Hin; [auto|]. apply (D b); auto. now left.
  - apply IHk; auto. intros c Hc. apply D. now right.
Qed.

Lemma get_fields_2d_ok :
  (forall i j, i < npx -> j < npy -> In (i, j) (map f_pos (concat ranks))) ->
  exists out, get_fields_2d zero nan nxp nyp npx npy ng None ranks = Done out /\
  forall p x y, In p (concat ranks) -> x < npx * nxp -> y < npy * nyp -> f_pos p = (x / nxp, y / nyp) ->
    out x y = f_data p (x mod nxp) (y mod nyp).
Proof.
  intro Hall. unfold get_fields_2d.
  destruct (gather_fold false (grid npx npy) grid_NoDup) with (out0 := fun _ _ : nat => zero) as (out & E & O1 & O2).
  { right. intros [i j] Hij. apply grid_in in Hij. apply Hall; tauto. }
  rewrite E. exists out. split; auto. intros p x y Hp Hx Hy Hq. apply O1; auto.
  rewrite Hq. apply grid_in. split; apply Nat.div_lt_upper_bound; lia.
Qed.

Lemma get_fields_2d_masked (m : nat -> nat -> bool) :
  (forall x y, x < npx * nxp -> y < npy * nyp -> (m x y = true <-> In (x / nxp, y / nyp) (map f_pos (concat ranks)))) ->
  exists out, get_fields_2d zero nan nxp nyp npx npy ng (Some m) ranks = Done out /\
  (forall p x y, In p (concat ranks) -> x < npx * nxp -> y < npy * nyp -> f_pos p = (x / nxp, y / nyp) ->
    out x y = f_data p (x mod nxp) (y mod nyp)) /\
  (forall x y, x < npx * nxp -> y < npy * nyp -> ~ In (x / nxp, y / nyp) (map f_pos (concat ranks)) -> out x y = nan).
Proof.
  intro Hm. unfold get_fields_2d.
  destruct (gather_fold true (grid npx npy) grid_NoDup (or_introl eq_refl) (fun _ _ : nat => zero)) as (out & E & O1 & O2).
  rewrite E. eexists. split; [reflexivity|]. cbn beta. split.
  - intros p x y Hp Hx Hy Hq. rewrite (proj2 (Hm x y Hx Hy)).
    + apply O1; auto. rewrite Hq. apply grid_in. split; apply Nat.div_lt_upper_bound; lia.
    + rewrite <- Hq. now apply in_map.
  - intros x y Hx Hy Hn. destruct (m x y) eqn:Em; auto. exfalso. apply Hn. now apply Hm.
Qed.
End G2.

Section G3.
Context {V : Type} (zero : V).
Notation gp := (gpatch V).

Lemma pos3_eqb_eq a b : pos3_eqb a b = true <-> a = b.
Proof.
  destruct a as [[a1 a2] a3], b as [[b1 b2] b3]. unfold pos3_eqb; cbn.
  rewrite !andb_true_iff, !Nat.eqb_eq.
  split; [intros [[-> ->] ->]; auto|intros [= -> -> ->]; auto].
Qed.

Variables (nxp nyp nzp npx npy npz ng z2 : nat) (ranks : list (list gp)).
Hypothesis Hnx : 0 < nxp.
Hypothesis Hny : 0 < nyp.
Hypothesis Hnz : 0 < nzp.
Hypothesis Hpos : NoDup (map g_pos (concat ranks)).
Hypothesis Hidx : NoDup (map g_index (concat ranks)).
Hypothesis Hne : ranks <> [].

(** the plane the code reads in a patch *)
Definition plane_of (p : gp) : nat :=
  if existsb (fun q => g_index q =? g_index p) (hd [] ranks)
  then iz_global z2 - iz_global z2 / nzp * nzp
  else iz_global z2 - snd (g_pos p) * nzp + ng.

Lemma step3_some p out : In p (concat ranks) -> contains nzp z2 p = true ->
  gather3_step nxp nyp nzp ng z2 ranks (Done out) (g_pos p)
  = Done (put_plane nxp nyp (fst (g_pos p)) (fun x y => g_data p x y (plane_of p)) out).
Proof.
  intros Hp Hc. unfold gather3_step, index3_at.
  rewrite (find_unique _ _ p).
  2:{ rewrite <- in_rev. now apply filter_In. }
  2:{ now apply pos3_eqb_eq. }
  2:{ intros q Hq Hf. rewrite <- in_rev in Hq. apply filter_In in Hq. apply pos3_eqb_eq in Hf.
      apply (nodup_map_inj g_pos (concat ranks)); tauto. }
  unfold plane_of.
  destruct ranks as [|root others] eqn:ER; [congruence|]. cbn [hd tl].
  assert (Hcc : concat (root :: others) = root ++ concat others) by reflexivity.
  rewrite Hcc in *.
  destruct (find (fun q => g_index q =? g_index p) (rev root)) as [q|] eqn:E.
  - apply find_some in E. destruct E as [Hq Hi]. rewrite <- in_rev in Hq. apply Nat.eqb_eq in Hi.
    assert (q = p) as -> by (apply (nodup_map_inj g_index (root ++ concat others)); auto; apply in_or_app; now left).
    assert (X : existsb (fun q => g_index q =? g_index p) root = true).
    { apply existsb_exists. exists p. split; auto. apply Nat.eqb_refl. }
    rewrite X. reflexivity.
  - assert (Hr : ~ In p root).
    { intro Hin. rewrite in_rev in Hin. pose proof (find_none _ _ E p Hin) as Hf. cbn in Hf.
      rewrite Nat.eqb_refl in Hf. discriminate. }
    assert (X : existsb (fun q => g_index q =? g_index p) root = false).
    { destruct (existsb (fun q => g_index q =? g_index p) root) eqn:EX; auto.
      apply existsb_exists in EX. destruct EX as (q & Hq & Hi). rewrite in_rev in Hq.
      pose proof (find_none _ _ E q Hq) as Hf. cbn in Hf. congruence. }
    rewrite X. apply in_app_or in Hp. destruct Hp as [Hp|Hp]; [tauto|].
    rewrite (find_unique _ _ p); auto.
    + now apply filter_In.
    + apply Nat.eqb_refl.
    + intros q Hq Hf. apply filter_In in Hq. apply Nat.eqb_eq in Hf.
      apply (nodup_map_inj g_index (root ++ concat others)); auto; apply in_or_app; right; tauto.
Qed.

Lemma step3_none pos out :
  (forall p, In p (concat ranks) -> g_pos p = pos -> contains nzp z2 p = false) ->
  gather3_step nxp nyp nzp ng z2 ranks (Done out) pos = Done out.
Proof.
  intro H. unfold gather3_step, index3_at. rewrite find_absent; auto.
  intros q Hq. rewrite <- in_rev in Hq. apply filter_In in Hq. destruct Hq as [Hq Hc].
  destruct (pos3_eqb (g_pos q) pos) eqn:E; auto. apply pos3_eqb_eq in E.
  rewrite (H q Hq E) in Hc. discriminate.
Qed.

Definition reaches (p : gp) (x y : nat) : Prop := fst (g_pos p) = (x / nxp, y / nyp) /\ contains nzp z2 p = true.

Lemma gather3_fold l : NoDup l ->
  (forall p q, In p (concat ranks) -> In q (concat ranks) -> contains nzp z2 p = true -> contains nzp z2 q = true ->
     snd (g_pos p) = snd (g_pos q)) ->
  forall out0, exists out, fold_left (gather3_step nxp nyp nzp ng z2 ranks) l (Done out0) = Done out /\
  (forall p x y, In p (concat ranks) -> In (g_pos p) l -> reaches p x y ->
      out x y = g_data p (x mod nxp) (y mod nyp) (plane_of p)) /\
  (forall x y, (forall p, In p (concat ranks) -> In (g_pos p) l -> ~ reaches p x y) -> out x y = out0 x y).
Proof.
  intros Hnd Hlayer. induction l as [|pos l IH]; intros out0.
  - exists out0. cbn. repeat split; auto. intros p x y _ [].
  - inversion Hnd as [|? ? Hni Hnd']; subst. specialize (IH Hnd').
    cbn [fold_left].
    destruct (find (fun p => pos3_eqb (g_pos p) pos && contains nzp z2 p) (concat ranks)) as [p|] eqn:EF.
    + apply find_some in EF. destruct EF as [Hp Hf]. apply andb_prop in Hf. destruct Hf as [Hf Hc].
      apply pos3_eqb_eq in Hf. subst pos. rewrite step3_some by auto.
      set (o1 := put_plane _ _ _ _ out0). destruct (IH o1) as (out & E & O1 & O2). exists out. split; auto.
      assert (Hrow : forall x y, (fst (fst (g_pos p)) * nxp <=? x) && (x <? fst (fst (g_pos p)) * nxp + nxp)
                 && (snd (fst (g_pos p)) * nyp <=? y) && (y <? snd (fst (g_pos p)) * nyp + nyp) = true
                 <-> fst (g_pos p) = (x / nxp, y / nyp)).
      { intros x y. rewrite <- andb_assoc, andb_true_iff, !cell_of_patch by auto.
        destruct (fst (g_pos p)) as [a b]. cbn. split; [intros [-> ->]; auto|intros [= -> ->]; auto]. }
      assert (Ho1 : forall x y, reaches p x y -> o1 x y = g_data p (x mod nxp) (y mod nyp) (plane_of p)).
      { intros x y [Hq _]. unfold o1, put_plane. rewrite (proj2 (Hrow x y) Hq). rewrite Hq. cbn [fst snd].
        rewrite (Nat.mod_eq x nxp), (Nat.mod_eq y nyp) by lia.
        now rewrite (Nat.mul_comm nxp), (Nat.mul_comm nyp). }
      assert (Ho2 : forall x y, ~ reaches p x y -> o1 x y = out0 x y).
      { intros x y Hq. unfold o1, put_plane.
        destruct ((fst (fst (g_pos p)) * nxp <=? x) && (x <? fst (fst (g_pos p)) * nxp + nxp)
                 && (snd (fst (g_pos p)) * nyp <=? y) && (y <? snd (fst (g_pos p)) * nyp + nyp)) eqn:EB; auto.
        exfalso. apply Hq. split; auto. now apply Hrow. }
      assert (Huniq : forall q x y, In q (concat ranks) -> reaches q x y -> reaches p x y -> q = p).
      { intros q x y Hq [R1 R2] [R3 R4]. apply (nodup_map_inj g_pos (concat ranks)); auto.
        assert (snd (g_pos q) = snd (g_pos p)) by (apply Hlayer; auto).
        destruct (g_pos q), (g_pos p). cbn in *. congruence. }
      split.
      * intros q x y Hq [Hql|Hql] Hr; [|now apply O1].
        assert (q = p) as -> by (apply (nodup_map_inj g_pos (concat ranks)); auto).
        rewrite O2; [now apply Ho1|]. intros q Hq2 Hql2 Hr2.
        assert (q = p) as -> by (eapply Huniq; eauto). tauto.
      * intros x y Hn. rewrite O2.
        -- apply Ho2. apply Hn; auto. now left.
        -- intros q Hq Hql. apply Hn; auto. now right.
    + rewrite step3_none.
      2:{ intros p Hp He. pose proof (find_none _ _ EF p Hp) as Hf. cbn in Hf.
          rewrite (proj2 (pos3_eqb_eq _ _) He) in Hf. exact Hf. }
      destruct (IH out0) as (out & E & O1 & O2). exists out. split; auto. split.
      * intros q x y Hq [Hql|Hql] Hr; [|now apply O1]. exfalso.
        pose proof (find_none _ _ EF q Hq) as Hf. cbn in Hf.
        rewrite (proj2 (pos3_eqb_eq _ _) (eq_sym Hql)) in Hf. destruct Hr as [_ Hr]. cbn in Hf. congruence.
      * intros x y Hn. apply O2. intros q Hq Hql. apply Hn; auto. now right.
Qed.

Lemma contains_layer (p : gp) : contains nzp z2 p = true -> snd (g_pos p) = iz_global z2 / nzp.
Proof.
  unfold contains, iz_global. intro H. cbv zeta in H.
  assert (H1 : 2 * (snd (g_pos p) * nzp + g_lo p) <= z2) by lia.
  assert (H2 : z2 <= 2 * (snd (g_pos p) * nzp + nzp - 1 - g_hi p)) by lia.
  assert (H3 : snd (g_pos p) * nzp <= (z2 + 1) / 2 < snd (g_pos p) * nzp + nzp) by lia.
  revert H3. generalize ((z2 + 1) / 2) as w. intros w H3.
  apply (Nat.div_unique w nzp _ (w - snd (g_pos p) * nzp)); lia.
Qed.

Lemma grid3_in i j k : In (i, j, k) (grid3 npx npy npz) <-> i < npx /\ j < npy /\ k < npz.
Proof.
  unfold grid3. rewrite in_flat_map. split.
  - intros (a & Ha & H). apply in_flat_map in H. destruct H as (b & Hb & H). apply in_map_iff in H.
    destruct H as (c & [= -> -> ->] & Hc). apply in_seq in Ha. apply in_seq in Hb. apply in_seq in Hc. lia.
  - intros (H1 & H2 & H3). exists i. split; [apply in_seq; lia|]. apply in_flat_map. exists j.
    split; [apply in_seq; lia|]. apply in_map_iff. exists k. split; auto. apply in_seq; lia.
Qed.

Lemma nodup_flat_map {A B} (f : A -> list B) l : NoDup l -> (forall a, In a l -> NoDup (f a)) ->
     (forall a a' b, In a l -> In a' l -> In b (f a) -> In b (f a') -> a = a') -> NoDup (flat_map f l).
Proof.
  induction l as [|a l IH]; intros Hl Hf Hd; [constructor|].
  inversion Hl as [|? ? Hni Hl']; subst. cbn [flat_map].
  assert (X : NoDup (flat_map f l)).
  { apply IH; auto. - intros; apply Hf; now right. - intros x y b Hx Hy. apply Hd; now right. }
  assert (Y : forall b, In b (f a) -> ~ In b (flat_map f l)).
  { intros b Hb Hin. apply in_flat_map in Hin. destruct Hin as (a' & Ha' & Hb').
    assert (a = a') by (apply (Hd a a' b); auto; [now left|now right]). subst. auto. }
  revert X Y. generalize (flat_map f l) as m. intros m X Y.
  assert (F : NoDup (f a)) by (apply Hf; now left). revert F Y. generalize (f a) as k.
  induction k as [|b k IHk]; intros F Y; cbn; auto. inversion F; subst. constructor.
  - intro Hin. apply in_app_or in Hin. destruct Hin; [auto|]. apply (Y b); auto. now left.
  - apply IHk; auto. intros c Hc. apply Y. now right.
Qed.

Lemma grid3_NoDup : NoDup (grid3 npx npy npz).
Proof.
  unfold grid3. apply nodup_flat_map.
  - apply seq_NoDup.
  - intros i _. apply nodup_flat_map.
    + apply seq_NoDup.
    + intros j _. apply FinFun.Injective_map_NoDup; [intros x y [=]; auto|apply seq_NoDup].
    + intros j j' b _ _ Hb Hb'. apply in_map_iff in Hb. apply in_map_iff in Hb'.
      destruct Hb as (s & <- & _). destruct Hb' as (s' & [=] & _). auto.
  - intros r r' b _ _ Hb Hb'. apply in_flat_map in Hb. apply in_flat_map in Hb'.
    destruct Hb as (i & _ & Hb). destruct Hb' as (i' & _ & Hb').
    apply in_map_iff in Hb. apply in_map_iff in Hb'.
    destruct Hb as (s & <- & _). destruct Hb' as (s' & [=] & _). auto.
Qed.

(** exact characterisation of the 3D helper *)
Lemma get_fields_3d_char :
  (forall p, In p (concat ranks) -> fst (fst (g_pos p)) < npx /\ snd (fst (g_pos p)) < npy /\ snd (g_pos p) < npz) ->
  exists out, get_fields_3d zero nxp nyp nzp npx npy npz ng z2 ranks = Done out /\
  (forall p x y, In p (concat ranks) -> reaches p x y -> out x y = g_data p (x mod nxp) (y mod nyp) (plane_of p)) /\
  (forall x y, (forall p, In p (concat ranks) -> ~ reaches p x y) -> out x y = zero).
Proof.
  intro Hin. unfold get_fields_3d.
  destruct (gather3_fold (grid3 npx npy npz) grid3_NoDup) with (out0 := fun _ _ : nat => zero) as (out & E & O1 & O2).
  { intros p q _ _ Hp Hq. apply contains_layer in Hp. apply contains_layer in Hq. congruence. }
  exists out. split; auto. split; auto. intros p x y Hp Hr. apply O1; auto.
  destruct (g_pos p) as [[a b] c] eqn:E0. apply grid3_in. specialize (Hin p Hp). rewrite E0 in Hin. exact Hin.
Qed.

Lemma plane_local p : In p (hd [] ranks) -> contains nzp z2 p = true ->
  plane_of p = iz_global z2 - snd (g_pos p) * nzp.
Proof.
  intros Hp Hc. unfold plane_of.
  assert (X : existsb (fun q => g_index q =? g_index p) (hd [] ranks) = true).
  { apply existsb_exists. exists p. split; auto. apply Nat.eqb_refl. }
  rewrite X. now rewrite (contains_layer p Hc).
Qed.
End G3.

Lemma gather_3d_partial :
  forall V (zero : V) nxp nyp nzp npx npy npz ng z2 (ranks : list (list (gpatch V))),
  0 < nxp -> 0 < nyp -> 0 < nzp ->
  NoDup (map g_pos (concat ranks)) -> NoDup (map g_index (concat ranks)) -> ranks <> [] ->
  (forall p, In p (concat ranks) -> fst (fst (g_pos p)) < npx /\ snd (fst (g_pos p)) < npy /\ snd (g_pos p) < npz) ->
  exists out, get_fields_3d zero nxp nyp nzp npx npy npz ng z2 ranks = Done out /\
  forall p x y, In p (hd [] ranks) -> fst (g_pos p) = (x / nxp, y / nyp) ->
    2 * (snd (g_pos p) * nzp + g_lo p) <= z2 <= 2 * (snd (g_pos p) * nzp + nzp - 1 - g_hi p) ->
    out x y = g_data p (x mod nxp) (y mod nyp) ((z2 + 1) / 2 - snd (g_pos p) * nzp).
Proof.
  intros V zero nxp nyp nzp npx npy npz ng z2 ranks H1 H2 H3 H4 H5 H6 H7.
  destruct (get_fields_3d_char zero nxp nyp nzp npx npy npz ng z2 ranks H1 H2 H3 H4 H5 H6 H7) as (out & E & O & _).
  exists out. split; auto. intros p x y Hp Hq Hz.
  assert (Hc : contains nzp z2 p = true).
  { unfold contains. apply andb_true_intro. split; apply Nat.leb_le; lia. }
  assert (Hin : In p (concat ranks)).
  { destruct ranks as [|r0 rs]; [contradiction|]. cbn in *. apply in_or_app. now left. }
  rewrite (O p x y Hin (conj Hq Hc)). f_equal.
  now apply plane_local with (nxp := nxp) (nyp := nyp).
Qed.

Lemma gather_3d_rank_witness :
  exists (p q : gpatch nat) o1 o2,
    get_fields_3d 0 1 1 4 2 1 1 1 0 [[p; q]] = Done o1 /\
    get_fields_3d 0 1 1 4 2 1 1 1 0 [[p]; [q]] = Done o2 /\ o1 1 0 = 0 /\ o2 1 0 = 10.
Proof.
  exists (mkGP 0 (0, 0, 0) 0 0 (fun _ _ z => 10 * z)), (mkGP 1 (1, 0, 0) 0 0 (fun _ _ z => 10 * z)).
  do 2 eexists. split; [reflexivity|]. split; [reflexivity|]. vm_compute. split; reflexivity.
Qed.

Lemma gather_3d_gap_witness :
  exists (ps : list (gpatch nat)) o,
    (forall x y z p, In p ps -> g_data p x y z <> 0) /\
    (forall k, k < 2 -> In (0, 0, k) (map g_pos ps)) /\
    get_fields_3d 0 1 1 4 1 1 2 1 7 [ps] = Done o /\ o 0 0 = 0.
Proof.
  exists [mkGP 0 (0, 0, 0) 0 0 (fun _ _ _ => 5); mkGP 1 (0, 0, 1) 0 0 (fun _ _ _ => 5)].
  eexists. split; [|split; [|split; [reflexivity|reflexivity]]].
  - intros x y z p [<-|[<-|[]]]; cbn; lia.
  - intros k Hk. cbn. destruct k as [|[|k]]; [auto|auto|lia].
Qed.
