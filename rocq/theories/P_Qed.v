(** Proofs for C37. *)
From Verif Require Import Base M_Qed S_Qed.
From Coq Require Import QArith Qcanon Permutation.
Local Open Scope nat_scope.
Local Open Scope list_scope.

(** ** filling the dead slots in order *)
Fixpoint fill (vs : list (slot -> slot)) (l : list slot) : option (list slot) :=
  match l with
  | [] => match vs with [] => Some [] | _ => None end
  | s :: l' =>
      if dead s then match vs with [] => Some l | v :: vs' => option_map (cons (v s)) (fill vs' l') end
      else option_map (cons s) (fill vs l')
  end.
Definition lives (v : slot -> slot) : Prop := forall s, dead (v s) = false.
Lemma fill_nil l : fill [] l = Some l.
Proof. induction l as [|s l IH]; cbn [fill]; [reflexivity|]. destruct (dead s); [reflexivity|]. rewrite IH. reflexivity. Qed.
Lemma fill_first v vs l : lives v ->
  fill (v :: vs) l = match first_dead l with Some j => fill vs (upd j (v (nth j l blank)) l) | None => None end.
Proof.
  intro Hv. induction l as [|s l IH]; cbn [fill first_dead]; [reflexivity|].
  destruct (dead s) eqn:E.
  - cbn [nth upd fill]. rewrite Hv. reflexivity.
  - rewrite IH. destruct (first_dead l) as [j|]; cbn [option_map]; [|reflexivity].
    cbn [nth upd fill]. rewrite E. reflexivity.
Qed.
Definition settled (k : nat) (l : list slot) : Prop := Forall (fun s => dead s = false) (firstn k l).
Lemma seek_first k l : settled k l -> seek l k = first_dead l.
Proof.
  unfold seek, settled. revert l; induction k as [|k IH]; intros l H.
  - cbn [skipn]. destruct (first_dead l); reflexivity.
  - destruct l as [|s l]; cbn [skipn firstn first_dead] in *; [reflexivity|].
    inversion H as [|? ? H1 H2]; subst. rewrite H1. rewrite <- (IH l H2). destruct (first_dead (skipn k l)); reflexivity.
Qed.
Lemma first_dead_settled l j v : first_dead l = Some j -> settled j (upd j v l).
Proof.
  unfold settled. revert j; induction l as [|s l IH]; intros j H; cbn [first_dead] in H; [discriminate|].
  destruct (dead s) eqn:E.
  - assert (j = 0) by congruence. subst j. constructor.
  - destruct (first_dead l) as [j'|]; cbn [option_map] in H; [|discriminate]. assert (j = S j') by congruence. subst j.
    cbn [upd firstn]. constructor; [exact E|]. apply IH. reflexivity.
Qed.
Lemma settled_0 l : settled 0 l.
Proof. constructor. Qed.

Section Qed.
Variables igl igm : Qc -> Qc -> Qc -> Qc.
Notation born := (born igl igm).
Lemma born_lives m f e : lives (born m f e).
Proof. intro s. reflexivity. Qed.
Lemma set_same t l w : set_arrays t l w t = l.
Proof. unfold set_arrays. rewrite Nat.eqb_refl. reflexivity. Qed.
Lemma set_other t l w j : j <> t -> set_arrays t l w j = w j.
Proof. intro H. unfold set_arrays. destruct (Nat.eqb_spec j t); [contradiction|reflexivity]. Qed.

Definition photons_of (l : list slot) (idx : list nat) : list (slot -> slot) :=
  map (fun a => born false (delta (nth a l blank)) (nth a l blank)) idx.
Definition electrons_of (l : list slot) (idx : list nat) : list (slot -> slot) :=
  map (fun a => born true (delta (nth a l blank)) (nth a l blank)) idx.
Definition positrons_of (l : list slot) (idx : list nat) : list (slot -> slot) :=
  map (fun a => born true (1 - delta (nth a l blank))%Qc (nth a l blank)) idx.
Lemma create_photons_fill i ph idx : i <> ph -> forall k w l, settled k (w ph) ->
  fill (photons_of (w i) idx) (w ph) = Some l ->
  exists w', create_photons igl igm i ph k idx w = Some w' /\ w' ph = l /\ forall j, j <> ph -> w' j = w j.
Proof.
  intro Hi. induction idx as [|a idx IH]; intros k w l Hk F.
  - cbn [photons_of map] in F. rewrite fill_nil in F. exists w. split; [reflexivity|]. split; [congruence|reflexivity].
  - cbn [photons_of map] in F. rewrite fill_first in F by apply born_lives. cbn [create_photons].
    unfold put. rewrite seek_first by exact Hk. destruct (first_dead (w ph)) as [j|] eqn:E; [|discriminate].
    set (w1 := set_arrays ph _ w) in *.
    destruct (IH j w1 l) as [w' [A [B C]]].
    + unfold w1. rewrite set_same. apply first_dead_settled. exact E.
    + unfold w1. rewrite set_same, set_other by exact Hi. exact F.
    + exists w'. split; [exact A|]. split; [exact B|]. intros j' Hj. rewrite C by exact Hj. unfold w1. apply set_other. exact Hj.
Qed.
Lemma create_pairs_fill i e q idx : i <> e -> i <> q -> e <> q -> forall ke kq w le lq,
  settled ke (w e) -> settled kq (w q) ->
  fill (electrons_of (w i) idx) (w e) = Some le -> fill (positrons_of (w i) idx) (w q) = Some lq ->
  exists w', create_pairs igl igm i e q ke kq idx w = Some w' /\ w' e = le /\ w' q = lq
             /\ forall j, j <> e -> j <> q -> w' j = w j.
Proof.
  intros Hie Hiq Heq. induction idx as [|a idx IH]; intros ke kq w le lq Hke Hkq Fe Fq.
  - cbn [electrons_of positrons_of map] in Fe, Fq. rewrite fill_nil in Fe, Fq. exists w.
    split; [reflexivity|]. split; [congruence|]. split; [congruence|reflexivity].
  - cbn [electrons_of positrons_of map] in Fe, Fq. rewrite fill_first in Fe, Fq by apply born_lives. cbn [create_pairs].
    unfold put. rewrite seek_first by exact Hke. destruct (first_dead (w e)) as [j|] eqn:E; [|discriminate].
    set (w1 := set_arrays e _ w) in *.
    assert (W1 : w1 i = w i) by (apply set_other; exact Hie).
    assert (W2 : w1 q = w q) by (apply set_other; congruence).
    rewrite W1, W2, seek_first by exact Hkq. destruct (first_dead (w q)) as [j2|] eqn:E2; [|discriminate].
    set (w2 := set_arrays q _ w1) in *.
    assert (W3 : w2 i = w i) by (unfold w2; rewrite set_other by exact Hiq; exact W1).
    assert (W4 : w2 e = w1 e) by (apply set_other; congruence).
    destruct (IH j j2 w2 le lq) as [w' [A [B [C D]]]].
    + rewrite W4. unfold w1. rewrite set_same. apply first_dead_settled. exact E.
    + unfold w2. rewrite set_same. apply first_dead_settled. exact E2.
    + rewrite W3, W4. unfold w1. rewrite set_same. exact Fe.
    + rewrite W3. unfold w2. rewrite set_same. exact Fq.
    + exists w'. split; [exact A|]. split; [exact B|]. split; [exact C|]. intros j' H1 H2. rewrite D by assumption.
      unfold w2. rewrite set_other by exact H2. unfold w1. apply set_other. exact H1.
Qed.

(** ** what filling does *)
Lemma fill_room vs : forall l, length vs <= countb dead l -> exists l', fill vs l = Some l'.
Proof.
  intro l; revert vs; induction l as [|s l IH]; intros vs H.
  - destruct vs as [|v vs]; [exists []; reflexivity|cbn in H; lia].
  - cbn [fill]. unfold countb in *. cbn [filter] in H. destruct (dead s).
    + destruct vs as [|v vs]; [eexists; reflexivity|]. cbn [length] in H.
      destruct (IH vs) as [l' ->]; [lia|]. eexists; reflexivity.
    + destruct (IH vs H) as [l' ->]. eexists; reflexivity.
Qed.
Lemma fill_keeps vs : forall l l', fill vs l = Some l' ->
  length l' = length l /\ forall k, dead (nth k l blank) = false -> nth k l' blank = nth k l blank.
Proof.
  intro l; revert vs; induction l as [|s l IH]; intros vs l' H; cbn [fill] in H.
  - destruct vs; [|discriminate]. assert (l' = []) by congruence. subst l'. split; [reflexivity|intros; reflexivity].
  - destruct (dead s) eqn:E.
    + destruct vs as [|v vs].
      * assert (l' = s :: l) by congruence. subst l'. split; [reflexivity|intros; reflexivity].
      * destruct (fill vs l) as [r|] eqn:F; [|discriminate]. cbn [option_map] in H. assert (l' = v s :: r) by congruence. subst l'.
        destruct (IH vs r F) as [A B]. split; [cbn [length]; congruence|]. intros [|k] Hk; cbn [nth] in *; [congruence|].
        apply B. exact Hk.
    + destruct (fill vs l) as [r|] eqn:F; [|discriminate]. cbn [option_map] in H. assert (l' = s :: r) by congruence. subst l'.
      destruct (IH vs r F) as [A B]. split; [cbn [length]; congruence|]. intros [|k] Hk; cbn [nth] in *; [reflexivity|].
      apply B. exact Hk.
Qed.
(** each new particle appears once, nothing else changes *)
Definition brings (v : slot -> slot) (p : particle) : Prop := forall s, dead (v s) = false /\ view (v s) = p.
Lemma alive_cons s l : alive (s :: l) = if dead s then alive l else view s :: alive l.
Proof. unfold alive. cbn [filter]. destruct (dead s); reflexivity. Qed.
Lemma fill_alive vs ps : Forall2 brings vs ps -> forall l l', fill vs l = Some l' -> Permutation (alive l') (alive l ++ ps).
Proof.
  intros H l; revert vs ps H; induction l as [|s l IH]; intros vs ps H l' F; cbn [fill] in F.
  - destruct H as [|v p vs ps H1 H2]; [|discriminate]. assert (l' = []) by congruence. subst l'. apply Permutation_refl.
  - destruct (dead s) eqn:E.
    + destruct H as [|v p vs ps H1 H2].
      * assert (l' = s :: l) by congruence. subst l'. rewrite app_nil_r. apply Permutation_refl.
      * destruct (fill vs l) as [r|] eqn:F'; [|discriminate]. cbn [option_map] in F. assert (l' = v s :: r) by congruence. subst l'.
        rewrite !alive_cons, E. destruct (H1 s) as [-> ->]. apply Permutation_cons_app. apply (IH vs ps H2 r F').
    + destruct (fill vs l) as [r|] eqn:F'; [|discriminate]. cbn [option_map] in F. assert (l' = s :: r) by congruence. subst l'.
      rewrite !alive_cons, E. cbn [app]. apply perm_skip. apply (IH vs ps H r F').
Qed.
Lemma brings_list m (f : slot -> Qc) es :
  Forall2 brings (map (fun e => born m (f e) e) es)
                 (map (fun e => part_of (if m then igm else igl) (f e) e) es).
Proof.
  induction es as [|e es IH]; cbn [map]; constructor; [|exact IH]. intro s. split; [reflexivity|]. destruct m; reflexivity.
Qed.

(** ** events *)
Definition calm (l : list slot) : Prop := forall s, In s l -> dead s = true -> event s = false.
Definition keeps_event (v : slot -> slot) : Prop := forall s, event (v s) = event s.
Lemma fill_calm vs : Forall keeps_event vs -> forall l l', calm l -> fill vs l = Some l' ->
  calm l' /\ forall k, event_index_from k l' = event_index_from k l.
Proof.
  intros H l; revert vs H; induction l as [|s l IH]; intros vs H l' Hc F; cbn [fill] in F.
  - destruct vs; [|discriminate]. assert (l' = []) by congruence. subst l'. split; [exact Hc|reflexivity].
  - assert (Hc' : calm l) by (intros x Hx; apply Hc; right; exact Hx).
    destruct (dead s) eqn:E.
    + destruct vs as [|v vs].
      * assert (l' = s :: l) by congruence. subst l'. split; [exact Hc|reflexivity].
      * destruct (fill vs l) as [r|] eqn:F'; [|discriminate]. cbn [option_map] in F. assert (l' = v s :: r) by congruence. subst l'.
        inversion H as [|? ? H1 H2]; subst. destruct (IH vs H2 r Hc' F') as [A B].
        assert (Ev : event (v s) = false) by (rewrite H1; apply Hc; [left; reflexivity|exact E]).
        split.
        -- intros x [<-|Hx] Hd; [exact Ev|]. apply A; assumption.
        -- intro k. cbn [event_index_from]. rewrite Ev, E, B, andb_false_r. reflexivity.
    + destruct (fill vs l) as [r|] eqn:F'; [|discriminate]. cbn [option_map] in F. assert (l' = s :: r) by congruence. subst l'.
      destruct (IH vs H r Hc' F') as [A B]. split.
      * intros x [<-|Hx] Hd; [congruence|]. apply A; assumption.
      * intro k. cbn [event_index_from]. rewrite B. reflexivity.
Qed.
Lemma index_emitters_from l : forall k base, (forall j, nth (k + j) base blank = nth j l blank) ->
  map (fun a => nth a base blank) (event_index_from k l) = emitters l.
Proof.
  induction l as [|s l IH]; intros k base Hb; cbn [event_index_from]; [reflexivity|].
  assert (Hn : forall j, nth (S k + j) base blank = nth j l blank).
  { intro j. replace (S k + j) with (k + S j) by lia. rewrite (Hb (S j)). reflexivity. }
  unfold emitters in *. cbn [filter]. unfold emits at 1. destruct (negb (dead s) && event s).
  - cbn [map]. f_equal; [|apply IH; exact Hn]. specialize (Hb 0). rewrite Nat.add_0_r in Hb. exact Hb.
  - apply IH. exact Hn.
Qed.
Lemma index_emitters l : map (fun a => nth a l blank) (event_index l) = emitters l.
Proof. apply index_emitters_from. reflexivity. Qed.
Lemma index_from_range l : forall k a, In a (event_index_from k l) -> k <= a /\ dead (nth (a - k) l blank) = false.
Proof.
  induction l as [|s l IH]; intros k a H; cbn [event_index_from] in H; [destruct H|].
  assert (T : In a (event_index_from (S k) l) -> k <= a /\ dead (nth (a - k) (s :: l) blank) = false).
  { intro H'. destruct (IH (S k) a H') as [A B]. split; [lia|]. replace (a - k) with (S (a - S k)) by lia. exact B. }
  destruct (negb (dead s) && event s) eqn:E; [|exact (T H)]. destruct H as [<-|H]; [|exact (T H)].
  split; [lia|]. rewrite Nat.sub_diag. cbn [nth]. destruct (dead s); [discriminate|reflexivity].
Qed.
Lemma index_length l : length (event_index l) <= countb event l.
Proof.
  unfold event_index. generalize 0 as k. induction l as [|s l IH]; intro k; cbn [event_index_from]; [cbn; lia|].
  unfold countb in *. cbn [filter]. specialize (IH (S k)). destruct (dead s); cbn [negb andb]; destruct (event s); cbn [length]; lia.
Qed.
Lemma room_dead n l : countb dead (make_room n l) = if 0 <? n then countb dead l + (n + length l / 4) else countb dead l.
Proof.
  unfold make_room. destruct (0 <? n); [|reflexivity]. unfold countb. rewrite filter_app, app_length. f_equal.
  generalize (n + length l / 4) as m. induction m as [|m IH]; [reflexivity|]. cbn [repeat filter dead blank length]. lia.
Qed.
Lemma enough src tgt : countb event src <= countb dead (make_room (num_to_extend src tgt) tgt).
Proof. rewrite room_dead. unfold num_to_extend. destruct (Nat.ltb_spec 0 (countb event src - countb dead tgt)); lia. Qed.
Lemma filter_blank (f : slot -> bool) m : f blank = false -> filter f (repeat blank m) = [].
Proof. intro H. induction m as [|m IH]; cbn [repeat filter]; [reflexivity|]. rewrite H. exact IH. Qed.
Lemma room_alive n l : alive (make_room n l) = alive l.
Proof.
  unfold make_room. destruct (0 <? n); [|reflexivity]. unfold alive. rewrite filter_app, filter_blank by reflexivity.
  rewrite app_nil_r. reflexivity.
Qed.
Lemma room_nth n l k : nth k (make_room n l) blank = nth k l blank.
Proof.
  unfold make_room. destruct (0 <? n); [|reflexivity]. destruct (Nat.lt_ge_cases k (length l)) as [H|H].
  - apply app_nth1. exact H.
  - rewrite app_nth2 by exact H. rewrite (nth_overflow l) by exact H.
    generalize (k - length l) as j, (n + length l / 4) as m. intros j m. revert j. induction m as [|m IH]; intros [|j]; cbn; auto.
Qed.
Lemma room_calm n l : calm l -> calm (make_room n l).
Proof.
  intro H. unfold make_room. destruct (0 <? n); [|exact H]. intros s Hs. apply in_app_iff in Hs. destruct Hs as [Hs|Hs]; [apply H, Hs|].
  apply repeat_spec in Hs. subst s. reflexivity.
Qed.
Lemma room_index n l : event_index (make_room n l) = event_index l.
Proof.
  unfold make_room. destruct (0 <? n); [|reflexivity]. unfold event_index. generalize 0 as k, (n + length l / 4) as m.
  induction l as [|s l IH]; intros k m; cbn [app event_index_from].
  - revert k. induction m as [|m IH]; intro k; cbn [repeat event_index_from dead blank negb andb]; [reflexivity|apply IH].
  - destruct (negb (dead s) && event s); rewrite IH; reflexivity.
Qed.

(** a species that only received particles: its own emissions are as before *)
Definition received (l l' : list slot) : Prop :=
  calm l -> calm l' /\ event_index l' = event_index l.
Definition untouched (l l' : list slot) : Prop :=
  forall k, dead (nth k l blank) = false -> nth k l' blank = nth k l blank.
Lemma born_keeps m (f : slot -> Qc) es : Forall keeps_event (map (fun e => born m (f e) e) es).
Proof. induction es as [|e es IH]; cbn [map]; constructor; [|exact IH]. intro s. reflexivity. Qed.
Lemma target_filled m (f : slot -> Qc) src tgt :
  exists l', fill (map (fun a => born m (f (nth a src blank)) (nth a src blank)) (event_index src))
                  (make_room (num_to_extend src tgt) tgt) = Some l'
  /\ Permutation (alive l') (alive tgt ++ map (fun e => part_of (if m then igm else igl) (f e) e) (emitters src))
  /\ untouched tgt l' /\ received tgt l'.
Proof.
  rewrite <- (map_map (fun a => nth a src blank) (fun e => born m (f e) e)), index_emitters.
  destruct (fill_room (map (fun e => born m (f e) e) (emitters src)) (make_room (num_to_extend src tgt) tgt)) as [l' F].
  { rewrite map_length, <- index_emitters, map_length. pose proof (index_length src). pose proof (enough src tgt). lia. }
  exists l'. split; [exact F|]. split; [|split].
  - rewrite <- (room_alive (num_to_extend src tgt) tgt). apply (fill_alive _ _ (brings_list m f (emitters src)) _ _ F).
  - intros k Hk. destruct (fill_keeps _ _ _ F) as [_ K]. rewrite <- (room_nth (num_to_extend src tgt) tgt k) in Hk |- *. apply K. exact Hk.
  - intro Hc. destruct (fill_calm _ (born_keeps m f (emitters src)) _ _ (room_calm _ _ Hc) F) as [A B].
    split; [exact A|]. unfold event_index. rewrite B. apply room_index.
Qed.

Lemma radiate_spec i ph w : ph <> i ->
  exists w', radiate igl igm i ph w = Some w'
  /\ w' i = map (recoil igm) (w i)
  /\ Permutation (alive (w' ph)) (alive (w ph) ++ map (fun e => part_of igl (delta e) e) (emitters (w i)))
  /\ untouched (w ph) (w' ph) /\ received (w ph) (w' ph)
  /\ forall j, j <> i -> j <> ph -> w' j = w j.
Proof.
  intro Hp. unfold radiate. destruct (target_filled false delta (w i) (w ph)) as [l [F [A [B C]]]].
  set (w1 := set_arrays ph _ w). assert (W1 : w1 i = w i) by (apply set_other; congruence).
  assert (W2 : w1 ph = make_room (num_to_extend (w i) (w ph)) (w ph)) by apply set_same.
  destruct (create_photons_fill i ph (event_index (w1 i)) (not_eq_sym Hp) 0 w1 l (settled_0 _)) as [w' [D1 [D2 D3]]].
  { rewrite W1, W2. exact F. }
  rewrite D1. eexists. split; [reflexivity|]. rewrite set_same, (D3 i) by congruence. rewrite W1. split; [reflexivity|].
  rewrite set_other, D2 by congruence. split; [exact A|]. split; [exact B|]. split; [exact C|].
  intros j H1 H2. rewrite set_other by exact H1. rewrite D3 by exact H2. apply set_other. exact H2.
Qed.
Lemma make_pairs_spec i e q w : e <> i -> q <> i -> e <> q ->
  exists w', make_pairs igl igm i e q w = Some w'
  /\ w' i = map remove (w i)
  /\ Permutation (alive (w' e)) (alive (w e) ++ map (fun g => part_of igm (delta g) g) (emitters (w i)))
  /\ Permutation (alive (w' q)) (alive (w q) ++ map (fun g => part_of igm (1 - delta g)%Qc g) (emitters (w i)))
  /\ untouched (w e) (w' e) /\ untouched (w q) (w' q) /\ received (w e) (w' e) /\ received (w q) (w' q)
  /\ forall j, j <> i -> j <> e -> j <> q -> w' j = w j.
Proof.
  intros Hei Hqi Heq. unfold make_pairs.
  destruct (target_filled true delta (w i) (w e)) as [le [Fe [Ae [Be Ce]]]].
  destruct (target_filled true (fun g => 1 - delta g)%Qc (w i) (w q)) as [lq [Fq [Aq [Bq Cq]]]].
  set (w1 := set_arrays e _ w). assert (W1 : w1 q = w q) by (apply set_other; congruence).
  set (w2 := set_arrays q _ w1).
  assert (V1 : w2 i = w i) by (unfold w2; rewrite set_other by congruence; apply set_other; congruence).
  assert (V2 : w2 e = make_room (num_to_extend (w i) (w e)) (w e)).
  { unfold w2. rewrite set_other by congruence. apply set_same. }
  assert (V3 : w2 q = make_room (num_to_extend (w i) (w q)) (w q)).
  { unfold w2. rewrite set_same, W1. reflexivity. }
  destruct (create_pairs_fill i e q (event_index (w2 i)) (not_eq_sym Hei) (not_eq_sym Hqi) Heq 0 0 w2 le lq
              (settled_0 _) (settled_0 _)) as [w' [D1 [D2 [D3 D4]]]].
  { rewrite V1, V2. exact Fe. } { rewrite V1, V3. exact Fq. }
  rewrite D1. eexists. split; [reflexivity|]. rewrite set_same, (D4 i) by congruence. rewrite V1. split; [reflexivity|].
  rewrite !set_other, D2, D3 by congruence. split; [exact Ae|]. split; [exact Aq|]. split; [exact Be|]. split; [exact Bq|].
  split; [exact Ce|]. split; [exact Cq|].
  intros j H1 H2 H3. rewrite set_other by exact H1. rewrite D4 by assumption. unfold w2. rewrite set_other by exact H3.
  apply set_other. exact H2.
Qed.
End Qed.
