(** Proofs about species naming. *)
From Verif Require Import Base M_Checkpoint P_Checkpoint M_Names S_Names.
Open Scope Z_scope.

Lemma after_app base r : after base (base ++ r) = Some r.
Proof. induction base as [|b base IH]; cbn [after app]; [reflexivity|]. now rewrite Z.eqb_refl. Qed.
Lemma after_some base n r : after base n = Some r -> n = base ++ r.
Proof.
  revert n. induction base as [|b base IH]; intros n H; cbn [after app] in *; [congruence|].
  destruct n as [|c n]; [discriminate|]. destruct (Z.eqb_spec b c) as [->|]; [|discriminate]. f_equal. auto.
Qed.
Lemma is_digit_iff c : is_digit c = true <-> digit_char c.
Proof. unfold is_digit, digit_char. lia. Qed.
Lemma digits_app d e : Forall digit_char d -> (forall c r, e = c :: r -> is_digit c = false) -> digits (d ++ e) = (d, e).
Proof.
  intros Hd He. induction Hd as [|c d Hc Hd IH]; cbn [app digits].
  - destruct e as [|c r]; [reflexivity|]. cbn [digits]. now rewrite (He c r eq_refl).
  - apply is_digit_iff in Hc. now rewrite Hc, IH.
Qed.
Lemma digits_spec l d e : digits l = (d, e) -> l = d ++ e /\ Forall digit_char d.
Proof.
  revert d e. induction l as [|c l IH]; intros d e H; cbn [digits] in H; [inversion H; auto|].
  destruct (is_digit c) eqn:E.
  - destruct (digits l) as [d' r] eqn:E'. inversion H; subst. destruct (IH d' e eq_refl) as [-> Hd].
    split; auto. constructor; auto. now apply is_digit_iff.
  - inversion H; subst. auto.
Qed.
Lemma at_end_iff l : at_end l = true <-> l = [] \/ l = [10].
Proof.
  split; [|intros [->| ->]; reflexivity]. destruct l as [|c [|x l]]; cbn [at_end]; auto.
  - intro H. right. destruct c as [|p|p]; try discriminate. now do 4 (destruct p; try discriminate).
  - intro H. exfalso. destruct c as [|p|p]; try discriminate. now do 4 (destruct p; try discriminate).
Qed.
Lemma suffix_plain base : suffix base base = Some 0.
Proof. unfold suffix. rewrite <- (app_nil_r base) at 2. now rewrite after_app. Qed.
Lemma suffix_gen base k : 0 <= k -> suffix base (base ++ 46 :: dec k) = Some k.
Proof.
  intro H. destruct (dec_ok k H) as [D [V _]]. unfold suffix. rewrite after_app. cbn [at_end].
  rewrite <- (app_nil_r (dec k)). rewrite digits_app; [|exact D|discriminate]. cbn [at_end]. rewrite andb_true_r.
  destruct (dec k) eqn:E; [|cbn; now rewrite <- V].
  exfalso. unfold dec in E. cbn [decf] in E. destruct (k <? 10); [discriminate|]. now apply app_eq_nil in E as [_ E].
Qed.
Lemma max_suffix_acc base taken m :
  fold_left (fun m n => match suffix base n with Some k => Z.max m k | None => m end) taken m = Z.max m (max_suffix base taken) \/
  m < -1.
Proof.
  unfold max_suffix. destruct (Z_lt_dec m (-1)); auto. left. assert (Hm : -1 <= m) by lia. clear n.
  enough (G : forall a, fold_left (fun m n => match suffix base n with Some k => Z.max m k | None => m end) taken (Z.max m a)
     = Z.max m (fold_left (fun m n => match suffix base n with Some k => Z.max m k | None => m end) taken a)).
  { rewrite <- G. f_equal. lia. }
  induction taken as [|n taken IH]; intro a; cbn [fold_left]; [reflexivity|].
  destruct (suffix base n); [|apply IH]. rewrite <- IH. f_equal. lia.
Qed.
Lemma max_suffix_cons base n taken : max_suffix base (n :: taken) = match suffix base n with Some k => Z.max k (max_suffix base taken) | None => max_suffix base taken end.
Proof.
  unfold max_suffix at 1. cbn [fold_left]. destruct (suffix base n) as [k|]; [|reflexivity].
  destruct (max_suffix_acc base taken (Z.max (-1) k)) as [->|]; [|lia].
  assert (-1 <= max_suffix base taken); [|lia].
  destruct (max_suffix_acc base taken (-1)) as [E|]; [|lia]. unfold max_suffix in *. lia.
Qed.
Lemma max_suffix_ge base taken n k : In n taken -> suffix base n = Some k -> k <= max_suffix base taken.
Proof.
  intros Hi Hs. induction taken as [|x taken IH]; [destruct Hi|]. rewrite max_suffix_cons. destruct Hi as [->|Hi].
  - rewrite Hs. lia.
  - specialize (IH Hi). destruct (suffix base x); lia.
Qed.
Lemma suffix_nonneg base n k : suffix base n = Some k -> 0 <= k.
Proof.
  unfold suffix. destruct (after base n) as [r|]; [|discriminate]. destruct (at_end r); [intro H; inversion H; lia|].
  destruct r as [|c t]; [discriminate|]. destruct (Z.eq_dec c 46) as [->|Hc].
  - destruct (digits t) as [d e] eqn:E. destruct (negb _ && _); [|discriminate]. intro H; inversion H; subst. apply digits_spec in E as [_ Hd].
    exact (proj1 (val_bound d Hd)).
  - intro H. exfalso. destruct c as [|p|p]; try discriminate. do 6 (destruct p; try discriminate). now apply Hc.
Qed.
Lemma suffix_clashes base n : (exists k, suffix base n = Some k) <-> clashes base n.
Proof.
  split.
  - intros [k H]. unfold suffix in H. destruct (after base n) as [r|] eqn:Ea; [|discriminate]. apply after_some in Ea. subst n.
    destruct (at_end r) eqn:Ee; [apply at_end_iff in Ee; exists r; auto|].
    destruct r as [|c t]; [discriminate|]. destruct (Z.eq_dec c 46) as [->|Hc].
    + destruct (digits t) as [d e] eqn:E. destruct (negb _ && _) eqn:Eb; [|discriminate]. apply andb_prop in Eb as [Eb1 Eb2].
      apply at_end_iff in Eb2. apply digits_spec in E as [-> Hd]. exists e. split; auto. right. exists d. repeat split; auto. intros ->. discriminate.
    + exfalso. destruct c as [|p|p]; try discriminate. do 6 (destruct p; try discriminate). now apply Hc.
  - intros [tail [Ht [->|[ds [Hne [Hd ->]]]]]]; unfold suffix; rewrite after_app.
    + rewrite (proj2 (at_end_iff tail) Ht). eauto.
    + destruct (at_end (46 :: ds ++ tail)); eauto. rewrite digits_app; auto.
      * destruct ds as [|x ds]; [congruence|]. cbn [length Nat.eqb negb andb]. rewrite (proj2 (at_end_iff tail) Ht). eauto.
      * intros c r ->. destruct Ht as [|Ht]; [discriminate|]. inversion Ht. reflexivity.
Qed.
Lemma max_suffix_found base taken : 0 <= max_suffix base taken <-> exists n, In n taken /\ clashes base n.
Proof.
  split.
  - induction taken as [|x taken IH]; [unfold max_suffix; cbn; lia|]. rewrite max_suffix_cons. destruct (suffix base x) as [k|] eqn:E.
    + intros _. exists x. split; [now left|]. apply suffix_clashes. eauto.
    + intro H. destruct (IH H) as [n [Hi Hc]]. exists n. split; auto. now right.
  - intros [n [Hi Hc]]. apply suffix_clashes in Hc as [k Hk]. pose proof (max_suffix_ge base taken n k Hi Hk).
    pose proof (suffix_nonneg _ _ _ Hk). lia.
Qed.
Lemma pick_fresh base taken : ~ In (pick base taken) taken.
Proof.
  unfold pick. cbv zeta. destruct (Z.leb_spec 0 (max_suffix base taken)); intro Hi.
  - pose proof (max_suffix_ge base taken _ _ Hi (suffix_gen base (max_suffix base taken + 1) ltac:(lia))). lia.
  - pose proof (max_suffix_ge base taken _ _ Hi (suffix_plain base)). lia.
Qed.
Lemma pick_keeps base taken : pick base taken = base <-> ~ exists n, In n taken /\ clashes base n.
Proof.
  rewrite <- max_suffix_found. unfold pick. cbv zeta. destruct (Z.leb_spec 0 (max_suffix base taken)); split; intro E; try lia; auto.
  exfalso. apply (f_equal (@length Z)) in E. rewrite app_length in E. cbn [length] in E. lia.
Qed.
Lemma pick_shape base taken : pick base taken = base \/ exists k, 1 <= k /\ pick base taken = base ++ 46 :: dec k.
Proof.
  unfold pick. cbv zeta. destruct (Z.leb_spec 0 (max_suffix base taken)); auto. right. exists (max_suffix base taken + 1). split; [lia|reflexivity].
Qed.

Lemma NoDup_app_remove_l {A} (l l' : list A) : NoDup (l ++ l') -> NoDup l'.
Proof. induction l as [|x l IH]; cbn [app]; auto. intro H. apply NoDup_cons_iff in H as [_ H]. auto. Qed.
Lemma NoDup_app_remove_r {A} (l l' : list A) : NoDup (l ++ l') -> NoDup l.
Proof.
  induction l as [|x l IH]; cbn [app]; [constructor|]. intro H. apply NoDup_cons_iff in H as [Hx H]. constructor; auto.
  intro Hi. apply Hx. apply in_or_app. now left.
Qed.

(** ** the loop over new objects *)
Lemma uniquify_other news : forall taken h o, ~ In o news -> uniquify taken news h o = h o.
Proof.
  induction news as [|x news IH]; intros taken h o Ho; cbn [uniquify]; [reflexivity|].
  rewrite IH by (intro; apply Ho; now right). unfold set_name. destruct (Nat.eqb_spec x o) as [->|]; auto. exfalso. apply Ho. now left.
Qed.
Lemma uniquify_app a : forall taken b h,
  NoDup a ->
  uniquify taken (a ++ b) h = uniquify (taken ++ map (uniquify taken a h) a) b (uniquify taken a h).
Proof.
  induction a as [|x a IH]; intros taken b h Hn; cbn [app uniquify map]; [now rewrite app_nil_r|].
  apply NoDup_cons_iff in Hn as [Hx Hn]. rewrite (IH _ b _ Hn). rewrite <- app_assoc. cbn [app].
  replace (uniquify (taken ++ [pick (h x) taken]) a (set_name h x (pick (h x) taken)) x) with (pick (h x) taken); [reflexivity|].
  rewrite uniquify_other by auto. unfold set_name. now rewrite Nat.eqb_refl.
Qed.
(** the name of each new object is picked against everything named before it *)
Lemma uniquify_at taken a o b h : NoDup (a ++ o :: b) ->
  uniquify taken (a ++ o :: b) h o = pick (h o) (taken ++ map (uniquify taken (a ++ o :: b) h) a).
Proof.
  intro Hn. assert (Ha : NoDup a) by (apply NoDup_remove_1 in Hn; now apply NoDup_app_remove_r in Hn).
  pose proof (NoDup_remove_2 _ _ _ Hn) as Ho.
  assert (E : map (uniquify taken (a ++ o :: b) h) a = map (uniquify taken a h) a).
  { apply map_ext_in. intros x Hx. rewrite uniquify_app by auto. apply uniquify_other. intro Hi.
    apply in_split in Hx as [u [v ->]]. rewrite <- app_assoc in Hn. cbn [app] in Hn. apply NoDup_remove_2 in Hn. apply Hn.
    apply in_or_app. right. apply in_or_app. right. exact Hi. }
  rewrite E, uniquify_app by auto. cbn [uniquify]. rewrite uniquify_other by (intro Hb; apply Ho; apply in_or_app; now right).
  unfold set_name. rewrite Nat.eqb_refl. f_equal. apply uniquify_other. intro; apply Ho; apply in_or_app; now left.
Qed.
Lemma uniquify_distinct news : forall taken h, NoDup news -> NoDup taken -> NoDup (taken ++ map (uniquify taken news h) news).
Proof.
  induction news as [|x news IH]; intros taken h Hn Ht; cbn [uniquify map]; [now rewrite app_nil_r|].
  apply NoDup_cons_iff in Hn as [Hx Hn].
  assert (Ht' : NoDup (taken ++ [pick (h x) taken])).
  { apply (Permutation_NoDup (Permutation_cons_append taken _)). constructor; auto. apply pick_fresh. }
  specialize (IH _ (set_name h x (pick (h x) taken)) Hn Ht'). rewrite <- app_assoc in IH. cbn [app] in IH.
  rewrite uniquify_other by auto. unfold set_name at 1. now rewrite Nat.eqb_refl.
Qed.

(** ** the registry *)
Lemma number_other l : forall k ix o, ~ In o l -> number_from k l ix o = ix o.
Proof.
  induction l as [|x l IH]; intros k ix o Ho; cbn [number_from]; [reflexivity|]. rewrite IH by (intro; apply Ho; now right).
  destruct (Nat.eqb_spec x o) as [->|]; auto. exfalso; apply Ho; now left.
Qed.
Lemma number_at l : forall k ix i o, NoDup l -> nth_error l i = Some o -> number_from k l ix o = Some (k + i)%nat.
Proof.
  induction l as [|x l IH]; intros k ix i o Hn He; [now destruct i|]. apply NoDup_cons_iff in Hn as [Hx Hn]. cbn [number_from].
  destruct i as [|i]; cbn [nth_error] in He.
  - inversion He; subst. rewrite number_other by auto. rewrite Nat.eqb_refl. f_equal. lia.
  - rewrite (IH _ _ i) by auto. f_equal. lia.
Qed.

(** distinct names and positions, as an invariant of repeated calls *)
Lemma add_species_names r news : NoDup (species r ++ news) -> NoDup (map (names r) (species r)) ->
  NoDup (map (names (add_species r news)) (species (add_species r news))).
Proof.
  intros Hn Ho. cbn [names species add_species]. rewrite map_app.
  replace (map (uniquify (map (names r) (species r)) news (names r)) (species r)) with (map (names r) (species r)).
  - apply uniquify_distinct; auto. now apply NoDup_app_remove_l in Hn.
  - apply map_ext_in. intros x Hx. symmetry. apply uniquify_other. intro Hi. apply in_split in Hx as [u [v E]]. rewrite E, <- app_assoc in Hn.
    cbn [app] in Hn. apply NoDup_remove_2 in Hn. apply Hn. apply in_or_app. right. apply in_or_app. now right.
Qed.
Definition add_all (r : registry) (calls : list (list nat)) : registry := fold_left add_species calls r.
Lemma add_all_species calls : forall r, species (add_all r calls) = species r ++ concat calls.
Proof.
  unfold add_all. induction calls as [|c calls IH]; intro r; cbn [fold_left concat]; [now rewrite app_nil_r|]. rewrite IH. cbn [species add_species].
  now rewrite app_assoc.
Qed.
Lemma add_all_names calls : forall r, NoDup (species r ++ concat calls) -> NoDup (map (names r) (species r)) ->
  NoDup (map (names (add_all r calls)) (species r ++ concat calls)).
Proof.
  induction calls as [|c calls IH]; intros r Hn Ho; cbn [concat]; unfold add_all; cbn [fold_left]; [now rewrite app_nil_r|].
  cbn [concat] in Hn. rewrite app_assoc in *. apply (IH (add_species r c)); auto. apply add_species_names; auto. now apply NoDup_app_remove_r in Hn.
Qed.
Lemma add_all_ispec calls r i o : calls <> [] -> NoDup (species r ++ concat calls) -> nth_error (species r ++ concat calls) i = Some o ->
  ispec (add_all r calls) o = Some i.
Proof.
  intros Hc Hn He. destruct (@exists_last _ calls Hc) as [l [c ->]]. unfold add_all. rewrite fold_left_app. cbn [fold_left ispec add_species].
  change (fold_left add_species l r) with (add_all r l). rewrite add_all_species. rewrite concat_app in *. cbn [concat] in *. rewrite app_nil_r in *.
  rewrite <- app_assoc. now rewrite (number_at _ _ _ i o Hn He).
Qed.
