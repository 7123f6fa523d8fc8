(** Proofs for C117. *)
From Coq Require Import Permutation.
From Verif Require Import Base M_Qed S_Qed M_QedSetup S_QedSetup.
Local Open Scope list_scope.
Local Open Scope nat_scope.

Lemma get_upd_eq h a o : a < length h -> get (upd a o h) a = o.
Proof. intro H. apply nth_upd_eq. exact H. Qed.
Lemma get_upd_neq h a b o : a <> b -> get (upd a o h) b = get h b.
Proof. intro H. apply nth_upd_neq. exact H. Qed.
Lemma number_length : forall l k h, length (number_from k l h) = length h.
Proof. induction l as [|a l IH]; intros k h; [reflexivity|]. cbn [number_from]. rewrite IH. apply upd_length. Qed.
Lemma number_out : forall l k h a, ~ In a l -> get (number_from k l h) a = get h a.
Proof.
  induction l as [|b l IH]; intros k h a N; [reflexivity|]. cbn [number_from]. rewrite IH by (intro I; apply N; right; exact I).
  apply get_upd_neq. intro E. apply N. left. exact E.
Qed.
Lemma number_in : forall l k h j a, NoDup l -> (forall b, In b l -> b < length h) -> nth_error l j = Some a -> get (number_from k l h) a = with_ispec (k + j) (get h a).
Proof.
  induction l as [|b l IH]; intros k h j a ND K E; [destruct j; discriminate E|]. inversion ND as [|? ? N ND']. subst. cbn [number_from]. destruct j as [|j].
  - injection E as ->. rewrite number_out by exact N. rewrite get_upd_eq by (apply K; left; reflexivity). rewrite Nat.add_0_r. reflexivity.
  - cbn [nth_error] in E. rewrite (IH (S k) _ j a ND'); [|intros c I; rewrite upd_length; apply K; right; exact I|exact E].
    rewrite get_upd_neq by (intros ->; apply N; eapply nth_error_In; exact E). f_equal. lia.
Qed.
(** numbering changes the index only *)
Definition same_but_index (o o' : obj) : Prop := o_class o' = o_class o /\ o_charge o' = o_charge o.
Lemma number_same : forall l k h a, same_but_index (get h a) (get (number_from k l h) a).
Proof.
  induction l as [|b l IH]; intros k h a; [split; reflexivity|]. cbn [number_from]. destruct (IH (S k) (upd b (with_ispec k (get h b)) h) a) as (E1 & E2).
  assert (same_but_index (get h a) (get (upd b (with_ispec k (get h b)) h) a)) as (F1 & F2).
  { destruct (Nat.eq_dec b a) as [->|N]; [|rewrite get_upd_neq by exact N; split; reflexivity].
    destruct (Nat.lt_ge_cases a (length h)) as [H|H]; [rewrite get_upd_eq by exact H; split; reflexivity|].
    unfold get. rewrite !nth_overflow by (rewrite ?upd_length; exact H). split; reflexivity. }
  split; congruence.
Qed.
Lemma concat_upd : forall s (L : list (list nat)) l, s < length L -> Permutation (concat (upd s (nth s L [] ++ l) L)) (l ++ concat L).
Proof.
  induction s as [|s IH]; intros [|x L] l H; cbn [length] in H; try lia; cbn [upd nth concat].
  - rewrite app_assoc. apply Permutation_app_tail. apply Permutation_app_comm.
  - rewrite (IH L l) by lia. rewrite !app_assoc. apply Permutation_app_tail. apply Permutation_app_comm.
Qed.
Lemma nodup_right {A} (l l' : list A) : NoDup (l ++ l') -> NoDup l'.
Proof. induction l as [|x l IH]; intro H; [exact H|]. apply IH. inversion H. assumption. Qed.
Lemma nodup_concat {A} : forall (L : list (list A)) s, NoDup (concat L) -> NoDup (nth s L []).
Proof.
  induction L as [|x L IH]; intros [|s] H; cbn [nth concat] in *; try constructor.
  - clear IH. induction x as [|y x IH]; [constructor|]. inversion H as [|? ? N H']. subst. constructor; [intro I; apply N; apply in_or_app; left; exact I|apply IH; exact H'].
  - apply IH. exact (nodup_right x _ H).
Qed.
Lemma nodup_apart {A} : forall (L : list (list A)) s t a, NoDup (concat L) -> s <> t -> In a (nth s L []) -> In a (nth t L []) -> False.
Proof.
  assert (forall (L : list (list A)) t a, In a (nth t L []) -> In a (concat L)) as IC.
  { induction L as [|x L IH]; intros [|t] a I; cbn [nth concat] in *; try destruct I; apply in_or_app; [left; exact I|right; exact (IH t a I)]. }
  assert (forall (x l : list A) a, NoDup (x ++ l) -> In a x -> In a l -> False) as AP.
  { induction x as [|y x IH]; intros l a H I J; [destruct I|]. inversion H as [|? ? N H']. subst. destruct I as [->|I]; [apply N; apply in_or_app; right; exact J|exact (IH l a H' I J)]. }
  induction L as [|x L IH]; intros s t a H N I J; [destruct s; destruct I|]. destruct s as [|s], t as [|t]; cbn [nth concat] in *.
  - apply N. reflexivity.
  - exact (AP x (concat L) a H I (IC L t a J)).
  - exact (AP x (concat L) a H J (IC L s a I)).
  - apply (IH s t a); auto. exact (nodup_right x _ H).
Qed.

(** the invariant of a process *)
Record good (p : process) : Prop := {
  g_known : forall s a, In a (members p s) -> a < length (objects p);
  g_charge : forall a, o_class (get (objects p) a) <> CSpecies -> o_charge (get (objects p) a) = charge_of_class (o_class (get (objects p) a)) 0;
  g_index : own_species p -> forall s k a, nth_error (members p s) k = Some a -> o_ispec (get (objects p) a) = Some k }.
Lemma good_fresh : good fresh.
Proof.
  split.
  - intros [|s] a []; assumption.
  - intros a. unfold get, fresh. cbn [objects]. destruct a; intro N; exfalso; apply N; reflexivity.
  - intros _ s k a E. exfalso. destruct s as [|s], k; discriminate E.
Qed.
Lemma get_app h o a : a < length h -> get (h ++ [o]) a = get h a.
Proof. intro H. apply app_nth1. exact H. Qed.
Lemma get_last h o : get (h ++ [o]) (length h) = o.
Proof. unfold get. rewrite app_nth2, Nat.sub_diag by lia. reflexivity. Qed.
Lemma get_beyond h a : length h <= a -> get h a = no_obj.
Proof. intro H. apply nth_overflow. exact H. Qed.
Lemma good_set p a f : good p -> (forall o, o_class (f o) = o_class o) -> (forall o, o_charge (f o) = o_charge o) -> (forall o, o_ispec (f o) = o_ispec o) ->
  good (mkProcess (upd a (f (get (objects p) a)) (objects p)) (sims p)).
Proof.
  intros [G1 G2 G3] E1 E2 E3.
  assert (K : forall b, o_class (get (upd a (f (get (objects p) a)) (objects p)) b) = o_class (get (objects p) b) /\ o_charge (get (upd a (f (get (objects p) a)) (objects p)) b) = o_charge (get (objects p) b) /\ o_ispec (get (upd a (f (get (objects p) a)) (objects p)) b) = o_ispec (get (objects p) b)).
  { intro b. destruct (Nat.eq_dec a b) as [->|N]; [|rewrite get_upd_neq by exact N; repeat split].
    destruct (Nat.lt_ge_cases b (length (objects p))) as [H|H]; [rewrite get_upd_eq by exact H; repeat split; auto|].
    rewrite !get_beyond by (rewrite ?upd_length; exact H). repeat split. }
  split; cbn [objects sims members].
  - intros s b I. rewrite upd_length. exact (G1 s b I).
  - intros b N. destruct (K b) as (-> & -> & _). apply G2. destruct (K b) as (<- & _). exact N.
  - intros O s k b E. destruct (K b) as (_ & _ & ->). exact (G3 O s k b E).
Qed.
Lemma good_exec c p p' : good p -> exec c p = Some p' -> good p'.
Proof.
  intros G E. destruct c as [c z r pol|a b|a e q| |s l]; cbn [exec] in E.
  - injection E as <-. destruct G as [G1 G2 G3]. split; cbn [objects sims].
    + intros s a I. rewrite app_length. cbn [length]. pose proof (G1 s a I). lia.
    + intros a N. destruct (Nat.lt_trichotomy a (length (objects p))) as [H|[H|H]].
      * rewrite get_app in N |- * by exact H. exact (G2 a N).
      * subst a. rewrite get_last in N |- *. unfold create in N |- *. cbn [o_class o_charge] in N |- *. destruct c; try reflexivity. exfalso. apply N. reflexivity.
      * rewrite get_beyond in N by (rewrite app_length; cbn [length]; lia). exfalso. apply N. reflexivity.
    + intros O s k a E. rewrite get_app; [exact (G3 O s k a E)|]. apply (G1 s). eapply nth_error_In. exact E.
  - destruct (_ && _); [|discriminate E]. destruct (o_radiation _); try discriminate E. injection E as <-. apply (good_set p a (with_photon b)); auto.
  - destruct (_ && _); [|discriminate E]. injection E as <-. apply (good_set p a (with_pair e q)); auto.
  - injection E as <-. destruct G as [G1 G2 G3].
    assert (M : forall s, nth s (sims p ++ [[]]) [] = nth s (sims p) []).
    { intro s. destruct (Nat.lt_trichotomy s (length (sims p))) as [H|[H|H]].
      - rewrite app_nth1 by exact H. reflexivity.
      - subst s. rewrite app_nth2, Nat.sub_diag by lia. cbn [nth]; rewrite nth_overflow by lia. reflexivity.
      - rewrite !nth_overflow; [reflexivity|lia|rewrite app_length; cbn [length]; lia]. }
    split; unfold members, own_species; cbn [objects sims].
    + intros s a. rewrite M. apply G1.
    + exact G2.
    + intros O s k a. rewrite M. apply G3. unfold own_species. rewrite concat_app in O. cbn [concat] in O. rewrite app_nil_r in O. exact O.
  - destruct (_ && _) eqn:B; [|discriminate E]. apply andb_prop in B. destruct B as [B1 B2]. apply Nat.ltb_lt in B1. rewrite forallb_forall in B2. injection E as <-. destruct G as [G1 G2 G3].
    assert (K : forall b, In b (nth s (sims p) [] ++ l) -> b < length (objects p)).
    { intros b I. apply in_app_or in I. destruct I as [I|I]; [exact (G1 s b I)|]. apply Nat.ltb_lt. exact (B2 b I). }
    split; unfold members, own_species; cbn [objects sims].
    + intros t a I. rewrite number_length. destruct (Nat.eq_dec s t) as [<-|N].
      * rewrite nth_upd_eq in I by exact B1. exact (K a I).
      * rewrite nth_upd_neq in I by exact N. exact (G1 t a I).
    + intros a N. destruct (number_same (nth s (sims p) [] ++ l) 0 (objects p) a) as [E1 E2]. rewrite E1 in N |- *. rewrite E2. exact (G2 a N).
    + intros O t k a E. destruct (Nat.eq_dec s t) as [<-|N].
      * pose proof (nodup_concat _ s O) as ND. rewrite nth_upd_eq in ND, E by exact B1. rewrite (number_in _ 0 _ k a ND K E). reflexivity.
      * pose proof (nodup_apart _ s t a O N) as AP. rewrite nth_upd_neq in E by exact N. rewrite nth_upd_eq, nth_upd_neq in AP by auto.
        rewrite number_out by (intro I; apply AP; [exact I|eapply nth_error_In; exact E]).
        apply (G3 (nodup_right l _ (Permutation_NoDup (concat_upd s (sims p) l B1) O)) t k a). exact E.
Qed.
Lemma good_run : forall cs p p', good p -> run cs p = Some p' -> good p'.
Proof.
  induction cs as [|c cs IH]; intros p p' G E; cbn [run] in E; [injection E as <-; exact G|].
  destruct (exec c p) as [p1|] eqn:E1; [|discriminate E]. exact (IH p1 p' (good_exec c p p1 G E1) E).
Qed.
Lemma init_all_nth h n : forall l ks i, init_all h n l = Some ks -> length ks = length l /\ (forall a, nth_error l i = Some a -> init_one h n a = Some (nth i ks Plain)).
Proof.
  induction l as [|b l IH]; intros ks i E; cbn [init_all] in E.
  - injection E as <-. split; [reflexivity|]. intros a E. destruct i; discriminate E.
  - destruct (init_one h n b) as [k|] eqn:E1; [|discriminate E]. destruct (init_all h n l) as [ks'|] eqn:E2; [|discriminate E]. injection E as <-.
    split; [cbn [length]; f_equal; exact (proj1 (IH ks' 0 eq_refl))|]. intros a Ea. destruct i as [|i]; [injection Ea as <-; exact E1|]. cbn [nth]. exact (proj2 (IH ks' i eq_refl) a Ea).
Qed.
Section Setup.
Variables (p : process) (s : nat).
Hypothesis G : good p.
Hypothesis O : own_species p.
Hypothesis C : complete p s.
Hypothesis T : true_electrons p s.
Lemma place_of b i : In b (members p s) -> index_of (length (members p s)) (get (objects p) b) = Some i -> nth_error (members p s) i = Some b.
Proof.
  intros I E. destruct (In_nth_error _ _ I) as [k Ek]. unfold index_of in E. rewrite (g_index p G O s k b Ek) in E. destruct (Nat.ltb k _); [|discriminate E]. injection E as <-. exact Ek.
Qed.
Lemma asked_one i a k : nth_error (members p s) i = Some a -> init_one (objects p) (length (members p s)) a = Some k ->
  as_asked p s a k /\ match k with Plain => True | Radiates ph => ph <> i /\ ph < length (members p s) | Pairs e q => e <> i /\ q <> i /\ e <> q /\ e < length (members p s) /\ q < length (members p s) end.
Proof.
  intros Ea E. pose proof (nth_error_In _ _ Ea) as Ia. set (n := length (members p s)) in *.
  assert (L : forall j b, nth_error (members p s) j = Some b -> j < n) by (intros j b H; apply nth_error_Some; congruence).
  unfold init_one in E. destruct (init_radiation _ _ _) as [[ph|]|] eqn:ER; [| |discriminate E].
  - destruct (init_pairs _ _ _); [|discriminate E]. injection E as <-. unfold init_radiation in ER. destruct (isinstance (o_class (get (objects p) a)) CElectron) eqn:Ec; [|discriminate ER].
    destruct (o_radiation _) eqn:Er; try discriminate ER. destruct (o_photon _) as [b|] eqn:Eb; [|discriminate ER]. destruct (isinstance (o_class (get (objects p) b)) CPhoton) eqn:Ep; [|discriminate ER].
    destruct (qed_storage _); [|discriminate ER]. destruct (index_of _ _) as [j|] eqn:Ej; [|discriminate ER]. injection ER as ->.
    assert (o_class (get (objects p) b) = CPhoton) as Cb by (destruct (o_class (get (objects p) b)); try discriminate Ep; reflexivity).
    pose proof (place_of b ph (C a b Ia (or_introl Eb)) Ej) as Pb. split; [split; [exact Er|]|split; [|exact (L _ _ Pb)]].
    + exists b. split; [exact Eb|]. split; [exact Pb|]. split; [exact Cb|]. rewrite (g_charge p G b), Cb; [reflexivity|rewrite Cb; discriminate].
    + intros ->. rewrite Ea in Pb. injection Pb as ->. rewrite Cb in Ec. discriminate Ec.
  - destruct (init_pairs _ _ _) as [[[e q]|]|] eqn:EP; [| |discriminate E].
    + injection E as <-. unfold init_pairs in EP. destruct (isinstance (o_class (get (objects p) a)) CPhoton) eqn:Ec; [|discriminate EP].
      destruct (o_electron _) as [b|] eqn:Eb; [|discriminate EP]. destruct (o_positron _) as [c|] eqn:Ecc; [|discriminate EP].
      destruct (isinstance (o_class (get (objects p) b)) CElectron && _) eqn:Ek; [|discriminate EP]. apply andb_prop in Ek. destruct Ek as [_ Kc].
      destruct (index_of _ (get (objects p) b)) as [i1|] eqn:E1; [|discriminate EP]. destruct (index_of _ (get (objects p) c)) as [i2|] eqn:E2; [|discriminate EP].
      destruct (qed_storage _); [|discriminate EP]. injection EP as -> ->.
      pose proof (T a b Ia Eb) as Cb. assert (o_class (get (objects p) c) = CPositron) as Cc by (destruct (o_class (get (objects p) c)); try discriminate Kc; reflexivity).
      pose proof (place_of b e (C a b Ia (or_intror (or_introl Eb))) E1) as Pb. pose proof (place_of c q (C a c Ia (or_intror (or_intror Ecc))) E2) as Pc.
      split; [|split; [|split; [|split; [|split; [exact (L _ _ Pb)|exact (L _ _ Pc)]]]]].
      * exists b, c. repeat (split; [assumption|]). split; [rewrite (g_charge p G b), Cb by (rewrite Cb; discriminate); reflexivity|rewrite (g_charge p G c), Cc by (rewrite Cc; discriminate); reflexivity].
      * intros ->. rewrite Ea in Pb. injection Pb as ->. rewrite Cb in Ec. discriminate Ec.
      * intros ->. rewrite Ea in Pc. injection Pc as ->. rewrite Cc in Ec. discriminate Ec.
      * intros ->. rewrite Pb in Pc. injection Pc as ->. congruence.
    + injection E as <-. split; [|exact Coq.Init.Logic.I]. split.
      * intro Ec. unfold init_radiation in ER. rewrite Ec in ER. destruct (o_radiation _); [reflexivity|discriminate ER|]. destruct (o_photon _) as [b|]; [|discriminate ER].
        destruct (isinstance _ CPhoton); [|discriminate ER]. destruct (qed_storage _); [|discriminate ER]. destruct (index_of _ _); discriminate ER.
      * intro Ec. unfold init_pairs in EP. rewrite Ec in EP. destruct (o_electron _) as [b|]; [|left; reflexivity]. destruct (o_positron _) as [c|]; [|right; reflexivity].
        destruct (_ && _); [|discriminate EP]. destruct (index_of _ _); [|discriminate EP]. destruct (index_of _ _); [|discriminate EP]. destruct (qed_storage _); discriminate EP.
Qed.
Lemma setup_ok ks : init_qed p s = Some ks -> length ks = length (members p s) /\ sane (length (members p s)) (kinds_of ks) /\
  forall i a, nth_error (members p s) i = Some a -> as_asked p s a (kinds_of ks i).
Proof.
  intro E. unfold init_qed in E. fold (members p s) in E. split; [exact (proj1 (init_all_nth _ _ _ _ 0 E))|]. split.
  - intros i Hi. destruct (nth_error (members p s) i) as [a|] eqn:Ea; [|apply nth_error_None in Ea; lia].
    exact (proj2 (asked_one i a _ Ea (proj2 (init_all_nth _ _ _ _ i E) a Ea))).
  - intros i a Ea. exact (proj1 (asked_one i a _ Ea (proj2 (init_all_nth _ _ _ _ i E) a Ea))).
Qed.
End Setup.
