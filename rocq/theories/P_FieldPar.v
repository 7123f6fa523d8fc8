(** Parallel loops over lists of (destination, source) pairs. *)
From Verif Require Import Base M_Layout M_PartSync S_PartSync M_FieldSync S_FieldSync P_PartSync P_PartSync2 P_Threads P_FieldGeo.
Local Open Scope nat_scope.

Lemma in_concat_nth {A} (ls : list (list A)) a : In a (concat ls) <-> exists t l, nth_error ls t = Some l /\ In a l.
Proof.
  rewrite in_concat. split.
  - intros [l [Hl Ha]]. apply In_nth_error in Hl as [t Ht]. eauto.
  - intros [t [l [Ht Ha]]]. apply nth_error_In in Ht. eauto.
Qed.
Lemma concat_map_map {A B} (f : A -> B) ls : map f (concat ls) = concat (map (map f) ls). Proof. apply concat_map. Qed.
(** an element occurs in only one of the lists *)
Lemma nodup_concat_once {A} (ls : list (list A)) t u l k a : NoDup (concat ls) -> nth_error ls t = Some l -> nth_error ls u = Some k -> In a l -> In a k -> t = u.
Proof.
  revert t u. induction ls as [|x ls IH]; intros [|t] [|u] Hn Ht Hu Ha Hk; cbn in Ht, Hu; try discriminate; auto.
  - exfalso. inversion Ht; subst x. cbn [concat] in Hn. assert (H : In a (concat ls)) by (apply in_concat; exists k; split; auto; eapply nth_error_In; eauto).
    clear IH. induction l as [|z l IHl]; [contradiction|]. cbn [app] in Hn. apply NoDup_cons_iff in Hn as [Hn1 Hn2]. destruct Ha as [->|Ha].
    + apply Hn1. apply in_or_app. now right.
    + apply IHl; auto.
  - exfalso. inversion Hu; subst x. cbn [concat] in Hn. assert (H : In a (concat ls)) by (apply in_concat; exists l; split; auto; eapply nth_error_In; eauto).
    clear IH. induction k as [|z k IHl]; [contradiction|]. cbn [app] in Hn. apply NoDup_cons_iff in Hn as [Hn1 Hn2]. destruct Hk as [->|Hk].
    + apply Hn1. apply in_or_app. now right.
    + apply IHl; auto.
  - f_equal. eapply IH; eauto. cbn [concat] in Hn. clear - Hn. induction x as [|z x IHx]; [exact Hn|]. cbn [app] in Hn. apply NoDup_cons_iff in Hn. tauto.
Qed.
Lemma nodup_once_map {A B} (f : A -> B) (ls : list (list A)) t u l k a : NoDup (map f (concat ls)) -> nth_error ls t = Some l -> nth_error ls u = Some k ->
  In a (map f l) -> In a (map f k) -> t = u.
Proof.
  intros Hn Ht Hu Hl Hk. rewrite concat_map in Hn. apply (nodup_concat_once (map (map f) ls) t u (map f l) (map f k) a); auto; rewrite nth_error_map; [rewrite Ht|rewrite Hu]; reflexivity.
Qed.
Lemma nodup_concat_part {A} (ls : list (list A)) l : NoDup (concat ls) -> In l ls -> NoDup l.
Proof.
  intros Hn Hi. apply in_split in Hi as [l1 [l2 ->]]. rewrite concat_app in Hn. cbn [concat] in Hn.
  assert (H : forall (a b : list A), NoDup (a ++ b) -> NoDup b). { clear. intros a b. induction a as [|x a IH]; auto. cbn. intro H. apply NoDup_cons_iff in H. tauto. }
  assert (H' : forall (a b : list A), NoDup (a ++ b) -> NoDup a).
  { clear. intros a b. induction a as [|x a IH]; [constructor|]. cbn. intro H. apply NoDup_cons_iff in H as [H1 H2]. constructor; auto. intro Hx. apply H1. apply in_or_app. now left. }
  apply H in Hn. now apply H' in Hn.
Qed.
Lemma find_same {A} (P : A -> bool) l l' : Permutation l l' -> (forall x y, In x l -> In y l -> P x = true -> P y = true -> x = y) -> find P l = find P l'.
Proof.
  intros Hp Hu. destruct (find P l) as [x|] eqn:E, (find P l') as [y|] eqn:E'; auto.
  - apply find_some in E as [H1 H2], E' as [H3 H4]. f_equal. apply Hu; auto. now apply (Permutation_in _ (Permutation_sym Hp)).
  - apply find_some in E as [H1 H2]. apply (Permutation_in _ Hp) in H1. apply (find_none _ _ E') in H1. congruence.
  - apply find_some in E' as [H1 H2]. apply (Permutation_in _ (Permutation_sym Hp)) in H1. apply (find_none _ _ E) in H1. congruence.
Qed.

Section Par.
Context {V : Type} (zero : V) (plus : V -> V -> V).
Hypothesis Hm : monoid zero plus.
Notation mem := (memory V).
Notation tot := (total zero plus).
Local Notation acc := (accumulated zero plus).
Definition copied (l : list (addr * addr)) (m : mem) (a : addr) : V :=
  match find (fun ds => addr_eqb (fst ds) a) l with Some ds => m (snd ds) | None => m a end.
Definition copy_ok (l : list (addr * addr)) : Prop := NoDup (map fst l) /\ forall d, In d (map fst l) -> ~ In d (map snd l).

Lemma fst_unique (l : list (addr * addr)) a x y : NoDup (map fst l) -> In x l -> In y l -> addr_eqb (fst x) a = true -> addr_eqb (fst y) a = true -> x = y.
Proof.
  intros Hn Hx Hy Ex Ey. apply addr_eqb_eq in Ex, Ey. assert (E : fst x = fst y) by congruence. clear - Hn Hx Hy E.
  induction l as [|z l IH]; [contradiction|]. cbn [map] in Hn. apply NoDup_cons_iff in Hn as [Hn1 Hn2].
  destruct Hx as [->|Hx], Hy as [->|Hy]; auto; exfalso; apply Hn1; [rewrite E|rewrite <- E]; now apply in_map.
Qed.
Lemma copied_perm l l' m a : copy_ok l -> Permutation l l' -> copied l m a = copied l' m a.
Proof. intros [Hn _] Hp. unfold copied. rewrite (find_same _ l l'); auto. intros x y Hx Hy. now apply fst_unique with (l := l). Qed.
Lemma copied_in l m d s : copy_ok l -> In (d, s) l -> copied l m d = m s.
Proof.
  intros [Hn _] Hi. unfold copied. destruct (find _ l) as [x|] eqn:E.
  - apply find_some in E as [Hx Ex]. assert (x = (d, s)) by (eapply fst_unique; eauto; cbn; apply addr_eqb_refl). now subst.
  - apply (find_none _ _ E) in Hi. cbn in Hi. now rewrite addr_eqb_refl in Hi.
Qed.
Lemma copied_out l m a : ~ In a (map fst l) -> copied l m a = m a.
Proof.
  intro H. unfold copied. destruct (find _ l) as [x|] eqn:E; auto. apply find_some in E as [Hx Ex]. apply addr_eqb_eq in Ex. subst. exfalso. apply H. now apply in_map.
Qed.
Lemma copy_ok_perm l l' : Permutation l l' -> copy_ok l -> copy_ok l'.
Proof.
  intros P [H1 H2]. split; [eapply Permutation_NoDup; [apply Permutation_map; eauto|auto]|].
  intros d Hd Hs. apply (H2 d); eapply Permutation_in; try apply Permutation_map; try (symmetry; eauto); eauto.
Qed.
Lemma pairs_ok_perm l l' : Permutation l l' -> pairs_ok l -> pairs_ok l'.
Proof.
  intros P [H1 H2]. split; [eapply Permutation_NoDup; [apply Permutation_map; eauto|auto]|].
  intros d Hd Hs. apply (H2 d); eapply Permutation_in; try apply Permutation_map; try (symmetry; eauto); eauto.
Qed.
Lemma existsb_perm {A} (P : A -> bool) l l' : Permutation l l' -> existsb P l = existsb P l'.
Proof.
  intro H. destruct (existsb P l) eqn:E, (existsb P l') eqn:E'; auto; exfalso.
  - apply existsb_exists in E as [x [Hx Ex]]. assert (existsb P l' = true) by (apply existsb_exists; exists x; split; auto; eapply Permutation_in; eauto). congruence.
  - apply existsb_exists in E' as [x [Hx Ex]]. assert (existsb P l = true) by (apply existsb_exists; exists x; split; auto; eapply Permutation_in; [symmetry|]; eauto). congruence.
Qed.
Lemma perm_filter {A} (P : A -> bool) l l' : Permutation l l' -> Permutation (filter P l) (filter P l').
Proof.
  induction 1 as [|x l l' H IH|x y l|]; cbn; auto.
  - destruct (P x); auto.
  - destruct (P x), (P y); auto. constructor.
  - etransitivity; eauto.
Qed.
Lemma accumulated_perm l l' m a : Permutation l l' -> acc l m a = acc l' m a.
Proof.
  intro P. unfold accumulated. rewrite (existsb_perm _ l l' P). destruct (existsb _ l'); auto. f_equal.
  apply (tot_perm zero plus Hm). unfold vals. now apply Permutation_map, perm_filter.
Qed.
Lemma tot_vals_flat {A} (g : A -> list (addr * addr)) l m a : tot (vals (flat_map g l) m a) = tot (map (fun x => tot (vals (g x) m a)) l).
Proof. induction l as [|x l IH]; [reflexivity|]. cbn [flat_map map]. rewrite vals_app, (tot_app zero plus Hm), IH. reflexivity. Qed.
Lemma tot_vals_concat ls m a : tot (vals (concat ls) m a) = tot (map (fun x => tot (vals x m a)) ls).
Proof. induction ls as [|x l IH]; [reflexivity|]. cbn [concat map]. rewrite vals_app, (tot_app zero plus Hm), IH. reflexivity. Qed.
(** one exchange after another *)
Lemma accumulated_twice l1 l2 m a : pairs_ok (l1 ++ l2) -> acc l2 (acc l1 m) a = acc (l1 ++ l2) m a.
Proof.
  intros [Hn Hd]. rewrite map_app in Hn, Hd. setoid_rewrite map_app in Hd. unfold accumulated at 1 3. rewrite existsb_app.
  destruct (existsb (fun ds => addr_eqb (snd ds) a) l2) eqn:E2; [now rewrite orb_true_r|rewrite orb_false_r]. apply existsb_snd_false in E2.
  rewrite vals_app, (tot_app zero plus Hm).
  assert (Hv : vals l2 (acc l1 m) a = vals l2 m a).
  { apply vals_ext. intros d s Hi. unfold accumulated. apply (in_map snd) in Hi. cbn [snd] in Hi.
    rewrite (proj2 (existsb_snd_false l1 s)).
    - rewrite vals_none; [cbn; apply (plus_0_r zero plus Hm)|]. intro Hf. apply (Hd s); apply in_or_app; auto.
    - intro Hs. clear - Hn Hs Hi. revert Hn Hs. induction (map snd l1) as [|x k IH]; cbn; intros Hn Hs; [contradiction|].
      apply NoDup_cons_iff in Hn as [Hn1 Hn2]. destruct Hs as [->|Hs]; [apply Hn1; apply in_or_app; now right|now apply IH]. }
  rewrite Hv. unfold accumulated. destruct (existsb (fun ds => addr_eqb (snd ds) a) l1) eqn:E1.
  - apply existsb_snd in E1. rewrite vals_none; [apply (plus_0_r zero plus Hm)|]. intro Hf. apply (Hd a); apply in_or_app; auto.
  - symmetry. apply (plus_assoc zero plus Hm).
Qed.

(** ** copying threads *)
Lemma guard_op_ok (own : nat -> addr -> Prop) (ro ac : addr -> Prop) t l : (forall d s, In (d, s) l -> own t d /\ (own t s \/ ro s)) ->
  prog_ok own ro ac t (guard_ops l).
Proof.
  intro H. unfold prog_ok, guard_ops. apply Forall_forall. intros o Ho. apply in_flat_map in Ho as [[d s] [Hi Ho]]. apply H in Hi.
  destruct Ho as [<-|[<-|[]]]; cbn; unfold readable; tauto.
Qed.
Theorem parallel_copy ls sched m m' : copy_ok (concat ls) -> parallel zero plus (map guard_ops ls) sched m = Some m' ->
  forall a, m' a = copied (concat ls) m a.
Proof.
  intros [Hn Hd] Hp a.
  set (own := fun t a => exists l, nth_error ls t = Some l /\ In a (map fst l)).
  set (ro := fun a => In a (map snd (concat ls))). set (ac := fun _ : addr => False).
  assert (Hn' : NoDup (concat (map (map fst) ls))) by (rewrite <- concat_map; exact Hn).
  assert (O1 : forall t u a, own t a -> own u a -> t = u).
  { intros t u x [l [Ht Hx]] [k [Hu Hk]]. eapply (nodup_once_map fst ls); eauto. }
  assert (O0 : forall t x, own t x -> In x (map fst (concat ls))).
  { intros t x [l [Ht Hx]]. rewrite concat_map. apply in_concat. exists (map fst l). split; auto. apply in_map. eapply nth_error_In; eauto. }
  assert (Ok : forall t os, nth_error (map guard_ops ls) t = Some os -> prog_ok own ro ac t os).
  { intros t os Ht. rewrite nth_error_map in Ht. destruct (nth_error ls t) as [l|] eqn:El; [|discriminate]. inversion Ht; subst.
    apply guard_op_ok. intros d s Hi. split.
    - exists l. split; auto. apply (in_map fst) in Hi. exact Hi.
    - right. unfold ro. apply in_map_iff. exists (d, s). split; auto. apply in_concat. exists l. split; auto. eapply nth_error_In; eauto. }
  destruct (parallel_result0 zero plus own ro ac O1) with (progs := map guard_ops ls) (sched := sched) (m := m) (m' := m') as [R1 R2]; auto.
  - intros t x Ho Hr. apply O0 in Ho. apply (Hd x); auto.
  - destruct (in_dec addr_dec a (map fst (concat ls))) as [Hi|Hi].
    + apply in_map_iff in Hi as [[d s] [E Hi]]. cbn in E. subst d. pose proof Hi as Hi'. apply in_concat_nth in Hi as [t [l [Ht Hi]]].
      rewrite (R1 t (guard_ops l) a).
      * rewrite solo_guard; auto.
        -- change (copied l m a = copied (concat ls) m a).
           assert (NoDup (map fst l)). { apply (nodup_concat_part (map (map fst) ls)); auto. apply in_map. eapply nth_error_In; eauto. }
           rewrite (copied_in (concat ls) m a s); [|split; auto|auto]. apply copied_in; [|auto]. split; auto.
           intros x Hx Hs. apply (Hd x); [apply (O0 t); exists l; auto|].
           apply in_map_iff in Hs as [y [<- Hy]]. apply in_map. apply in_concat. exists l. split; auto. eapply nth_error_In; eauto.
        -- apply (nodup_concat_part (map (map fst) ls)); auto. apply in_map. eapply nth_error_In; eauto.
        -- intros x Hx Hs. apply (Hd x); [apply (O0 t); exists l; auto|].
           apply in_map_iff in Hs as [y [<- Hy]]. apply in_map. apply in_concat. exists l. split; auto. eapply nth_error_In; eauto.
      * rewrite nth_error_map, Ht. reflexivity.
      * exists l. split; auto. apply (in_map fst) in Hi. exact Hi.
    + rewrite copied_out by auto. apply R2; [|auto]. intros t _ Ho. apply Hi. eapply O0; eauto.
Qed.

(** ** accumulating threads: every destination and every source belongs to one thread *)
Lemma current_op_ok (own : nat -> addr -> Prop) (ro ac : addr -> Prop) t l : (forall d s, In (d, s) l -> own t d /\ own t s) ->
  prog_ok own ro ac t (current_ops l).
Proof.
  intro H. unfold prog_ok, current_ops. apply Forall_forall. intros o Ho. apply in_flat_map in Ho as [[d s] [Hi Ho]]. apply H in Hi.
  destruct Ho as [<-|[<-|[<-|[<-|[]]]]]; cbn; unfold readable; tauto.
Qed.
Definition dst_apart (ls : list (list (addr * addr))) : Prop :=
  forall t u l k d, nth_error ls t = Some l -> nth_error ls u = Some k -> In d (map fst l) -> In d (map fst k) -> t = u.
Theorem parallel_accumulate ls sched m m' : pairs_ok (concat ls) -> dst_apart ls -> parallel zero plus (map current_ops ls) sched m = Some m' ->
  forall a, m' a = acc (concat ls) m a.
Proof.
  intros [Hn Hd] Ha Hp a.
  set (own := fun t a => exists l, nth_error ls t = Some l /\ (In a (map fst l) \/ In a (map snd l))).
  set (ro := fun _ : addr => False). set (ac := fun _ : addr => False).
  assert (Hn' : NoDup (concat (map (map snd) ls))) by (rewrite <- concat_map; exact Hn).
  assert (S0 : forall t l x, nth_error ls t = Some l -> In x (map fst l) -> In x (map fst (concat ls))).
  { intros t l x Ht Hx. rewrite concat_map. apply in_concat. exists (map fst l). split; auto. apply in_map. eapply nth_error_In; eauto. }
  assert (S1 : forall t l x, nth_error ls t = Some l -> In x (map snd l) -> In x (map snd (concat ls))).
  { intros t l x Ht Hx. rewrite concat_map. apply in_concat. exists (map snd l). split; auto. apply in_map. eapply nth_error_In; eauto. }
  assert (S2 : forall t u l k x, nth_error ls t = Some l -> nth_error ls u = Some k -> In x (map snd l) -> In x (map snd k) -> t = u).
  { intros t u l k x Ht Hu Hl Hk. eapply (nodup_once_map snd ls); eauto. }
  assert (O1 : forall t u a, own t a -> own u a -> t = u).
  { intros t u x [l [Ht Hx]] [k [Hu Hk]]. destruct Hx as [Hx|Hx], Hk as [Hk|Hk]; [eapply Ha; eauto| | |eapply S2; eauto]; exfalso; apply (Hd x); eauto. }
  assert (Ok : forall t os, nth_error (map current_ops ls) t = Some os -> prog_ok own ro ac t os).
  { intros t os Ht. rewrite nth_error_map in Ht. destruct (nth_error ls t) as [l|] eqn:El; [|discriminate]. inversion Ht; subst.
    apply current_op_ok. intros d s Hi. split; exists l; (split; [auto|]).
    - left. apply (in_map fst) in Hi. exact Hi.
    - right. apply (in_map snd) in Hi. exact Hi. }
  destruct (parallel_result zero plus Hm own ro ac O1) with (progs := map current_ops ls) (sched := sched) (m := m) (m' := m') as [R1 [R2 _]]; auto.
  assert (Okl : forall t l, nth_error ls t = Some l -> pairs_ok l).
  { intros t l Ht. split; [apply (nodup_concat_part (map (map snd) ls)); auto; apply in_map; eapply nth_error_In; eauto|].
    intros x Hx Hs. apply (Hd x); eauto. }
  assert (Here : forall t l, nth_error ls t = Some l -> In a (map fst l) \/ In a (map snd l) -> m' a = acc (concat ls) m a).
  { intros t l Ht Hi. rewrite (R1 t (current_ops l) a); [|rewrite nth_error_map, Ht; reflexivity|exists l; auto].
    rewrite (solo_current zero plus Hm) by eauto. destruct Hi as [Hi|Hi].
    - unfold accumulated. rewrite (proj2 (existsb_snd_false l a)), (proj2 (existsb_snd_false (concat ls) a)); [|apply Hd; eauto|intro Hs; apply (Hd a); eauto].
      f_equal. rewrite tot_vals_concat.
      assert (X : tot (map (fun x => tot (vals x m a)) ls) = tot (map (fun u => tot (vals (nth u ls []) m a)) (seq 0 (length ls)))).
      { f_equal. clear. induction ls as [|x ls IH]; [reflexivity|]. cbn [length seq map nth]. f_equal. rewrite <- seq_shift, map_map. exact IH. }
      rewrite X. symmetry. transitivity (tot (vals (nth t ls []) m a)).
      + apply (tot_single zero plus Hm (seq 0 (length ls)) t (fun u => tot (vals (nth u ls []) m a))); [apply seq_NoDup|apply in_seq; pose proof (nth_lt _ _ _ Ht); lia|].
        intros u Hu Hne. rewrite vals_none; [reflexivity|]. intro Hf. apply Hne. apply in_seq in Hu.
        apply (Ha u t (nth u ls []) l a); auto. apply nth_error_nth'. lia.
      + f_equal. f_equal. apply nth_error_nth. exact Ht.
    - unfold accumulated. rewrite (proj2 (existsb_snd l a) Hi). rewrite (proj2 (existsb_snd (concat ls) a)); eauto. }
  destruct (in_dec addr_dec a (map fst (concat ls))) as [Hi|Hi].
  { apply in_map_iff in Hi as [x [<- Hi]]. apply in_concat_nth in Hi as [t [l [Ht Hi]]]. apply (Here t l); auto. left. now apply in_map. }
  destruct (in_dec addr_dec a (map snd (concat ls))) as [Hj|Hj].
  { apply in_map_iff in Hj as [x [<- Hj]]. apply in_concat_nth in Hj as [t [l [Ht Hj]]]. apply (Here t l); auto. right. now apply in_map. }
  unfold accumulated. rewrite (proj2 (existsb_snd_false (concat ls) a) Hj), vals_none by auto. cbn. rewrite (plus_0_r zero plus Hm).
  apply R2; auto. intros t _ [l [Ht [Ho|Ho]]]; eauto.
Qed.

(** ** message chains: pack (clearing the source), transfer, add on arrival *)
Record chain := mkChain { c_pack : list (addr * addr); c_move : list (addr * addr); c_unpack : list (addr * addr); c_direct : list (addr * addr) }.
Definition chain_ops (c : chain) : list op := pack_ops (c_pack c) ++ guard_ops (c_move c) ++ unpack_atomic (c_unpack c).
Definition buffer (a : addr) : Prop := match a with Fld _ _ _ => False | _ => True end.
(** the buffers carry the values of the sources to the destinations *)
Definition chain_ok (c : chain) : Prop :=
  copy_ok (c_pack c) /\ pairs_ok (c_pack c) /\ copy_ok (c_move c) /\
  (forall d s, In (d, s) (c_pack c) -> buffer d /\ ~ buffer s) /\
  (forall d s, In (d, s) (c_move c) -> buffer d /\ buffer s) /\
  (forall d s, In (d, s) (c_unpack c) -> ~ buffer d /\ buffer s) /\
  (forall d, In d (map fst (c_move c)) -> ~ In d (map fst (c_pack c))) /\
  Permutation (map fst (c_direct c)) (map fst (c_unpack c)) /\
  incl (map snd (c_pack c)) (map snd (c_direct c)) /\ incl (map snd (c_direct c)) (map snd (c_pack c)) /\
  exists keys via dd ss rr, c_direct c = map (fun k => (dd k, ss k)) keys /\ c_unpack c = map (fun k => (dd k, rr k)) keys /\
    forall k : nat * list Z, In k keys -> In (rr k, via k) (c_move c) /\ In (via k, ss k) (c_pack c).
Definition chain_owns (c : chain) (a : addr) : Prop := In a (map fst (c_pack c)) \/ In a (map snd (c_pack c)) \/ In a (map fst (c_move c)) \/ In a (map snd (c_move c)) \/ In a (map snd (c_unpack c)).

Lemma chain_adds c m r a : chain_ok c -> adds zero plus (chain_ops c) (m, r) a = vals (c_direct c) m a.
Proof.
  intros (K1 & K2 & K3 & B1 & B2 & B3 & K4 & _ & _ & _ & keys & via & dd & ss & rr & E1 & E2 & Hk).
  unfold chain_ops. rewrite !adds_app, adds_pack, adds_guard. cbn [app].
  destruct (solo zero plus (pack_ops (c_pack c)) (m, r)) as [m1 r1] eqn:S1. cbn [fst].
  assert (M1 : forall x, m1 x = fst (solo zero plus (pack_ops (c_pack c)) (m, r)) x) by (intro x; now rewrite S1).
  destruct (solo zero plus (guard_ops (c_move c)) (m1, r1)) as [m2 r2] eqn:S2.
  assert (M2 : forall x, m2 x = fst (solo zero plus (guard_ops (c_move c)) (m1, r1)) x) by (intro x; now rewrite S2).
  rewrite adds_unpack.
  - rewrite E1, E2. unfold vals. clear E1 E2 B3. induction keys as [|k keys IH]; [reflexivity|]. cbn [map filter fst].
    destruct (addr_eqb (dd k) a); [|apply IH; intros; apply Hk; now right]. cbn [map snd]. f_equal; [|apply IH; intros; apply Hk; now right].
    destruct (Hk k) as [Hr Hv]; [now left|]. rewrite M2. rewrite solo_guard by apply K3.
    change (copied (c_move c) m1 (rr k) = m (ss k)). rewrite (copied_in _ _ _ _ K3 Hr). rewrite M1, solo_pack by (auto; apply K1).
    destruct (find (fun ds => addr_eqb (fst ds) (via k)) (c_pack c)) as [x|] eqn:Ef.
    + apply find_some in Ef as [Hx Ex]. assert (x = (via k, ss k)) by (apply (fst_unique (c_pack c) (via k)); auto; [apply K1|cbn; apply addr_eqb_refl]). now subst.
    + apply (find_none _ _ Ef) in Hv. cbn in Hv. now rewrite addr_eqb_refl in Hv.
  - intros d Hd Hs. apply in_map_iff in Hd as [[x y] [<- Hd]]. apply in_map_iff in Hs as [[x' y'] [E Hs]]. cbn in E. subst. apply B3 in Hd, Hs. tauto.
Qed.
Lemma unpack_keeps l m r a : ~ In a (map fst l) -> fst (solo zero plus (unpack_atomic l) (m, r)) a = m a.
Proof.
  revert m. induction l as [|[d s] l IH]; intros m H; [reflexivity|]. cbn [unpack_atomic map solo exec fst snd]. fold (unpack_atomic l).
  rewrite IH by (intro Hi; apply H; now right). apply put_neq. intros ->. apply H. now left.
Qed.
Lemma chain_clears c m r a : chain_ok c -> ~ buffer a -> In a (map snd (c_pack c)) -> ~ In a (map fst (c_unpack c)) -> fst (solo zero plus (chain_ops c) (m, r)) a = zero.
Proof.
  intros (K1 & K2 & K3 & B1 & B2 & B3 & K4 & _) Hb Hi Hu. unfold chain_ops. rewrite !solo_app.
  destruct (solo zero plus (pack_ops (c_pack c)) (m, r)) as [m1 r1] eqn:S1.
  assert (M1 : m1 a = fst (solo zero plus (pack_ops (c_pack c)) (m, r)) a) by (now rewrite S1).
  destruct (solo zero plus (guard_ops (c_move c)) (m1, r1)) as [m2 r2] eqn:S2.
  assert (M2 : m2 a = fst (solo zero plus (guard_ops (c_move c)) (m1, r1)) a) by (now rewrite S2).
  rewrite unpack_keeps by auto. rewrite M2, solo_guard by apply K3. change (copied (c_move c) m1 a = zero). rewrite copied_out.
  - rewrite M1, solo_pack by (auto; apply K1). destruct (find _ (c_pack c)) as [[d s]|] eqn:Ef.
    + apply find_some in Ef as [Hx Ex]. apply addr_eqb_eq in Ex. cbn in Ex. subst. apply B1 in Hx. tauto.
    + now rewrite (proj2 (existsb_snd (c_pack c) a) Hi).
  - intro H. apply in_map_iff in H as [[d s] [E H]]. cbn in E. subst. apply B2 in H. tauto.
Qed.
Theorem parallel_chains cs sched m m' : (forall c, In c cs -> chain_ok c) -> pairs_ok (flat_map c_direct cs) ->
  (forall t u c c' a, nth_error cs t = Some c -> nth_error cs u = Some c' -> buffer a -> chain_owns c a -> chain_owns c' a -> t = u) ->
  parallel zero plus (map chain_ops cs) sched m = Some m' ->
  forall a, ~ buffer a -> m' a = acc (flat_map c_direct cs) m a.
Proof.
  intros Hok [Hn Hd] Hb Hp a Ha. rewrite flat_map_concat_map in *. set (ls := map c_direct cs) in *.
  assert (Hn' : NoDup (concat (map (map snd) ls))) by (rewrite <- concat_map; exact Hn).
  assert (S0 : forall t c x, nth_error cs t = Some c -> In x (map fst (c_direct c)) -> In x (map fst (concat ls))).
  { intros t c x Ht Hx. rewrite concat_map. apply in_concat. exists (map fst (c_direct c)). split; auto. unfold ls. rewrite map_map. apply (in_map (fun c => map fst (c_direct c))). eapply nth_error_In; eauto. }
  assert (S1 : forall t c x, nth_error cs t = Some c -> In x (map snd (c_direct c)) -> In x (map snd (concat ls))).
  { intros t c x Ht Hx. rewrite concat_map. apply in_concat. exists (map snd (c_direct c)). split; auto. unfold ls. rewrite map_map. apply (in_map (fun c => map snd (c_direct c))). eapply nth_error_In; eauto. }
  set (own := fun t a => exists c, nth_error cs t = Some c /\ chain_owns c a).
  set (ro := fun _ : addr => False). set (ac := fun a : addr => In a (map fst (concat ls))).
  (* an owned field element is a source *)
  assert (F : forall c x, In c cs -> chain_owns c x -> ~ buffer x -> In x (map snd (c_direct c))).
  { intros c x Hc Ho Hx. destruct (Hok c Hc) as (_ & _ & _ & B1 & B2 & B3 & _ & _ & I1 & _).
    destruct Ho as [Ho|[Ho|[Ho|[Ho|Ho]]]]; try (now apply I1); apply in_map_iff in Ho as [[d s] [E Ho]]; cbn in E; subst; exfalso;
      [apply B1 in Ho|apply B2 in Ho|apply B2 in Ho|apply B3 in Ho]; tauto. }
  assert (S2 : forall t u c c' x, nth_error cs t = Some c -> nth_error cs u = Some c' -> In x (map snd (c_direct c)) -> In x (map snd (c_direct c')) -> t = u).
  { intros t u c c' x Ht Hu Hl Hk. apply (nodup_once_map snd ls t u (c_direct c) (c_direct c') x); auto; unfold ls; rewrite nth_error_map; [rewrite Ht|rewrite Hu]; reflexivity. }
  assert (Bd : forall x, {buffer x} + {~ buffer x}) by (intros [| |]; cbn; auto).
  assert (O1 : forall t u a, own t a -> own u a -> t = u).
  { intros t u x [c [Ht Hx]] [c' [Hu Hk]]. destruct (Bd x) as [Hbx|Hbx]; [eapply Hb; eauto|].
    pose proof (nth_error_In _ _ Ht) as It. pose proof (nth_error_In _ _ Hu) as Iu. apply (S2 t u c c' x); auto. }
  assert (Bf : forall x, ac x -> ~ buffer x).
  { intros x Hx. unfold ac in Hx. rewrite concat_map in Hx. apply in_concat in Hx as [l [Hl Hx]]. unfold ls in Hl. rewrite map_map in Hl. apply in_map_iff in Hl as [c [<- Hc]].
    destruct (Hok c Hc) as (_ & _ & _ & _ & _ & B3 & _ & P & _). apply (Permutation_in _ P) in Hx. apply in_map_iff in Hx as [[d s] [<- Hx]]. apply B3 in Hx. cbn. tauto. }
  assert (O2 : forall t x, own t x -> ac x -> False).
  { intros t x [c [Ht Ho]] Hx. pose proof (Bf x Hx) as Hbx. apply (Hd x Hx). pose proof (nth_error_In _ _ Ht) as It. apply (S1 t c); auto. }
  assert (Ok : forall t os, nth_error (map chain_ops cs) t = Some os -> prog_ok own ro ac t os).
  { intros t os Ht. rewrite nth_error_map in Ht. destruct (nth_error cs t) as [c|] eqn:Ec; [|discriminate]. cbn in Ht. inversion Ht; subst.
    unfold chain_ops, prog_ok. rewrite !Forall_app. split; [|split].
    - apply Forall_forall. intros o Ho. unfold pack_ops in Ho. apply in_flat_map in Ho as [[d s] [Hi Ho]].
      assert (own t d) by (exists c; split; auto; left; apply (in_map fst) in Hi; exact Hi).
      assert (own t s) by (exists c; split; auto; right; left; apply (in_map snd) in Hi; exact Hi).
      destruct Ho as [<-|[<-|[<-|[]]]]; cbn; unfold readable; tauto.
    - apply guard_op_ok. intros d s Hi.
      assert (own t d) by (exists c; split; auto; right; right; left; apply (in_map fst) in Hi; exact Hi).
      assert (own t s) by (exists c; split; auto; right; right; right; left; apply (in_map snd) in Hi; exact Hi). tauto.
    - apply Forall_forall. intros o Ho. unfold unpack_atomic in Ho. apply in_map_iff in Ho as [[d s] [<- Hi]]. cbn. split.
      + unfold ac. apply (S0 t c); auto. destruct (Hok c) as (_ & _ & _ & _ & _ & _ & _ & P & _); [eapply nth_error_In; eauto|].
        apply (Permutation_in _ (Permutation_sym P)). apply (in_map fst) in Hi. exact Hi.
      + left. exists c. split; auto. right; right; right; right. apply (in_map snd) in Hi. exact Hi. }
  destruct (parallel_result zero plus Hm own ro ac O1) with (progs := map chain_ops cs) (sched := sched) (m := m) (m' := m') as [R1 [R2 R3]]; auto.
  unfold accumulated. destruct (existsb (fun ds => addr_eqb (snd ds) a) (concat ls)) eqn:Ex.
  - apply existsb_snd in Ex. pose proof Ex as Ex'. apply in_map_iff in Ex as [x [<- Hx]]. apply in_concat_nth in Hx as [t [l [Ht Hx]]]. unfold ls in Ht. rewrite nth_error_map in Ht.
    destruct (nth_error cs t) as [c|] eqn:Ec; [|discriminate]. cbn in Ht. inversion Ht; subst l. pose proof (nth_error_In _ _ Ec) as Hc.
    pose proof (Hok c Hc) as (_ & _ & _ & _ & _ & _ & _ & P & _ & I2 & _). apply (in_map snd) in Hx.
    rewrite (R1 t (chain_ops c)); [|rewrite nth_error_map, Ec; reflexivity|exists c; split; auto; right; left; now apply I2].
    apply chain_clears; auto. intro Hu. apply (Hd (snd x)); [|auto]. apply (S0 t c); auto. now apply (Permutation_in _ (Permutation_sym P)).
  - apply existsb_snd_false in Ex. destruct (in_dec addr_dec a (map fst (concat ls))) as [Hi|Hi].
    + rewrite (R3 a Hi). f_equal. rewrite tot_vals_concat. unfold ls. rewrite !map_map. f_equal. apply map_ext_in. intros c Hc. now rewrite chain_adds by auto.
    + rewrite vals_none by auto. cbn. rewrite (plus_0_r zero plus Hm). apply R2; auto.
      intros t _ [c [Ht Ho]]. apply Ex. pose proof (nth_error_In _ _ Ht) as It. apply (S1 t c); auto.
Qed.
End Par.
