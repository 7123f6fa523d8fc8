(** Threads over shared memory: when every thread writes only memory of its own (or adds to accumulators), every schedule gives the same result. *)
From Verif Require Import Base M_Layout M_PartSync S_PartSync M_FieldSync S_FieldSync P_PartSync.
Local Open Scope nat_scope.

Lemma addr_eqb_eq x y : addr_eqb x y = true <-> x = y.
Proof.
  destruct x, y; cbn [addr_eqb]; split; intro H; try discriminate; try (inversion H; subst; now rewrite ?Nat.eqb_refl, ?Z.eqb_refl);
    apply andb_prop in H as [H H3]; apply andb_prop in H as [H1 H2];
    apply Nat.eqb_eq in H1, H2; apply Z.eqb_eq in H3; now subst.
Qed.
Lemma addr_eqb_refl x : addr_eqb x x = true. Proof. now apply addr_eqb_eq. Qed.
Lemma addr_eqb_neq x y : addr_eqb x y = false <-> x <> y.
Proof.
  split; intro H.
  - intro E. apply addr_eqb_eq in E. congruence.
  - destruct (addr_eqb x y) eqn:E; auto. apply addr_eqb_eq in E. contradiction.
Qed.
Lemma addr_dec (x y : addr) : {x = y} + {x <> y}.
Proof. destruct (addr_eqb x y) eqn:E; [left; now apply addr_eqb_eq|right; now apply addr_eqb_neq]. Qed.

Lemma nth_upd_same {A} i (v : A) l : i < length l -> nth_error (upd i v l) i = Some v.
Proof. revert i; induction l as [|a l IH]; intros [|i] H; cbn in *; try lia; auto. apply IH; lia. Qed.
Lemma nth_upd_other {A} i j (v : A) l : i <> j -> nth_error (upd i v l) j = nth_error l j.
Proof. revert i j; induction l as [|a l IH]; intros [|i] [|j] H; cbn; auto; try congruence. Qed.

Lemma upd_self {A} i (v : A) l : nth_error l i = Some v -> upd i v l = l.
Proof. revert i; induction l as [|a l IH]; intros [|i] H; cbn in *; try discriminate; [congruence|]. f_equal. auto. Qed.
Lemma upd_twice {A} i (v w : A) l : upd i v (upd i w l) = upd i v l.
Proof. revert i; induction l as [|a l IH]; intros [|i]; cbn; auto. now rewrite IH. Qed.

Lemma nth_lt {A} (l : list A) i x : nth_error l i = Some x -> i < length l.
Proof. intro H. apply nth_error_Some. congruence. Qed.

Section Th.
Context {V : Type} (zero : V) (plus : V -> V -> V).
Hypothesis Hm : monoid zero plus.
Notation mem := (memory V).
Notation tot := (total zero plus).

Lemma put_eq a v (m : mem) : put a v m a = v. Proof. unfold put. now rewrite addr_eqb_refl. Qed.
Lemma put_neq a b v (m : mem) : b <> a -> put a v m b = m b.
Proof. intro H. unfold put. now rewrite (proj2 (addr_eqb_neq b a) H). Qed.

Lemma plus_0_r x : plus x zero = x. Proof. apply Hm. Qed.
Lemma plus_comm x y : plus x y = plus y x. Proof. apply Hm. Qed.
Lemma plus_assoc x y z : plus x (plus y z) = plus (plus x y) z. Proof. apply Hm. Qed.
Lemma plus_0_l x : plus zero x = x. Proof. rewrite plus_comm. apply plus_0_r. Qed.
Lemma tot_app l l' : tot (l ++ l') = plus (tot l) (tot l').
Proof. induction l as [|a l IH]; cbn; [now rewrite plus_0_l|]. fold (tot (l ++ l')) (tot l). now rewrite IH, plus_assoc. Qed.
Lemma tot_perm l l' : Permutation l l' -> tot l = tot l'.
Proof.
  induction 1 as [|x l l' H IH|x y l|l l' l'' H1 IH1 H2 IH2]; cbn [total fold_right]; auto.
  - fold (tot l) (tot l'). now rewrite IH.
  - fold (tot l). now rewrite !plus_assoc, (plus_comm y x).
  - congruence.
Qed.
Lemma tot_cons a l : tot (a :: l) = plus a (tot l). Proof. reflexivity. Qed.
Lemma tot_zero {A} (l : list A) f : (forall x, In x l -> f x = zero) -> tot (map f l) = zero.
Proof.
  induction l as [|a l IH]; intro H; [reflexivity|]. cbn [map]. rewrite tot_cons, H by (left; auto). rewrite IH; [apply plus_0_l|].
  intros x Hx. apply H. now right.
Qed.
Lemma tot_plus {A} (l : list A) f g : tot (map (fun x => plus (f x) (g x)) l) = plus (tot (map f l)) (tot (map g l)).
Proof.
  induction l as [|a l IH]; cbn [map]; [cbn; now rewrite plus_0_l|]. rewrite !tot_cons, IH.
  rewrite <- !plus_assoc. f_equal. rewrite !plus_assoc. f_equal. apply plus_comm.
Qed.
Lemma tot_ext {A} (l : list A) f g : (forall x, In x l -> f x = g x) -> tot (map f l) = tot (map g l).
Proof. intro H. f_equal. now apply map_ext_in. Qed.
Lemma tot_single {A} (l : list A) x f : NoDup l -> In x l -> (forall y, In y l -> y <> x -> f y = zero) -> tot (map f l) = f x.
Proof.
  intros Hn Hin Hz. apply in_split in Hin as [l1 [l2 ->]].
  apply NoDup_remove in Hn as [Hn Hx]. rewrite map_app. cbn [map]. rewrite tot_app, tot_cons.
  rewrite (tot_zero l1), (tot_zero l2).
  - now rewrite plus_0_l, plus_0_r.
  - intros y Hy. apply Hz; [apply in_or_app; right; now right|]. intros ->. apply Hx. apply in_or_app. now right.
  - intros y Hy. apply Hz; [apply in_or_app; now left|]. intros ->. apply Hx. apply in_or_app. now left.
Qed.

(** ** one thread alone *)
Fixpoint solo (os : list op) (x : mem * V) : mem * V := match os with [] => x | o :: r => solo r (exec zero plus o x) end.
(** the values it adds to accumulator a *)
Fixpoint adds (os : list op) (x : mem * V) (a : addr) : list V :=
  match os with
  | [] => []
  | o :: r => (match o with AddTo d s => if addr_eqb d a then [fst x s] else [] | _ => [] end) ++ adds r (exec zero plus o x) a
  end.
Lemma solo_app os os' x : solo (os ++ os') x = solo os' (solo os x).
Proof. revert x; induction os as [|o os IH]; intro x; [reflexivity|apply IH]. Qed.
Lemma adds_app os os' x a : adds (os ++ os') x a = adds os x a ++ adds os' (solo os x) a.
Proof. revert x; induction os as [|o os IH]; intro x; [reflexivity|]. cbn [app adds solo]. rewrite IH. now rewrite app_assoc. Qed.

(** ** memory discipline: own t is only used by thread t, ro is only read, acc only added to *)
Section Disc.
Variable own : nat -> addr -> Prop.
Variable ro acc : addr -> Prop.
Hypothesis own_own : forall t u a, own t a -> own u a -> t = u.
Hypothesis own_ro : forall t a, own t a -> ro a -> False.
Hypothesis own_acc : forall t a, own t a -> acc a -> False.
Hypothesis ro_acc : forall a, ro a -> acc a -> False.
Definition readable t a := own t a \/ ro a.
Definition op_ok (t : nat) (o : op) : Prop :=
  match o with
  | Rd a | RdAdd a => readable t a
  | Wr a | Clr a => own t a
  | AddTo d s => acc d /\ readable t s
  end.
Definition prog_ok (t : nat) (os : list op) : Prop := Forall (op_ok t) os.
Definition agree (t : nat) (m m' : mem) : Prop := forall a, readable t a -> m a = m' a.

Lemma exec_agree t o m m' r : op_ok t o -> agree t m m' ->
  agree t (fst (exec zero plus o (m, r))) (fst (exec zero plus o (m', r))) /\ snd (exec zero plus o (m, r)) = snd (exec zero plus o (m', r)).
Proof.
  intros Ho Ha. destruct o as [a|a|a|a|d s]; cbn [exec fst snd op_ok] in *.
  - split; auto.
  - split; auto. now rewrite Ha.
  - split; [|reflexivity]. intros x Hx. unfold put. destruct (addr_eqb x a); auto.
  - split; [|reflexivity]. intros x Hx. unfold put. destruct (addr_eqb x a); auto.
  - split; [|reflexivity]. intros x Hx. destruct Ho as [Hd Hs].
    assert (x <> d). { intros ->. destruct Hx as [H|H]; [eapply own_acc|eapply ro_acc]; eauto. }
    rewrite !put_neq by auto. auto.
Qed.
Lemma solo_agree t os m m' r : prog_ok t os -> agree t m m' ->
  agree t (fst (solo os (m, r))) (fst (solo os (m', r))) /\ (forall a, adds os (m, r) a = adds os (m', r) a).
Proof.
  revert m m' r; induction os as [|o os IH]; intros m m' r Ho Ha; cbn [solo adds]; [split; auto|].
  apply Forall_cons_iff in Ho as [Ho Hos].
  destruct (exec_agree t o m m' r Ho Ha) as [H1 H2].
  destruct (exec zero plus o (m, r)) as [m1 r1] eqn:E1, (exec zero plus o (m', r)) as [m2 r2] eqn:E2. cbn [fst snd] in *. subst r2.
  destruct (IH m1 m2 r1 Hos H1) as [IH1 IH2]. split; auto. intro a. rewrite IH2. f_equal.
  destruct o as [b|b|b|b|d s]; auto. cbn [op_ok] in Ho. rewrite (Ha s) by tauto. reflexivity.
Qed.
(** a step of another thread is not seen *)
Lemma exec_other t u o m r : t <> u -> op_ok u o -> agree t m (fst (exec zero plus o (m, r))).
Proof.
  intros Hn Ho a Ha. destruct o as [b|b|b|b|d s]; cbn [exec fst op_ok] in *; auto;
    rewrite put_neq; auto; intros ->.
  - destruct Ha as [Ha|Ha]; [apply Hn; eapply own_own; eauto|eapply own_ro; eauto].
  - destruct Ha as [Ha|Ha]; [apply Hn; eapply own_own; eauto|eapply own_ro; eauto].
  - destruct Ha as [Ha|Ha]; [eapply own_acc|eapply ro_acc]; try exact Ha; tauto.
Qed.
(** memory owned by nobody and no accumulator *)
Lemma exec_ro t o m r a : op_ok t o -> ~ own t a -> ~ acc a -> fst (exec zero plus o (m, r)) a = m a.
Proof.
  intros Ho Hn Ha. destruct o as [b|b|b|b|d s]; cbn [exec fst op_ok] in *; auto; rewrite put_neq; auto; intros ->; tauto.
Qed.

Definition threads_ok (ts : list (thr V)) : Prop := forall t os r, nth_error ts t = Some (os, r) -> prog_ok t os.
Definition contributions (ts : list (thr V)) (m : mem) (a : addr) : V :=
  tot (map (fun x => tot (adds (fst x) (m, snd x) a)) ts).

Lemma tot_upd (l : list (thr V)) (t : nat) x y (f g : thr V -> V) (v : V) : nth_error l t = Some x ->
  (forall u z, u <> t -> nth_error l u = Some z -> f z = g z) -> f x = plus v (g y) ->
  tot (map f l) = plus v (tot (map g (upd t y l))).
Proof.
  revert t. induction l as [|z l IH]; intros [|t] Hx Ho Hv; cbn in Hx; try discriminate.
  - inversion Hx; subst z. cbn [upd map]. rewrite !tot_cons, Hv, <- plus_assoc. f_equal. f_equal.
    apply tot_ext. intros w Hw. apply In_nth_error in Hw as [u Hu]. apply (Ho (S u)); [lia|exact Hu].
  - cbn [upd map]. rewrite !tot_cons. rewrite (IH t Hx) by (auto; intros u w Hu Hw; apply (Ho (S u)); auto).
    rewrite (Ho 0 z) by (cbn; auto). rewrite !plus_assoc. f_equal. apply plus_comm.
Qed.

Theorem schedule_irrelevant (sched : list nat) (ts : list (thr V)) (m : mem) m' ts' :
  threads_ok ts -> fold_left (step zero plus) sched (m, ts) = (m', ts') -> all_done ts' = true ->
  (forall t os r a, nth_error ts t = Some (os, r) -> own t a -> m' a = fst (solo os (m, r)) a) /\
  (forall a, (forall t, t < length ts -> ~ own t a) -> ~ acc a -> m' a = m a) /\
  (forall a, acc a -> m' a = plus (m a) (contributions ts m a)).
Proof.
  revert ts m. induction sched as [|t sched IH]; intros ts m Hok Hrun Hdone; cbn [fold_left] in Hrun.
  - inversion Hrun; subst m' ts'. unfold all_done in Hdone. rewrite forallb_forall in Hdone.
    split; [|split]; auto.
    + intros t os r a Ht _. apply nth_error_In in Ht. apply Hdone in Ht. cbn [fst] in Ht. destruct os; [reflexivity|discriminate].
    + intros a Ha. unfold contributions. rewrite tot_zero; [now rewrite plus_0_r|].
      intros [os r] Hx. apply Hdone in Hx. cbn [fst snd] in *. destruct os; [reflexivity|discriminate].
  - unfold step in Hrun at 2. destruct (nth_error ts t) as [[[|o os] r]|] eqn:Et; [apply (IH ts m); auto| |apply (IH ts m); auto].
    destruct (exec zero plus o (m, r)) as [m1 r1] eqn:Ee.
    assert (Ho : prog_ok t (o :: os)) by (eapply Hok; eauto). apply Forall_cons_iff in Ho as [Ho Hos].
    assert (Hlt : t < length ts) by (apply nth_error_Some; congruence).
    assert (Hok' : threads_ok (upd t (os, r1) ts)).
    { intros u os' r' Hu. destruct (Nat.eq_dec t u) as [->|Hne].
      - rewrite nth_upd_same in Hu; [inversion Hu; subst; auto|exact Hlt].
      - rewrite nth_upd_other in Hu by auto. eapply Hok; eauto. }
    destruct (IH _ _ Hok' Hrun Hdone) as [I1 [I2 I3]]. split; [|split].
    + intros u os' r' a Hu Ha. destruct (Nat.eq_dec t u) as [<-|Hne].
      * rewrite Et in Hu. inversion Hu; subst os' r'. cbn [solo]. rewrite Ee. apply (I1 t); auto. now rewrite nth_upd_same by auto.
      * rewrite (I1 u os' r' a) by (auto; rewrite nth_upd_other; auto).
        assert (Hag : agree u m m1) by (replace m1 with (fst (exec zero plus o (m, r))) by (now rewrite Ee); apply (exec_other u t); auto).
        destruct (solo_agree u os' m m1 r' (Hok _ _ _ Hu) Hag) as [Hs _]. symmetry. apply Hs. now left.
    + intros a Ha Hc. rewrite I2 by (auto; intros u Hu; apply Ha; now rewrite upd_length in Hu).
      replace m1 with (fst (exec zero plus o (m, r))) by now rewrite Ee. eapply exec_ro; eauto.
    + intros a Ha. rewrite I3 by auto.
      assert (Ho' : forall u z, u <> t -> nth_error ts u = Some z -> tot (adds (fst z) (m, snd z) a) = tot (adds (fst z) (m1, snd z) a)).
      { intros u [os' r'] Hu Hz. f_equal.
        assert (Hag : agree u m m1) by (replace m1 with (fst (exec zero plus o (m, r))) by (now rewrite Ee); apply (exec_other u t); auto).
        destruct (solo_agree u os' m m1 r' (Hok _ _ _ Hz) Hag) as [_ Hs]. apply Hs. }
      assert (Hstep : forall v, tot (adds (o :: os) (m, r) a) = plus v (tot (adds os (m1, r1) a)) ->
        contributions ts m a = plus v (contributions (upd t (os, r1) ts) m1 a)).
      { intros v Hv. unfold contributions.
        apply (tot_upd ts t (o :: os, r) (os, r1) (fun x => tot (adds (fst x) (m, snd x) a)) (fun x => tot (adds (fst x) (m1, snd x) a)) v Et Ho' Hv). }
      cbn [adds] in Hstep. rewrite Ee in Hstep.
      destruct o as [b|b|b|b|d s]; cbn [exec] in Ee; inversion Ee; subst m1 r1; cbn [app op_ok] in *.
      * rewrite (Hstep zero); now rewrite plus_0_l.
      * rewrite (Hstep zero); now rewrite plus_0_l.
      * rewrite put_neq by (intros ->; eapply own_acc; eauto). rewrite (Hstep zero); now rewrite plus_0_l.
      * rewrite put_neq by (intros ->; eapply own_acc; eauto). rewrite (Hstep zero); now rewrite plus_0_l.
      * destruct (addr_dec d a) as [->|Hne].
        -- rewrite put_eq. rewrite addr_eqb_refl in Hstep. rewrite (Hstep (m s)); [now rewrite plus_assoc|reflexivity].
        -- rewrite put_neq by congruence. rewrite (proj2 (addr_eqb_neq d a) Hne) in Hstep. rewrite (Hstep zero); now rewrite plus_0_l.
Qed.

(** with the programs of a parallel loop *)
Corollary parallel_result progs sched m m' :
  (forall t os, nth_error progs t = Some os -> prog_ok t os) -> parallel zero plus progs sched m = Some m' ->
  (forall t os a, nth_error progs t = Some os -> own t a -> m' a = fst (solo os (m, zero)) a) /\
  (forall a, (forall t, t < length progs -> ~ own t a) -> ~ acc a -> m' a = m a) /\
  (forall a, acc a -> m' a = plus (m a) (tot (map (fun os => tot (adds os (m, zero) a)) progs))).
Proof.
  intros Hok Hp. unfold parallel in Hp. destruct (run_threads zero plus progs sched m) as [m1 ts] eqn:E.
  destruct (all_done ts) eqn:Hd; [|discriminate]. inversion Hp; subst m1. unfold run_threads in E.
  assert (Hok' : threads_ok (map (fun os => (os, zero)) progs)).
  { intros t os r Ht. rewrite nth_error_map in Ht. destruct (nth_error progs t) as [os'|] eqn:Et; [|discriminate].
    cbn in Ht. inversion Ht; subst. eauto. }
  destruct (schedule_irrelevant sched _ m m' ts Hok' E Hd) as [H1 [H2 H3]]. split; [|split].
  - intros t os a Ht Ha. apply (H1 t os zero a); auto. now rewrite nth_error_map, Ht.
  - intros a Ha Hc. apply H2; auto. now rewrite map_length.
  - intros a Ha. rewrite H3 by auto. f_equal. unfold contributions. now rewrite map_map.
Qed.
(** the same without accumulators: nothing is assumed about the addition *)
Theorem schedule_irrelevant0 (sched : list nat) (ts : list (thr V)) (m : mem) m' ts' :
  threads_ok ts -> fold_left (step zero plus) sched (m, ts) = (m', ts') -> all_done ts' = true ->
  (forall t os r a, nth_error ts t = Some (os, r) -> own t a -> m' a = fst (solo os (m, r)) a) /\
  (forall a, (forall t, t < length ts -> ~ own t a) -> ~ acc a -> m' a = m a).
Proof using own_own own_ro own_acc ro_acc.
  clear Hm. revert ts m. induction sched as [|t sched IH]; intros ts m Hok Hrun Hdone; cbn [fold_left] in Hrun.
  - inversion Hrun; subst m' ts'. unfold all_done in Hdone. rewrite forallb_forall in Hdone.
    split; auto.
    intros t os r a Ht _. apply nth_error_In in Ht. apply Hdone in Ht. cbn [fst] in Ht. destruct os; [reflexivity|discriminate].
  - unfold step in Hrun at 2. destruct (nth_error ts t) as [[[|o os] r]|] eqn:Et; [apply (IH ts m); auto| |apply (IH ts m); auto].
    destruct (exec zero plus o (m, r)) as [m1 r1] eqn:Ee.
    assert (Ho : prog_ok t (o :: os)) by (eapply Hok; eauto). apply Forall_cons_iff in Ho as [Ho Hos].
    assert (Hlt : t < length ts) by (apply nth_error_Some; congruence).
    assert (Hok' : threads_ok (upd t (os, r1) ts)).
    { intros u os' r' Hu. destruct (Nat.eq_dec t u) as [->|Hne].
      - rewrite nth_upd_same in Hu; [inversion Hu; subst; auto|exact Hlt].
      - rewrite nth_upd_other in Hu by auto. eapply Hok; eauto. }
    destruct (IH _ _ Hok' Hrun Hdone) as [I1 I2]. split.
    + intros u os' r' a Hu Ha. destruct (Nat.eq_dec t u) as [<-|Hne].
      * rewrite Et in Hu. inversion Hu; subst os' r'. cbn [solo]. rewrite Ee. apply (I1 t); auto. now rewrite nth_upd_same by auto.
      * rewrite (I1 u os' r' a) by (auto; rewrite nth_upd_other; auto).
        assert (Hag : agree u m m1) by (replace m1 with (fst (exec zero plus o (m, r))) by (now rewrite Ee); apply (exec_other u t); auto).
        destruct (solo_agree u os' m m1 r' (Hok _ _ _ Hu) Hag) as [Hs _]. symmetry. apply Hs. now left.
    + intros a Ha Hc. rewrite I2 by (auto; intros u Hu; apply Ha; now rewrite upd_length in Hu).
      replace m1 with (fst (exec zero plus o (m, r))) by now rewrite Ee. eapply exec_ro; eauto.
Qed.
Corollary parallel_result0 progs sched m m' :
  (forall t os, nth_error progs t = Some os -> prog_ok t os) -> parallel zero plus progs sched m = Some m' ->
  (forall t os a, nth_error progs t = Some os -> own t a -> m' a = fst (solo os (m, zero)) a) /\
  (forall a, (forall t, t < length progs -> ~ own t a) -> ~ acc a -> m' a = m a).
Proof using own_own own_ro own_acc ro_acc.
  clear Hm. intros Hok Hp. unfold parallel in Hp. destruct (run_threads zero plus progs sched m) as [m1 ts] eqn:E.
  destruct (all_done ts) eqn:Hd; [|discriminate]. inversion Hp; subst m1. unfold run_threads in E.
  assert (Hok' : threads_ok (map (fun os => (os, zero)) progs)).
  { intros t os r Ht. rewrite nth_error_map in Ht. destruct (nth_error progs t) as [os'|] eqn:Et; [|discriminate].
    cbn in Ht. inversion Ht; subst. eauto. }
  destruct (schedule_irrelevant0 sched _ m m' ts Hok' E Hd) as [H1 H2]. split.
  - intros t os a Ht Ha. apply (H1 t os zero a); auto. now rewrite nth_error_map, Ht.
  - intros a Ha Hc. apply H2; auto. now rewrite map_length.
Qed.
End Disc.

(** ** every parallel loop can finish: running the threads one after another *)
Lemma step_thread t os r (m : mem) (ts : list (thr V)) : nth_error ts t = Some (os, r) ->
  fold_left (step zero plus) (repeat t (length os)) (m, ts) = (fst (solo os (m, r)), upd t ([], snd (solo os (m, r))) ts).
Proof.
  revert r m ts. induction os as [|o os IH]; intros r m ts Ht.
  - cbn. now rewrite upd_self.
  - cbn [length repeat fold_left]. unfold step at 2. rewrite Ht. cbn [solo].
    destruct (exec zero plus o (m, r)) as [m1 r1] eqn:E. rewrite (IH r1).
    + now rewrite upd_twice.
    + apply nth_upd_same. apply nth_error_Some. congruence.
Qed.
Lemma can_finish (ts : list (thr V)) (m : mem) : exists sched m' ts', fold_left (step zero plus) sched (m, ts) = (m', ts') /\ all_done ts' = true.
Proof.
  assert (H : forall k, k <= length ts -> exists sched m' ts', fold_left (step zero plus) sched (m, ts) = (m', ts') /\ length ts' = length ts /\
    forall t, t < k -> exists r, nth_error ts' t = Some ([], r)).
  { induction k as [|k IH]; intro Hk; [exists [], m, ts; repeat split; auto; lia|].
    destruct IH as [s [m1 [ts1 [E [El Hd]]]]]; [lia|].
    destruct (nth_error ts1 k) as [[os r]|] eqn:Ek; [|apply nth_error_None in Ek; lia].
    exists (s ++ repeat k (length os)), (fst (solo os (m1, r))), (upd k ([], snd (solo os (m1, r))) ts1).
    rewrite fold_left_app, E, (step_thread k os r m1 ts1 Ek). repeat split; [now rewrite upd_length|].
    intros t Ht. destruct (Nat.eq_dec k t) as [->|Hne]; [rewrite nth_upd_same by lia; eauto|].
    rewrite nth_upd_other by auto. apply Hd. lia. }
  destruct (H (length ts) (le_n _)) as [s [m' [ts' [E [El Hd]]]]]. exists s, m', ts'. split; auto.
  unfold all_done. apply forallb_forall. intros x Hx. apply In_nth_error in Hx as [t Ht].
  assert (Hlt : t < length ts') by exact (nth_lt _ _ _ Ht).
  destruct (Hd t) as [r Hr]; [now rewrite <- El|].
  assert (Hx : Some x = Some ([], r)) by (etransitivity; [symmetry; exact Ht|exact Hr]). inversion Hx. reflexivity.
Qed.
Lemma parallel_finishes progs (m : mem) : exists sched m', parallel zero plus progs sched m = Some m'.
Proof.
  destruct (can_finish (map (fun os => (os, zero)) progs) m) as [s [m' [ts [E Hd]]]]. exists s, m'.
  assert (E' : run_threads zero plus progs s m = (m', ts)) by exact E. unfold parallel. now rewrite E', Hd.
Qed.

(** every schedule that gives every thread enough turns completes *)
Lemma enough_turns (sched : list nat) (ts : list (thr V)) (m : mem) :
  (forall t os r, nth_error ts t = Some (os, r) -> length os <= count_occ Nat.eq_dec sched t) -> all_done (snd (fold_left (step zero plus) sched (m, ts))) = true.
Proof using.
  clear. revert ts m. induction sched as [|t sched IH]; intros ts m H; cbn [fold_left].
  - cbn [snd]. unfold all_done. apply forallb_forall. intros [os r] Hx. apply In_nth_error in Hx as [t Ht]. apply H in Ht. cbn in Ht. destruct os; [reflexivity|cbn in Ht; lia].
  - unfold step at 2. destruct (nth_error ts t) as [[[|o os] r]|] eqn:Et.
    + apply IH. intros u os' r' Hu. specialize (H u os' r' Hu). cbn [count_occ] in H. destruct (Nat.eq_dec t u) as [->|]; [|exact H].
      assert (X : Some (os', r') = Some ([], r)) by (etransitivity; [symmetry; exact Hu|exact Et]). inversion X. cbn. lia.
    + destruct (exec zero plus o (m, r)) as [m1 r1]. apply IH. intros u os' r' Hu.
      destruct (Nat.eq_dec t u) as [->|Hne].
      * assert (X : Some (os', r') = Some (os, r1)) by (etransitivity; [symmetry; exact Hu|]; apply nth_upd_same; exact (nth_lt _ _ _ Et)). inversion X; subst.
        specialize (H u (o :: os) r Et). cbn [count_occ length] in H. destruct (Nat.eq_dec u u); [lia|congruence].
      * assert (Hu' : nth_error ts u = Some (os', r')) by (etransitivity; [symmetry; apply nth_upd_other; exact Hne|exact Hu]).
        specialize (H u os' r' Hu'). cbn [count_occ] in H. destruct (Nat.eq_dec t u); [congruence|exact H].
    + apply IH. intros u os' r' Hu. specialize (H u os' r' Hu). cbn [count_occ] in H. destruct (Nat.eq_dec t u) as [->|]; [|exact H].
      exfalso. assert (X : Some (os', r') = None) by (etransitivity; [symmetry; exact Hu|exact Et]). discriminate.
Qed.
Lemma parallel_completes progs sched (m : mem) : (forall t, t < length progs -> length (nth t progs []) <= count_occ Nat.eq_dec sched t) ->
  exists m', parallel zero plus progs sched m = Some m'.
Proof using.
  clear Hm. intro H. unfold parallel. destruct (run_threads zero plus progs sched m) as [m' ts] eqn:E. exists m'.
  replace ts with (snd (run_threads zero plus progs sched m)) by now rewrite E. unfold run_threads. rewrite enough_turns; auto.
  intros t os r Ht. rewrite nth_error_map in Ht. destruct (nth_error progs t) as [os'|] eqn:Et; [|discriminate]. cbn in Ht. inversion Ht; subst.
  rewrite <- (nth_error_nth progs t [] Et). apply H. exact (nth_lt _ _ _ Et).
Qed.

(** ** solo runs of lists of (destination, source) pairs *)
Definition vals (l : list (addr * addr)) (m : mem) (a : addr) : list V :=
  map (fun ds => m (snd ds)) (filter (fun ds => addr_eqb (fst ds) a) l).
Lemma vals_app l l' m a : vals (l ++ l') m a = vals l m a ++ vals l' m a.
Proof. unfold vals. now rewrite filter_app, map_app. Qed.
Lemma vals_ext l m m' a : (forall d s, In (d, s) l -> m s = m' s) -> vals l m a = vals l m' a.
Proof.
  intro H. unfold vals. apply map_ext_in. intros [d s] Hi. apply filter_In in Hi as [Hi _]. cbn. eauto.
Qed.
Lemma vals_none l m a : ~ In a (map fst l) -> vals l m a = [].
Proof.
  intro H. unfold vals. induction l as [|[d s] l IH]; [reflexivity|]. cbn [filter fst].
  destruct (addr_eqb d a) eqn:E; [apply addr_eqb_eq in E; subst; exfalso; apply H; now left|].
  apply IH. intro Hi. apply H. now right.
Qed.
Lemma vals_one l m d s : NoDup (map fst l) -> In (d, s) l -> vals l m d = [m s].
Proof.
  induction l as [|[d' s'] l IH]; intros Hn Hi; [contradiction|]. cbn [map fst] in Hn. apply NoDup_cons_iff in Hn as [Hn1 Hn2].
  unfold vals in *. cbn [filter fst]. destruct Hi as [Hi|Hi].
  - inversion Hi; subst. rewrite addr_eqb_refl. cbn [map snd]. f_equal. now apply (vals_none l m d).
  - destruct (addr_eqb d' d) eqn:E; [|now apply IH]. apply addr_eqb_eq in E; subst. exfalso. apply Hn1. apply (in_map fst) in Hi. exact Hi.
Qed.

(** a cell accumulates what is addressed to it, a source is cleared *)
Definition accumulated (l : list (addr * addr)) (m : mem) (a : addr) : V :=
  if existsb (fun ds => addr_eqb (snd ds) a) l then zero else plus (m a) (tot (vals l m a)).
Definition pairs_ok (l : list (addr * addr)) : Prop := NoDup (map snd l) /\ forall d, In d (map fst l) -> ~ In d (map snd l).
Lemma existsb_snd (l : list (addr * addr)) a : existsb (fun ds => addr_eqb (snd ds) a) l = true <-> In a (map snd l).
Proof.
  rewrite existsb_exists, in_map_iff. split.
  - intros [x [Hx E]]. apply addr_eqb_eq in E. eauto.
  - intros [x [E Hx]]. exists x. split; auto. now apply addr_eqb_eq.
Qed.
Lemma existsb_snd_false (l : list (addr * addr)) a : existsb (fun ds => addr_eqb (snd ds) a) l = false <-> ~ In a (map snd l).
Proof. rewrite <- existsb_snd. destruct (existsb _ l); intuition congruence. Qed.
Lemma pairs_ok_cons d s l : pairs_ok ((d, s) :: l) -> pairs_ok l /\ d <> s /\ ~ In s (map snd l) /\ ~ In s (map fst l) /\ ~ In d (map snd l).
Proof.
  intros [H1 H2]. cbn [map fst snd] in *. apply NoDup_cons_iff in H1 as [H1a H1b].
  repeat split; auto.
  - intros x Hx Hs. apply (H2 x); [now right|now right].
  - intros ->. apply (H2 s); now left.
  - intro Hs. apply (H2 s); [now right|now left].
  - intro Hd. apply (H2 d); [now left|now right].
Qed.
Lemma solo_current l m r a : pairs_ok l -> fst (solo (current_ops l) (m, r)) a = accumulated l m a.
Proof.
  revert m r a. induction l as [|[d s] l IH]; intros m r a Hok.
  - unfold accumulated, vals. cbn. now rewrite plus_0_r.
  - apply pairs_ok_cons in Hok as [Hok [Hds [Hs1 [Hs2 Hd]]]].
    cbn [current_ops flat_map app solo exec fst snd]. fold (current_ops l). rewrite IH by auto.
    set (m1 := put s zero (put d (plus (m d) (m s)) m)). unfold accumulated. cbn [existsb snd].
    assert (Hv : vals l m1 a = vals l m a).
    { apply vals_ext. intros d' s' Hi. apply (in_map snd) in Hi. cbn in Hi. unfold m1.
      rewrite !put_neq; [reflexivity|intros ->|intros ->]; contradiction. }
    destruct (existsb (fun ds => addr_eqb (snd ds) a) l) eqn:Ex; [now rewrite orb_true_r|rewrite orb_false_r].
    destruct (addr_eqb s a) eqn:Es.
    + apply addr_eqb_eq in Es. subst a. rewrite Hv, vals_none by auto. unfold m1. rewrite put_eq. apply plus_0_r.
    + apply addr_eqb_neq in Es. rewrite Hv. unfold m1. rewrite put_neq by auto. unfold vals. cbn [filter fst].
      destruct (addr_eqb d a) eqn:Ed.
      * apply addr_eqb_eq in Ed. subst a. rewrite put_eq. cbn [map snd]. rewrite tot_cons. now rewrite plus_assoc.
      * apply addr_eqb_neq in Ed. rewrite put_neq by auto. reflexivity.
Qed.
Lemma solo_guard l m r a : NoDup (map fst l) -> (forall d, In d (map fst l) -> ~ In d (map snd l)) ->
  fst (solo (guard_ops l) (m, r)) a = match find (fun ds => addr_eqb (fst ds) a) l with Some ds => m (snd ds) | None => m a end.
Proof.
  revert m r. induction l as [|[d s] l IH]; intros m r Hn Hd; [reflexivity|].
  cbn [map fst] in *. apply NoDup_cons_iff in Hn as [Hn1 Hn2].
  cbn [guard_ops flat_map app solo exec fst snd]. fold (guard_ops l).
  rewrite IH; [|auto|intros x Hx Hy; apply (Hd x); [now right|now right]].
  cbn [find fst]. destruct (addr_eqb d a) eqn:E.
  - apply addr_eqb_eq in E. subst a. destruct (find _ l) as [[d' s']|] eqn:Ef; [|now rewrite put_eq].
    apply find_some in Ef as [Hi He]. apply addr_eqb_eq in He. cbn in He. subst d'.
    exfalso. apply Hn1. apply (in_map fst) in Hi. exact Hi.
  - apply addr_eqb_neq in E. destruct (find _ l) as [[d' s']|] eqn:Ef; [|now rewrite put_neq by auto].
    cbn [snd]. rewrite put_neq; [reflexivity|]. intros ->. apply find_some in Ef as [Hi _]. apply (in_map snd) in Hi.
    apply (Hd d); [now left|now right].
Qed.
Lemma solo_pack l m r a : NoDup (map fst l) -> pairs_ok l ->
  fst (solo (pack_ops l) (m, r)) a =
  match find (fun ds => addr_eqb (fst ds) a) l with Some ds => m (snd ds) | None => if existsb (fun ds => addr_eqb (snd ds) a) l then zero else m a end.
Proof.
  revert m r. induction l as [|[d s] l IH]; intros m r Hn Hok; [reflexivity|].
  cbn [map fst] in Hn. apply NoDup_cons_iff in Hn as [Hn1 Hn2]. apply pairs_ok_cons in Hok as [Hok [Hds [Hs1 [Hs2 Hd]]]].
  cbn [pack_ops flat_map app solo exec fst snd]. fold (pack_ops l). rewrite IH by auto. cbn [find fst existsb snd].
  destruct (addr_eqb d a) eqn:E.
  - apply addr_eqb_eq in E. subst a. destruct (find _ l) as [[d' s']|] eqn:Ef.
    { apply find_some in Ef as [Hi He]. apply addr_eqb_eq in He. cbn in He. subst d'. exfalso. apply Hn1. apply (in_map fst) in Hi. exact Hi. }
    rewrite (proj2 (existsb_snd_false l d) Hd). rewrite put_neq by auto. apply put_eq.
  - apply addr_eqb_neq in E. destruct (find _ l) as [[d' s']|] eqn:Ef.
    + cbn [snd]. apply find_some in Ef as [Hi _]. apply (in_map snd) in Hi. cbn in Hi.
      rewrite !put_neq; [reflexivity|intros ->|intros ->]; contradiction.
    + destruct (existsb (fun ds => addr_eqb (snd ds) a) l) eqn:Ex; [now rewrite orb_true_r|rewrite orb_false_r].
      destruct (addr_eqb s a) eqn:Es; [apply addr_eqb_eq in Es; subst; apply put_eq|].
      apply addr_eqb_neq in Es. now rewrite !put_neq by auto.
Qed.
Lemma adds_current l x a : adds (current_ops l) x a = [].
Proof. revert x; induction l as [|[d s] l IH]; intro x; [reflexivity|]. apply IH. Qed.
Lemma adds_guard l x a : adds (guard_ops l) x a = [].
Proof. revert x; induction l as [|[d s] l IH]; intro x; [reflexivity|]. apply IH. Qed.
Lemma adds_pack l x a : adds (pack_ops l) x a = [].
Proof. revert x; induction l as [|[d s] l IH]; intro x; [reflexivity|]. apply IH. Qed.
Lemma adds_unpack l m r a : (forall d, In d (map fst l) -> ~ In d (map snd l)) -> adds (unpack_atomic l) (m, r) a = vals l m a.
Proof.
  revert m. induction l as [|[d s] l IH]; intros m Hd; [reflexivity|].
  cbn [unpack_atomic map adds exec fst snd]. fold (unpack_atomic l).
  rewrite IH by (intros x Hx Hy; apply (Hd x); [now right|now right]).
  unfold vals at 2. cbn [filter fst].
  assert (Hv : vals l (put d (plus (m d) (m s)) m) a = vals l m a).
  { apply vals_ext. intros d' s' Hi. rewrite put_neq; [reflexivity|]. intros ->. apply (in_map snd) in Hi. apply (Hd d); [now left|now right]. }
  rewrite Hv. destruct (addr_eqb d a); reflexivity.
Qed.

(** accumulating moves values: the sum over a set of cells containing all of them does not change *)
Lemma split2 (A : list addr) d s : NoDup A -> In d A -> In s A -> d <> s -> exists B, Permutation A (d :: s :: B) /\ ~ In d B /\ ~ In s B.
Proof.
  intros Hn Hd Hs Hne. apply in_split in Hd as [l1 [l2 E]].
  assert (P1 : Permutation A (d :: l1 ++ l2)) by (rewrite E; symmetry; apply Permutation_middle).
  assert (Hn1 : NoDup (d :: l1 ++ l2)) by (eapply Permutation_NoDup; eauto). apply NoDup_cons_iff in Hn1 as [Hd1 Hn1].
  assert (Hs1 : In s (l1 ++ l2)). { apply (Permutation_in _ P1) in Hs. destruct Hs as [Hs|Hs]; [contradiction|auto]. }
  apply in_split in Hs1 as [l3 [l4 E2]].
  assert (P2 : Permutation (l1 ++ l2) (s :: l3 ++ l4)) by (rewrite E2; symmetry; apply Permutation_middle).
  exists (l3 ++ l4). split; [rewrite P1; constructor; exact P2|].
  split; [intro H; apply Hd1; apply (Permutation_in _ (Permutation_sym P2)); now right|].
  assert (Hn2 : NoDup (s :: l3 ++ l4)) by (eapply Permutation_NoDup; eauto). now apply NoDup_cons_iff in Hn2.
Qed.
Lemma accumulated_total l m A : pairs_ok l -> NoDup A -> incl (map fst l) A -> incl (map snd l) A ->
  tot (map (accumulated l m) A) = tot (map m A).
Proof.
  intros Hok Hn Hf Hs.
  transitivity (tot (map (fst (solo (current_ops l) (m, zero))) A)).
  { apply tot_ext. intros a _. symmetry. now apply solo_current. }
  enough (H : forall r, tot (map (fst (solo (current_ops l) (m, r))) A) = tot (map m A)) by apply H.
  revert m. induction l as [|[d s] l IH]; intros m r; [reflexivity|].
  apply pairs_ok_cons in Hok as [Hok [Hds _]].
  cbn [current_ops flat_map app solo exec fst snd]. fold (current_ops l). rewrite IH; auto.
  - destruct (split2 A d s) as [B [P [Hd1 Hs1]]]; [auto|apply Hf; now left|apply Hs; now left|auto|].
    rewrite (tot_perm _ _ (Permutation_map (put s zero (put d (plus (m d) (m s)) m)) P)), (tot_perm _ _ (Permutation_map m P)).
    cbn [map]. rewrite !tot_cons, put_eq. rewrite (put_neq s d) by auto. rewrite put_eq, plus_0_l, <- plus_assoc. f_equal. f_equal.
    apply tot_ext. intros y Hy. rewrite !put_neq; [reflexivity|intros ->|intros ->]; contradiction.
  - intros x Hx. apply Hf. now right.
  - intros x Hx. apply Hs. now right.
Qed.
End Th.
