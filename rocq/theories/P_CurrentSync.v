(** Proofs about the synchronisation of currents within a step. *)
From Verif Require Import Base M_Layout S_Layout M_PartSync S_PartSync M_FieldSync S_FieldSync P_PartSync P_Threads P_FieldGeo P_FieldPar P_FieldSync P_FieldSync2 P_FieldSync3 P_FieldSync4 P_FieldSync5 M_CurrentSync S_CurrentSync.
Local Open Scope nat_scope.

Section Lin.
Context {V : Type} (zero : V) (plus : V -> V -> V).
Hypothesis Hm : monoid zero plus.
Notation acc := (accumulated zero plus).
Notation tot := (total zero plus).

Lemma swap4 a b c d : plus (plus a b) (plus c d) = plus (plus a c) (plus b d).
Proof.
  destruct Hm as (H0 & H1 & H2). rewrite <- !H2. f_equal. rewrite !H2. f_equal. apply H1.
Qed.
Lemma zero_l x : plus zero x = x.
Proof. destruct Hm as (H0 & H1 & H2). now rewrite H1. Qed.
Lemma total_add {A} (f g : A -> V) l : tot (map (fun x => plus (f x) (g x)) l) = plus (tot (map f l)) (tot (map g l)).
Proof.
  induction l as [|x l IH]; cbn [map]; unfold total in *; cbn [fold_right]; [symmetry; apply Hm|]. rewrite IH. apply swap4.
Qed.
Lemma acc_add l m1 m2 a : acc l (fun x => plus (m1 x) (m2 x)) a = plus (acc l m1 a) (acc l m2 a).
Proof.
  unfold accumulated. destruct (existsb _ l); [symmetry; apply Hm|]. unfold vals.
  rewrite (total_add (fun ds => m1 (snd ds)) (fun ds => m2 (snd ds))). apply swap4.
Qed.
Lemma acc_zero l a : acc l (fun _ => zero) a = zero.
Proof.
  unfold accumulated. destruct (existsb _ l); [reflexivity|]. rewrite total_zero; [apply Hm|exact Hm|].
  intros x Hx. unfold vals in Hx. apply in_map_iff in Hx as (ds & <- & _). reflexivity.
Qed.
Lemma exchange_local_acc l : forall m a, pairs_ok l -> exchange_local zero plus l m a = acc l m a.
Proof.
  intros m a Hok. rewrite <- (solo_current zero plus Hm l m zero a Hok). clear Hok. revert a. generalize zero at 3 as r. revert m.
  induction l as [|[d s] l IH]; intros m r a; [reflexivity|].
  cbn [exchange_local fold_left fst snd current_ops flat_map app]. unfold exchange_local in IH. unfold solo. cbn [fold_left exec].
  etransitivity; [apply (IH _ (plus (m d) (m s)))|]. reflexivity.
Qed.
Lemma deliver_eq h : forall m a, deliver plus h m a = plus (m a) (tot (map snd (filter (fun dv => addr_eqb (fst dv) a) h))).
Proof.
  induction h as [|[d v] h IH]; intros m a; cbn [deliver fold_left filter map]; [symmetry; apply Hm|].
  unfold deliver in IH. rewrite IH. cbn [fst snd]. unfold put. destruct (addr_eqb a d) eqn:E.
  - apply addr_eqb_eq in E. subst. rewrite addr_eqb_refl. cbn [map snd]. unfold total. cbn [fold_right]. destruct Hm as (H0 & H1 & H2). now rewrite H2.
  - destruct (addr_eqb d a) eqn:E'; [apply addr_eqb_eq in E'; subst; rewrite addr_eqb_refl in E; discriminate|]. reflexivity.
Qed.
Lemma cleared_eq l : forall (m : addr -> V) a, cleared zero l m a = if existsb (fun ds => addr_eqb (snd ds) a) l then zero else m a.
Proof.
  induction l as [|[d s] l IH]; intros m a; cbn [cleared fold_left existsb]; [reflexivity|]. unfold cleared in IH. rewrite IH. cbn [snd].
  unfold put. destruct (existsb _ l); [now rewrite orb_true_r|]. rewrite orb_false_r. destruct (addr_eqb a s) eqn:E.
  - apply addr_eqb_eq in E. subst. now rewrite addr_eqb_refl.
  - destruct (addr_eqb s a) eqn:E'; [apply addr_eqb_eq in E'; subst; rewrite addr_eqb_refl in E; discriminate|]. reflexivity.
Qed.
Lemma filter_packed l (m : addr -> V) a : map snd (filter (fun dv => addr_eqb (fst dv) a) (packed l m)) = vals l m a.
Proof.
  unfold vals, packed. induction l as [|[d s] l IH]; [reflexivity|]. cbn [map filter fst snd]. destruct (addr_eqb d a); cbn [map snd]; now rewrite IH.
Qed.
Lemma deliver_packed l m a : pairs_ok l -> deliver plus (packed l m) (cleared zero l m) a = acc l m a.
Proof.
  intro Hok. rewrite deliver_eq, cleared_eq, filter_packed. unfold accumulated. destruct (existsb _ l) eqn:E; [|reflexivity].
  rewrite vals_none; [apply Hm|]. apply existsb_snd in E. intro H. exact (proj2 Hok a H E).
Qed.
Lemma deliver_ext h m m' a : (forall x, m x = m' x) -> deliver plus h m a = deliver plus h m' a.
Proof. intro H. rewrite !deliver_eq. now rewrite H. Qed.

Variables (loc rem : list (addr * addr)) (single : bool).
Hypothesis Hok : pairs_ok (loc ++ rem).
Hypothesis Hs : single = true -> rem = [].
Notation E := (acc (loc ++ rem)).
Notation start := (sync_start zero plus loc rem single).
Notation wait := (sync_wait plus).
Notation sync := (sync_currents zero plus loc rem single).
Notation cb := (callback zero plus loc rem single).
Notation ev := (do_event zero plus loc rem single).

Lemma ok_loc : pairs_ok loc.
Proof using Hok.
  destruct Hok as [H1 H2]. rewrite map_app in H1. split.
  - clear - H1. induction (map snd loc) as [|x l IH]; [constructor|]. cbn in H1. apply NoDup_cons_iff in H1 as [Hx H1]. constructor; auto. intro; apply Hx. apply in_or_app. now left.
  - intros d Hd Hd'. apply (H2 d); rewrite map_app; apply in_or_app; now left.
Qed.
Lemma ok_rem : pairs_ok rem.
Proof using Hok.
  destruct Hok as [H1 H2]. rewrite map_app in H1. split.
  - clear - H1. induction (map snd loc) as [|x l IH]; [exact H1|]. cbn in H1. apply NoDup_cons_iff in H1 as [Hx H1]. auto.
  - intros d Hd Hd'. apply (H2 d); rewrite map_app; apply in_or_app; now right.
Qed.
Lemma E_ext m m' a : (forall x, m x = m' x) -> E m a = E m' a.
Proof. apply accumulated_ext. Qed.

(** [D]: everything deposited since the reset *)
Definition inv (D : addr -> V) (st : state) : Prop :=
  match pending st with
  | None => (forall a, E (cur st) a = E D a) /\ (synced st = true -> forall a, cur st a = E D a)
  | Some h => synced st = false /\ forall a, deliver plus h (cur st) a = E D a
  end.
Definition closed (st : @state V) : Prop := pending st = None.

Lemma inv_start D st : inv D st -> inv D (start st).
Proof using Hm Hok Hs.
  intro H. unfold sync_start. destruct (synced st) eqn:Es; [exact H|]. destruct (pending st) as [h|] eqn:Ep; [exact H|].
  unfold inv in H. rewrite Ep in H. destruct H as [H _].
  assert (M1 : forall a, exchange_local zero plus loc (cur st) a = acc loc (cur st) a) by (intro a; apply exchange_local_acc, ok_loc).
  assert (M2 : forall a, acc rem (exchange_local zero plus loc (cur st)) a = E (cur st) a).
  { intro a. rewrite (accumulated_ext zero plus rem _ _ a M1). now apply accumulated_twice. }
  destruct single eqn:Eg.
  - unfold inv. cbn [pending cur synced]. specialize (Hs eq_refl).
    assert (M : forall a, exchange_local zero plus loc (cur st) a = E D a).
    { intro a. rewrite <- H, M1. rewrite Hs. now rewrite app_nil_r. }
    split; [|auto]. intro a. rewrite (E_ext _ _ a M). apply accumulated_idem; auto.
  - unfold inv. cbn [pending cur synced]. split; auto. intro a. rewrite deliver_packed by apply ok_rem. now rewrite M2.
Qed.
Lemma inv_wait D st : inv D st -> inv D (wait st).
Proof using Hm Hok.
  intro H. unfold sync_wait. destruct (pending st) as [h|] eqn:Ep; [|exact H]. unfold inv in *. rewrite Ep in H. destruct H as [_ H].
  cbn [pending cur synced]. split; auto. intro a. rewrite (E_ext _ _ a H). apply accumulated_idem; auto.
Qed.
Lemma closed_wait (st : @state V) : closed (wait st).
Proof. unfold closed, sync_wait. destruct (pending st) eqn:Ep; auto. Qed.
Lemma inv_sync D st : inv D st -> inv D (sync st) /\ closed (sync st) /\ synced (sync st) = true /\ forall a, cur (sync st) a = E D a.
Proof using Hm Hok Hs.
  intro H. unfold sync_currents. destruct (synced st) eqn:Es.
  - unfold inv in H. destruct (pending st) eqn:Ep; [destruct H; congruence|]. destruct H as [H1 H2]. split; [unfold inv; rewrite Ep; auto|]. split; auto.
  - pose proof (inv_wait D _ (inv_start D st H)) as Hi. split; auto. pose proof (closed_wait (start st)) as Hc. split; auto.
    assert (Hy : synced (wait (start st)) = true).
    { unfold sync_wait, sync_start. rewrite Es. destruct (pending st) eqn:Ep; [now rewrite Ep|]. destruct single; reflexivity. }
    split; auto. unfold inv in Hi. rewrite Hc in Hi. now apply Hi.
Qed.
Lemma inv_call D st c : inv D st -> inv D (do_call zero plus loc rem single st c).
Proof using Hm Hok Hs. intro H. destruct c; cbn [do_call]; [now apply inv_sync|now apply inv_start|now apply inv_wait]. Qed.
Lemma inv_callback D cs : forall st, inv D st -> inv D (cb st cs).
Proof using Hm Hok Hs. induction cs as [|c cs IH]; intros st H; cbn; auto. apply IH. now apply inv_call. Qed.
Lemma closed_callback D cs : forall st, finishes cs -> inv D st -> closed st -> closed (cb st cs).
Proof using Hm Hok Hs.
  intros st F H Hc. destruct cs as [|c0 cs0] using rev_ind; [exact Hc|]. clear IHcs0. unfold finishes in F. rewrite last_last in F.
  unfold callback. rewrite fold_left_app. cbn [fold_left]. fold (cb st cs0). destruct c0; cbn [do_call]; [|congruence|apply closed_wait].
  apply (inv_sync D). now apply inv_callback.
Qed.
Lemma inv_deposit D st d : inv D st -> closed st -> inv (fun a => plus (D a) (d a)) (deposit plus st d) /\ closed (deposit plus st d).
Proof using Hm.
  intros H Hc. split; [|exact Hc]. unfold inv, deposit in *. cbn [pending cur synced]. rewrite Hc in *. destruct H as [H _]. split; [|discriminate].
  intro a. rewrite !acc_add. now rewrite H.
Qed.
Lemma inv_reset (st : @state V) : closed st -> inv (fun _ => zero) (reset zero st) /\ closed (reset zero st).
Proof. intro Hc. split; [|exact Hc]. unfold inv, reset. cbn [pending cur synced]. rewrite Hc. split; [auto|discriminate]. Qed.

Lemma inv_ext D D' st : (forall a, D a = D' a) -> inv D st -> inv D' st.
Proof.
  intros HD H. unfold inv in *. destruct (pending st).
  - destruct H as [H1 H2]. split; auto. intro a. rewrite H2. now apply E_ext.
  - destruct H as [H1 H2]. split; [intro a; rewrite H1; now apply E_ext|]. intros Hy a. rewrite H2 by auto. now apply E_ext.
Qed.
Lemma inv_events es : forall D st, all_finish es -> inv D st -> closed st ->
  inv (fun a => plus (D a) (deposited_sum zero plus es a)) (fold_left ev es st) /\ closed (fold_left ev es st).
Proof using Hm Hok Hs.
  induction es as [|e es IH]; intros D st F H Hc; cbn [fold_left].
  - split; auto. eapply inv_ext; [|exact H]. intro a. unfold deposited_sum. cbn. symmetry. apply Hm.
  - assert (F' : all_finish es) by (intros cs Hcs; apply F; now right). destruct e as [d|cs]; cbn [do_event].
    + destruct (inv_deposit D st d H Hc) as [H' Hc']. destruct (IH _ _ F' H' Hc') as [H'' Hc'']. split; auto. eapply inv_ext; [|exact H''].
      intro a. unfold deposited_sum. cbn [flat_map app]. unfold total. cbn [fold_right]. symmetry. apply Hm.
    + destruct (IH D (cb st cs) F') as [H'' Hc'']; [now apply inv_callback|apply (closed_callback D); auto; apply F; now left|].
      split; auto.
Qed.
Theorem before_fields_ok st es : pending st = None -> all_finish es ->
  let st' := before_fields zero plus loc rem single st es in
  pending st' = None /\ synced st' = true /\ forall a, cur st' a = E (deposited_sum zero plus es) a.
Proof using Hm Hok Hs.
  intros Hc F st'. destruct (inv_reset st Hc) as [H0 Hc0]. destruct (inv_events es _ _ F H0 Hc0) as [H1 Hc1].
  set (s1 := fold_left ev es (reset zero st)) in *.
  assert (X : st' = sync s1).
  { unfold st', before_fields. fold s1. unfold sync_currents. destruct (synced s1) eqn:Ey; auto. unfold sync_start. rewrite Ey. unfold sync_wait. now rewrite Hc1. }
  destruct (inv_sync _ s1 H1) as (_ & Hp & Hy & Hv). rewrite X. repeat split; auto. intro a. rewrite Hv. apply E_ext. intro x. apply zero_l.
Qed.
(** callbacks that synchronise are invisible at the end of the step *)
Theorem calls_invisible st es : pending st = None -> all_finish es ->
  forall a, cur (before_fields zero plus loc rem single st es) a =
            cur (before_fields zero plus loc rem single st (filter (fun e => match e with Deposits _ => true | Calls _ => false end) es)) a.
Proof using Hm Hok Hs.
  intros Hc F a. destruct (before_fields_ok st es Hc F) as (_ & _ & ->).
  destruct (before_fields_ok st (filter (fun e => match e with Deposits _ => true | Calls _ => false end) es) Hc) as (_ & _ & ->).
  { intros cs Hi. apply filter_In in Hi as [_ Hi]. discriminate. }
  apply E_ext. intro x. unfold deposited_sum. f_equal. clear. induction es as [|[d|cs] es IH]; cbn [filter flat_map app]; auto. now rewrite IH.
Qed.
(** what a callback sees when [sync_currents] returns *)
Theorem sync_sees st es cs : pending st = None -> all_finish es ->
  let st' := fold_left ev (es ++ [Calls (cs ++ [Sync])]) (reset zero st) in
  forall a, cur st' a = E (deposited_sum zero plus es) a.
Proof using Hm Hok Hs.
  intros Hc F st' a. destruct (inv_reset st Hc) as [H0 Hc0]. destruct (inv_events es _ _ F H0 Hc0) as [H1 Hc1].
  unfold st'. rewrite fold_left_app. cbn [fold_left do_event]. unfold callback. rewrite fold_left_app. cbn [fold_left do_call].
  apply (inv_callback _ cs) in H1. destruct (inv_sync _ _ H1) as (_ & _ & _ & Hv). unfold callback in Hv. rewrite Hv. apply E_ext. intro x. apply zero_l.
Qed.
(** a start and a wait in a row are one whole exchange *)
Theorem start_wait m : forall a, cur (wait (start (State m false None))) a = E m a.
Proof using Hm Hok Hs.
  intro a. assert (H : inv m (State m false None)) by (unfold inv; cbn; split; [auto|discriminate]).
  change (wait (start (State m false None))) with (sync (State m false None)). now apply inv_sync.
Qed.

(** ** species density *)
Variables (minus : V -> V -> V) (per_charge : V -> V).
Hypothesis Hu : undoes plus minus.
Notation loop := (species_loop zero plus loc rem single minus per_charge).
Notation dcall := (density_call zero plus loc rem single minus per_charge).

(** one species: the state seen by the density output *)
Lemma inv_turn D st (t : turn) : finishes (inner t) /\ finishes (earlier t) /\ finishes (later t) -> inv D st -> closed st ->
  let s := cb (deposit plus (cb st (inner t)) (share t)) (earlier t) in
  inv (fun a => plus (D a) (share t a)) s /\ closed s.
Proof using Hm Hok Hs.
  intros (F1 & F2 & _) H Hc s. pose proof (inv_callback D (inner t) st H) as H1. pose proof (closed_callback D (inner t) st F1 H Hc) as Hc1.
  destruct (inv_deposit D _ (share t) H1 Hc1) as [H2 Hc2]. split; [now apply inv_callback|]. eapply closed_callback; eauto.
Qed.
Lemma dcall_state D target i s o s' o' : inv D s -> closed s -> dcall target i s o = Some (s', o') -> inv D s' /\ closed s'.
Proof using Hm Hok Hs.
  intros H Hc Hd. assert (A : inv D (sync s) /\ closed (sync s)) by (destruct (inv_sync D s H) as (? & ? & _); auto). unfold density_call in Hd.
  destruct target as [|before].
  - destruct i; inversion Hd; subst; auto.
  - destruct (Nat.eqb i before); [inversion Hd; subst; auto|]. destruct (Nat.eqb i (S before)); [|inversion Hd; subst; auto].
    destruct (prev_rho o); inversion Hd; subst; auto.
Qed.
(** species after the target leave the output alone *)
Lemma loop_after target ts : forall i st o D, target < i -> turns_finish ts -> inv D st -> closed st -> exists st', loop target i ts st o = Some (st', o).
Proof using Hm Hok Hs.
  induction ts as [|t ts IH]; intros i st o D Hi F H Hc; cbn [species_loop]; [eauto|]. apply Forall_cons_iff in F as [Ft F].
  destruct (enabled t); [|eapply IH; eauto; lia].
  destruct (inv_turn D st t Ft H Hc) as [H1 Hc1]. set (s := cb (deposit plus (cb st (inner t)) (share t)) (earlier t)) in *.
  assert (Ed : dcall target i s o = Some (s, o)).
  { unfold density_call. destruct target as [|b]; [destruct i; [lia|reflexivity]|].
    destruct (Nat.eqb_spec i b); [lia|]. destruct (Nat.eqb_spec i (S b)); [lia|reflexivity]. }
  rewrite Ed. destruct (IH (S i) (cb s (later t)) o _ ltac:(lia) F (inv_callback _ (later t) s H1)) as [st' ->]; eauto.
  eapply closed_callback; eauto. apply Ft.
Qed.
(** species well before the target too *)
Lemma loop_before target ts : forall i st o D, i + length ts < target -> turns_finish ts -> inv D st -> closed st ->
  forall rest, exists st' D', loop target i (ts ++ rest) st o = loop target (i + length ts) rest st' o /\ inv D' st' /\ closed st'.
Proof using Hm Hok Hs.
  induction ts as [|t ts IH]; intros i st o D Hi F H Hc rest; cbn [species_loop app length].
  - exists st, D. now rewrite Nat.add_0_r.
  - cbn [length] in Hi. apply Forall_cons_iff in F as [Ft F]. replace (i + S (length ts)) with (S i + length ts) in * by lia.
    destruct (enabled t); [|eapply IH; eauto].
    destruct (inv_turn D st t Ft H Hc) as [H1 Hc1]. set (s := cb (deposit plus (cb st (inner t)) (share t)) (earlier t)) in *.
    assert (Ed : dcall target i s o = Some (s, o)).
    { unfold density_call. destruct target as [|b]; [lia|]. destruct (Nat.eqb_spec i b); [lia|]. destruct (Nat.eqb_spec i (S b)); [lia|reflexivity]. }
    rewrite Ed. eapply IH; [lia|exact F|apply inv_callback; exact H1|]. eapply closed_callback; eauto. apply Ft.
Qed.
Theorem density_ok target ts st o t : pending st = None -> turns_finish ts ->
  nth_error ts target = Some t -> enabled t = true ->
  (forall b tb, target = S b -> nth_error ts b = Some tb -> enabled tb = true) ->
  exists st' prev w, density_step zero plus loc rem single minus per_charge target ts st o = Some (st', Output prev (written o ++ [w])) /\
    forall a, w a = per_charge (E (share t) a).
Proof using Hm Hok Hs Hu.
  intros Hp F Ht En Hb. unfold density_step. destruct (inv_reset st Hp) as [H0 Hc0].
  destruct target as [|b].
  - destruct ts as [|t0 ts]; [discriminate|]. cbn in Ht. inversion Ht; subst t0. apply Forall_cons_iff in F as [Ft F].
    cbn [species_loop]. rewrite En. destruct (inv_turn _ _ t Ft H0 Hc0) as [H1 Hc1]. cbn [density_call].
    set (s := cb (deposit plus (cb (reset zero st) (inner t)) (share t)) (earlier t)) in *.
    destruct (inv_sync _ _ H1) as (H2 & Hc2 & _ & Hv).
    destruct (loop_after 0 ts 1 (cb (sync s) (later t)) (Output (prev_rho o) (written o ++ [fun a => per_charge (cur (sync s) a)])) _ ltac:(lia) F (inv_callback _ (later t) _ H2)) as [st' E1].
    { eapply closed_callback; eauto. apply Ft. }
    exists st', (prev_rho o). eexists. split; [exact E1|]. intro a. cbv beta. rewrite Hv. f_equal. apply E_ext. intro x. apply zero_l.
  - destruct (nth_error ts b) as [tb|] eqn:Etb.
    2:{ apply nth_error_None in Etb. assert (nth_error ts (S b) = None) by (apply nth_error_None; lia). congruence. }
    specialize (Hb b tb eq_refl Etb).
    destruct (nth_error_split ts b Etb) as (l1 & l2 & -> & Hl). rewrite nth_error_app2 in Ht by lia. replace (S b - length l1) with 1 in Ht by lia. cbn in Ht.
    destruct l2 as [|t2 l2]; [discriminate|]. inversion Ht; subst t2. unfold turns_finish in F. apply Forall_app in F as [F1 F]. apply Forall_cons_iff in F as [Fb F]. apply Forall_cons_iff in F as [Ft F].
    destruct (loop_before (S b) l1 0 _ o _ ltac:(lia) F1 H0 Hc0 (tb :: t :: l2)) as (st1 & D1 & -> & H1 & Hc1). cbn [Nat.add]. rewrite Hl.
    cbn [species_loop]. rewrite Hb. cbn [density_call]. rewrite Nat.eqb_refl.
    destruct (inv_turn D1 st1 tb Fb H1 Hc1) as [H2 Hc2]. set (sb := cb (deposit plus (cb st1 (inner tb)) (share tb)) (earlier tb)) in *.
    destruct (inv_sync _ _ H2) as (H3 & Hc3 & _ & Hv3). rewrite En.
    pose proof (inv_callback _ (later tb) _ H3) as H4. assert (Hc4 : closed (cb (sync sb) (later tb))) by (eapply closed_callback; eauto; apply Fb).
    destruct (inv_turn _ _ t Ft H4 Hc4) as [H5 Hc5]. set (s := cb (deposit plus (cb (cb (sync sb) (later tb)) (inner t)) (share t)) (earlier t)) in *.
    destruct (Nat.eqb_spec (S b) b); [lia|]. rewrite Nat.eqb_refl. cbn [prev_rho].
    destruct (inv_sync _ _ H5) as (H6 & Hc6 & _ & Hv6).
    destruct (loop_after (S b) l2 (S (S b)) (cb (sync s) (later t)) (Output None (written o ++ [fun a => per_charge (minus (cur (sync s) a) (cur (sync sb) a))])) _ ltac:(lia) F (inv_callback _ (later t) _ H6)) as [st' E1].
    { eapply closed_callback; eauto. apply Ft. }
    exists st', None. eexists. split; [exact E1|]. intro a. cbv beta. rewrite Hv3, Hv6. f_equal. rewrite acc_add. apply Hu.
Qed.
(** nothing is written for a disabled species *)
Lemma loop_disabled target ts : forall i st o D, (i <= target -> forall t, nth_error ts (target - i) = Some t -> enabled t = false) -> turns_finish ts -> inv D st -> closed st ->
  exists st' o', loop target i ts st o = Some (st', o') /\ written o' = written o.
Proof using Hm Hok Hs.
  induction ts as [|t ts IH]; intros i st o D Hd F H Hc; cbn [species_loop]; [eauto|]. apply Forall_cons_iff in F as [Ft F].
  assert (Hd' : S i <= target -> forall t', nth_error ts (target - S i) = Some t' -> enabled t' = false).
  { intros Hi t' Ht'. apply Hd; [lia|]. replace (target - i) with (S (target - S i)) by lia. exact Ht'. }
  destruct (enabled t) eqn:En; [|eapply IH; eauto].
  assert (Hne : i <> target).
  { intros ->. specialize (Hd (le_n _) t). rewrite Nat.sub_diag in Hd. specialize (Hd eq_refl). congruence. }
  destruct (inv_turn D st t Ft H Hc) as [H1 Hc1]. set (s := cb (deposit plus (cb st (inner t)) (share t)) (earlier t)) in *.
  assert (Ed : exists s' o', dcall target i s o = Some (s', o') /\ written o' = written o).
  { unfold density_call. destruct target as [|b]; [destruct i; [lia|eauto]|].
    destruct (Nat.eqb_spec i b); [do 2 eexists; split; [reflexivity|reflexivity]|]. destruct (Nat.eqb_spec i (S b)); [lia|eauto]. }
  destruct Ed as (s' & o' & Ed & Ew). rewrite Ed. destruct (dcall_state _ _ _ _ _ _ _ H1 Hc1 Ed) as [H2 Hc2].
  destruct (IH (S i) (cb s' (later t)) o' _ Hd' F (inv_callback _ (later t) s' H2)) as (st2 & o2 & E2 & W2); [eapply closed_callback; eauto; apply Ft|].
  exists st2, o2. split; auto. congruence.
Qed.
End Lin.

(** ** the real exchange *)
Section Real.
Variables (ns : list Z) (ng : Z) (bounds : list (list Z)) (opp : nat -> nat) (n : nat).
Hypothesis G : geometry ns ng bounds opp.
Notation nb := (length bounds).
Notation Ns := (extents ns ng).
Variable nbr : nat -> nat -> option nat.
Variable rank : nat -> nat.
Hypothesis Sym : nbr_symmetric n nb opp nbr.
Variable tab : list (nat * list (Z * Z * Z)).
Hypothesis T : tab_is (ax_currents ng) ns bounds tab.
Notation locp := (exchange_pairs Ns tab (here nbr rank) n).
Notation remp := (exchange_pairs Ns tab (away nbr rank) n).
Notation ccanon := (canon ns ng bounds n (ax_currents ng)).

Lemma pairs_perm : Permutation (locp ++ remp) (ccanon nbr 4).
Proof using G Sym T.
  etransitivity; [|symmetry; apply (canon_split ns ng bounds n nbr rank)].
  apply Permutation_app; unfold exchange_pairs; rewrite flat_map_concat_map;
    apply (tasks_perm ns ng bounds opp n G (ax_currents ng) (P_cur ng) (cur_spec ng) _ tab 4 T).
Qed.
Lemma pairs_fine : pairs_ok (locp ++ remp).
Proof using G Sym T. eapply pairs_ok_perm; [symmetry; apply pairs_perm|]. now apply (ccanon_ok ns ng bounds opp n G). Qed.
Lemma one_process : (forall p q, rank p = rank q) -> remp = [].
Proof using.
  clear. intro H. unfold exchange_pairs. transitivity (flat_map (fun _ : nat * nat => @nil (addr * addr)) (iterations n 4)).
  - apply flat_map_ext. intro i. unfold task_pairs. transitivity (flat_map (fun _ : nat * list (Z * Z * Z) => @nil (addr * addr)) tab).
    + apply flat_map_ext. intro r. destruct (away nbr rank (snd i) (fst r)) as [q|] eqn:E; auto. apply away_some in E as [_ E]. exfalso. apply E. apply H.
    + induction tab; cbn; auto.
  - induction (iterations n 4); cbn; auto.
Qed.
Lemma E_result {V} (zero : V) plus (m : addr -> V) f p c : monoid zero plus -> f < 4 -> p < n -> within ng ns c ->
  accumulated zero plus (locp ++ remp) m (cell ns ng f p c) = current_result zero plus bounds ns ng nbr m f p c.
Proof using G Sym T.
  intros Hm Hf Hp Hc. rewrite (accumulated_perm zero plus Hm _ _ m _ pairs_perm).
  destruct (current_done_canon ns ng bounds opp n G nbr zero plus m (accumulated zero plus (ccanon nbr 4) m) Sym Hm) as [R _]; auto.
Qed.
Lemma E_exchange {V} (zero : V) plus mtab s1 s2 (m m' : addr -> V) : monoid zero plus -> tab_is (ax_mpi ng) ns bounds mtab ->
  current_exchange ns ng n nb opp nbr rank zero plus tab mtab s1 s2 m = Some m' ->
  forall f p o, accumulated zero plus (locp ++ remp) m (Fld f p o) = m' (Fld f p o).
Proof using G Sym T.
  intros Hm T2 H f p o. rewrite (accumulated_perm zero plus Hm _ _ m _ pairs_perm). symmetry.
  apply (current_exchange_canon ns ng bounds opp n G nbr rank Sym zero plus Hm tab mtab s1 s2 m m' T T2 H). intros [].
Qed.
End Real.
