(** Proofs for C48 / C63. *)
From Verif Require Import Base M_Lists S_Lists.
Local Open Scope list_scope.

Section Proofs.
Variable c : config.

(** The invariant: a reference may be out of date only where the flag says so. *)
Definition push_ok (s : st) := forall p i, ext s p i = false -> r_push s i p = addr s p i.
Definition coll_ok (s : st) := colliding c = true -> forall p i, ext s p i = false -> r_coll s i p = addr s p i.
Definition rad_ok (s : st) := forall p i, rad_ext c s i p = false -> r_rad s i p = rad_live c s i p.
Definition pair_ok (s : st) := forall p i, pair_ext c s i p = false -> r_pair s i p = pair_live c s i p.
Definition bounds_ok (s : st) := colliding c = true -> forall p i, b_coll s i p = b_sort s i p.
Definition clean (s : st) := forall p i, ext s p i = false.
Definition refs_ok s := push_ok s /\ coll_ok s /\ (forall p i, photon_of c i <> None -> rad_ext c s i p = false -> r_rad s i p = rad_live c s i p)
  /\ (forall p i, pair_of c i <> None -> pair_ext c s i p = false -> r_pair s i p = pair_live c s i p).
Definition inv (b : bool) s := refs_ok s /\ (b = true -> bounds_ok s).

Variable (b : bool) (ok : use -> Prop).
Hypothesis ok_live : forall u, u_module u <> Bounds -> live u -> ok u.
Hypothesis ok_bounds : forall u, (b = true -> live u) -> u_module u = Bounds -> ok u.

Definition triple (Pre : st -> Prop) (os : list op) (Post : st -> Prop) : Prop :=
  forall s, Pre s -> Post (fst (exec_all c os s)) /\ Forall ok (snd (exec_all c os s)).
Lemma exec_all_app os1 os2 s :
  exec_all c (os1 ++ os2) s =
  (fst (exec_all c os2 (fst (exec_all c os1 s))), snd (exec_all c os1 s) ++ snd (exec_all c os2 (fst (exec_all c os1 s)))).
Proof.
  revert s; induction os1 as [|o os1 IH]; intro s; cbn [app exec_all].
  - cbn [fst snd app]. destruct (exec_all c os2 s); reflexivity.
  - destruct (exec c o s) as [s1 u1]. rewrite IH. destruct (exec_all c os1 s1) as [s2 u2]. cbn [fst snd].
    rewrite app_assoc. reflexivity.
Qed.
Lemma triple_app P Q R os1 os2 : triple P os1 Q -> triple Q os2 R -> triple P (os1 ++ os2) R.
Proof.
  intros H1 H2 s Hs. rewrite exec_all_app. cbn [fst snd]. destruct (H1 s Hs) as [A1 A2]. destruct (H2 _ A1) as [B1 B2].
  split; [exact B1|]. apply Forall_app. split; assumption.
Qed.
Lemma triple_nil P : triple P [] P.
Proof. intros s Hs. split; [exact Hs|constructor]. Qed.
Lemma triple_one (P Q : st -> Prop) o :
  (forall s, P s -> Q (fst (exec c o s)) /\ Forall ok (snd (exec c o s))) -> triple P [o] Q.
Proof.
  intros H s Hs. cbn [exec_all]. destruct (H s Hs) as [A B]. destruct (exec c o s) as [s1 u1]. cbn [fst snd] in *.
  rewrite app_nil_r. split; assumption.
Qed.
Lemma triple_cons (P Q R : st -> Prop) o os : triple P [o] Q -> triple Q os R -> triple P (o :: os) R.
Proof. intros H1 H2. apply (triple_app P Q R [o] os H1 H2). Qed.
Lemma triple_flat_map {A} (P : st -> Prop) (f : A -> list op) l :
  (forall x, triple P (f x) P) -> triple P (flat_map f l) P.
Proof.
  intro H. induction l as [|x l IH]; cbn [flat_map]; [apply triple_nil|]. exact (triple_app P P P _ _ (H x) IH).
Qed.
Lemma triple_when P x os : triple P os P -> triple P (when_on x os) P.
Proof. intro H. destruct x; [exact H|apply triple_nil]. Qed.

Lemma on_patches_ok s f : (forall p, Forall ok (f p)) -> Forall ok (on_patches s f).
Proof.
  intro H. unfold on_patches. induction (seq 0 (np s)) as [|p l IH]; cbn [flat_map]; [constructor|].
  apply Forall_app. split; [apply H|exact IH].
Qed.
Lemma flat_map_ok {A} (l : list A) f : (forall x, Forall ok (f x)) -> Forall ok (flat_map f l).
Proof. intro H. induction l as [|x l IH]; cbn [flat_map]; [constructor|]. apply Forall_app. split; [apply H|exact IH]. Qed.
Lemma one_ok m p i a : m <> Bounds -> ok (mkUse m p i a a).
Proof. intro H. apply ok_live; [exact H|reflexivity]. Qed.

Definition Inv (s : st) := inv b s.
Definition Cln (s : st) := inv b s /\ clean s.

Lemma sort_ok (P : st -> Prop) i :
  (forall s r, P s -> P (mkSt (np s) (clock s) (part s) (r_push s) (r_coll s) (r_rad s) (r_pair s) r (b_sort s) (b_coll s))) ->
  triple P [Sort i] P.
Proof.
  intro H. apply triple_one. intros s Hs. cbn [exec fst snd]. split; [apply H; exact Hs|].
  unfold uses_sort. apply on_patches_ok. intro p. constructor; [|constructor]. apply ok_live; [discriminate|].
  unfold live, refresh_sorter; cbn [u_used u_live r_sort part]. rewrite Nat.eqb_refl. cbn [andb].
  destruct (Nat.eqb_spec (a_obj (part s p i)) (r_sort s i p)) as [E|E]; cbn [negb]; congruence.
Qed.
Lemma cln_sort i : triple Cln [Sort i] Cln.
Proof. apply sort_ok. intros s r Hs. exact Hs. Qed.
Lemma direct_ok m i s : m <> Bounds -> Forall ok (uses_direct m i s).
Proof. intro H. apply on_patches_ok. intro p. constructor; [apply one_ok; exact H|constructor]. Qed.
Lemma cln_fused i : triple Cln [Fused i] Cln.
Proof. apply triple_one. intros s Hs. split; [exact Hs|apply direct_ok; discriminate]. Qed.
Lemma cln_interp i : triple Cln [Interp i] Cln.
Proof. apply triple_one. intros s Hs. split; [exact Hs|apply direct_ok; discriminate]. Qed.
Lemma cln_deposit i : triple Cln [Deposit i] Cln.
Proof. apply triple_one. intros s Hs. split; [exact Hs|apply direct_ok; discriminate]. Qed.
Lemma uses_push_ok i s : push_ok s -> clean s -> Forall ok (uses_push i s).
Proof.
  intros H Hc. apply on_patches_ok. intro p. constructor; [|constructor]. apply ok_live; [discriminate|].
  apply (H p i (Hc p i)).
Qed.
Lemma cln_pushpos i : triple Cln [PushPos i] Cln.
Proof. apply triple_one. intros s Hs. split; [exact Hs|]. destruct Hs as [[[H _] _] Hc]. apply uses_push_ok; assumption. Qed.
Lemma cln_pushmom i : triple Cln [PushMom i] Cln.
Proof. apply triple_one. intros s Hs. split; [exact Hs|]. destruct Hs as [[[H _] _] Hc]. apply uses_push_ok; assumption. Qed.
Lemma cln_collide : triple Cln [Collide] Cln.
Proof.
  apply triple_one. intros s Hs. split; [exact Hs|]. cbn [exec snd]. destruct (colliding c) eqn:Ec; [|constructor].
  destruct Hs as [[[_ [H _]] Hb] Hc]. apply on_patches_ok. intro p. apply flat_map_ok. intro i.
  constructor; [|constructor; [|constructor]].
  - apply ok_live; [discriminate|]. apply (H Ec p i (Hc p i)).
  - apply ok_bounds; [|reflexivity]. intro B. apply (Hb B Ec p i).
Qed.
Lemma uses_rad_ok i s :
  (forall p, photon_of c i <> None -> r_rad s i p = rad_live c s i p) -> Forall ok (uses_rad c i s).
Proof.
  intro H. unfold uses_rad. unfold rad_live in H. destruct (photon_of c i) as [ph|] eqn:E; [|constructor]. apply on_patches_ok. intro p.
  rewrite (H p); [|discriminate]. repeat constructor; apply one_ok; discriminate.
Qed.
Lemma uses_pair_ok i s :
  (forall p, pair_of c i <> None -> r_pair s i p = pair_live c s i p) -> Forall ok (uses_pair c i s).
Proof.
  intro H. unfold uses_pair. unfold pair_live in H. destruct (pair_of c i) as [[e q]|] eqn:E; [|constructor]. apply on_patches_ok. intro p.
  rewrite (H p); [|discriminate]. repeat constructor; apply one_ok; discriminate.
Qed.
Lemma clean_rad s i p : clean s -> rad_ext c s i p = false.
Proof. intro H. unfold rad_ext. destruct (photon_of c i); [|reflexivity]. rewrite !H. reflexivity. Qed.
Lemma clean_pair s i p : clean s -> pair_ext c s i p = false.
Proof. intro H. unfold pair_ext. destruct (pair_of c i) as [[e q]|]; [|reflexivity]. rewrite !H. reflexivity. Qed.
Lemma cln_radevent i : triple Cln [RadEvent i] Cln.
Proof.
  apply triple_one. intros s Hs. split; [exact Hs|]. destruct Hs as [[[_ [_ [H _]]] _] Hc]. cbn [exec snd].
  apply uses_rad_ok. intros p Hn. apply H; [exact Hn|apply clean_rad; exact Hc].
Qed.
Lemma cln_pairevent i : triple Cln [PairEvent i] Cln.
Proof.
  apply triple_one. intros s Hs. split; [exact Hs|]. destruct Hs as [[[_ [_ [_ H]]] _] Hc]. cbn [exec snd].
  apply uses_pair_ok. intros p Hn. apply H; [exact Hn|apply clean_pair; exact Hc].
Qed.

(** growth keeps the invariant: what moved is flagged *)
Lemma grow_ext g s p i : ext (grow c g s) p i = ext s p i || g p i.
Proof. unfold ext, grow, set_part; cbn [part]. destruct (g p i); [rewrite orb_true_r; reflexivity|rewrite orb_false_r; reflexivity]. Qed.
Lemma grow_addr g s p i : g p i = false -> addr (grow c g s) p i = addr s p i.
Proof. intro H. unfold addr, grow, set_part; cbn [part]. rewrite H. reflexivity. Qed.
Lemma inv_grow g s : Inv s -> Inv (grow c g s).
Proof.
  intros [[H1 [H2 [H3 H4]]] H5]. split; [|exact H5]. split; [|split; [|split]].
  - intros p i E. rewrite grow_ext in E. apply orb_false_iff in E. destruct E as [E1 E2].
    rewrite grow_addr by exact E2. apply (H1 p i E1).
  - intros Ec p i E. rewrite grow_ext in E. apply orb_false_iff in E. destruct E as [E1 E2].
    rewrite grow_addr by exact E2. apply (H2 Ec p i E1).
  - intros p i Hn E. unfold rad_ext, rad_live in *. specialize (H3 p i Hn). destruct (photon_of c i) as [ph|]; [|congruence].
    rewrite !grow_ext in E. apply orb_false_iff in E. destruct E as [E1 E2]. apply orb_false_iff in E1, E2.
    destruct E1 as [E1 F1], E2 as [E2 F2]. rewrite !grow_addr by assumption. apply H3. rewrite E1, E2. reflexivity.
  - intros p i Hn E. unfold pair_ext, pair_live in *. specialize (H4 p i Hn). destruct (pair_of c i) as [[e q]|]; [|congruence].
    rewrite !grow_ext in E. apply orb_false_iff in E. destruct E as [E E3]. apply orb_false_iff in E. destruct E as [E1 E2].
    apply orb_false_iff in E1, E2, E3.
    destruct E1 as [E1 F1], E2 as [E2 F2], E3 as [E3 F3]. rewrite !grow_addr by assumption. apply H4. rewrite E1, E2, E3. reflexivity.
Qed.
Lemma inv_exchange g : triple Inv [Exchange g] Inv.
Proof. apply triple_one. intros s Hs. split; [apply inv_grow; exact Hs|constructor]. Qed.
Lemma update_lists_cln s : Inv s -> Cln (update_lists c s).
Proof.
  intros [[H1 [H2 [H3 H4]]] H5]. split; [|intros p i; reflexivity]. split; [|exact H5]. split; [|split; [|split]].
  - intros p i _. unfold update_lists at 1; cbn [r_push]. unfold addr; cbn [part update_lists a_addr]. specialize (H1 p i).
    destruct (ext s p i); [reflexivity|]. apply H1; reflexivity.
  - intros Ec p i _. unfold update_lists at 1; cbn [r_coll]. unfold addr; cbn [part update_lists a_addr]. specialize (H2 Ec p i).
    destruct (ext s p i); [reflexivity|]. apply H2; reflexivity.
  - intros p i Hn _. unfold update_lists at 1; cbn [r_rad]. specialize (H3 p i Hn).
    replace (rad_live c (update_lists c s) i p) with (rad_live c s i p) by reflexivity.
    destruct (rad_ext c s i p); [reflexivity|]. apply H3; reflexivity.
  - intros p i Hn _. unfold update_lists at 1; cbn [r_pair]. specialize (H4 p i Hn).
    replace (pair_live c (update_lists c s) i p) with (pair_live c s i p) by reflexivity.
    destruct (pair_ext c s i p); [reflexivity|]. apply H4; reflexivity.
Qed.
Lemma cln_update : triple Inv [UpdateLists] Cln.
Proof. apply triple_one. intros s Hs. split; [apply update_lists_cln; exact Hs|constructor]. Qed.
Lemma cln_inv s : Cln s -> Inv s.
Proof. intros [H _]. exact H. Qed.
Lemma cln_load i g : triple Cln [Load i g] Cln.
Proof.
  apply triple_one. intros s Hs. split; [|constructor]. cbn [exec fst]. apply update_lists_cln, inv_grow, cln_inv, Hs.
Qed.
Lemma update_patches_cln s : Cln (update_patches c s).
Proof.
  unfold update_patches. apply update_lists_cln. split.
  - split; [|split; [|split]].
    + intros p i _. reflexivity.
    + intros Ec p i _. cbn [r_coll]. rewrite Ec. reflexivity.
    + intros p i _ _. reflexivity.
    + intros p i _ _. reflexivity.
  - intros _ Ec p i. cbn [b_coll b_sort]. rewrite Ec. reflexivity.
Qed.
Lemma inv_rebalance n arrays : triple Inv [Rebalance n arrays] Inv.
Proof. apply triple_one. intros s Hs. split; [apply cln_inv, update_patches_cln|constructor]. Qed.

Lemma refresh_rad_live i s p : Inv s -> photon_of c i <> None -> r_rad (refresh_rad c i s) i p = rad_live c s i p.
Proof.
  intros [[_ [_ [H _]]] _] Hn. cbn [r_rad refresh_rad]. rewrite Nat.eqb_refl. cbn [andb].
  destruct (rad_ext c s i p) eqn:E; [reflexivity|]. apply H; assumption.
Qed.
Lemma inv_rad_entry s f : Inv s ->
  (forall i p, photon_of c i <> None -> rad_ext c s i p = false -> f i p = rad_live c s i p) ->
  Inv (mkSt (np s) (clock s) (part s) (r_push s) (r_coll s) f (r_pair s) (r_sort s) (b_sort s) (b_coll s)).
Proof.
  intros [[H1 [H2 [H3 H4]]] H5] Hf. split; [|exact H5]. split; [exact H1|]. split; [exact H2|]. split; [|exact H4].
  intros p i Hn E. apply Hf; assumption.
Qed.
Lemma inv_pair_entry s f : Inv s ->
  (forall i p, pair_of c i <> None -> pair_ext c s i p = false -> f i p = pair_live c s i p) ->
  Inv (mkSt (np s) (clock s) (part s) (r_push s) (r_coll s) (r_rad s) f (r_sort s) (b_sort s) (b_coll s)).
Proof.
  intros [[H1 [H2 [H3 H4]]] H5] Hf. split; [|exact H5]. split; [exact H1|]. split; [exact H2|]. split; [exact H3|].
  intros p i Hn E. apply Hf; assumption.
Qed.
Lemma inv_refresh_rad i s : Inv s -> Inv (refresh_rad c i s).
Proof.
  intro H. apply inv_rad_entry; [exact H|]. intros j p Hn E. destruct (Nat.eqb_spec j i) as [->|Hj]; cbn [andb].
  - rewrite E. destruct H as [[_ [_ [H _]]] _]. apply H; assumption.
  - destruct H as [[_ [_ [H _]]] _]. apply H; assumption.
Qed.
Lemma inv_refresh_pair i s : Inv s -> Inv (refresh_pair c i s).
Proof.
  intro H. apply inv_pair_entry; [exact H|]. intros j p Hn E. destruct (Nat.eqb_spec j i) as [->|Hj]; cbn [andb].
  - rewrite E. destruct H as [[_ [_ [_ H]]] _]. apply H; assumption.
  - destruct H as [[_ [_ [_ H]]] _]. apply H; assumption.
Qed.
Lemma inv_update_rad i g s : Inv s -> Inv (update_rad c i g s).
Proof.
  intro H. apply inv_rad_entry; [exact H|]. intros j p Hn E. destruct (Nat.eqb_spec j i) as [->|Hj]; cbn [andb].
  - destruct (g p); [reflexivity|]. destruct H as [[_ [_ [H _]]] _]. apply H; assumption.
  - destruct H as [[_ [_ [H _]]] _]. apply H; assumption.
Qed.
Lemma inv_update_pair i g s : Inv s -> Inv (update_pair c i g s).
Proof.
  intro H. apply inv_pair_entry; [exact H|]. intros j p Hn E. destruct (Nat.eqb_spec j i) as [->|Hj]; cbn [andb].
  - destruct (g p); [reflexivity|]. destruct H as [[_ [_ [_ H]]] _]. apply H; assumption.
  - destruct H as [[_ [_ [_ H]]] _]. apply H; assumption.
Qed.
Lemma refresh_pair_live i s p : Inv s -> pair_of c i <> None -> r_pair (refresh_pair c i s) i p = pair_live c s i p.
Proof.
  intros [[_ [_ [_ H]]] _] Hn. cbn [r_pair refresh_pair]. rewrite Nat.eqb_refl. cbn [andb].
  destruct (pair_ext c s i p) eqn:E; [reflexivity|]. apply H; assumption.
Qed.
Lemma inv_createrad i g : triple Inv [CreateRad i g] Inv.
Proof.
  apply triple_one. intros s Hs. cbn [exec]. destruct (photon_of c i) as [ph|] eqn:Ep; [|split; [exact Hs|constructor]].
  assert (Hn : photon_of c i <> None) by congruence. cbn [fst snd]. split.
  - apply inv_update_rad, inv_grow, inv_refresh_rad, Hs.
  - apply Forall_app. split; apply uses_rad_ok; intros p _.
    + exact (refresh_rad_live i s p Hs Hn).
    + cbn [r_rad update_rad]. rewrite Nat.eqb_refl. cbn [andb]. destruct (g p) eqn:Eg; [reflexivity|].
      cbn [r_rad grow set_part]. rewrite (refresh_rad_live i s p Hs Hn).
      unfold rad_live. rewrite Ep. unfold addr. cbn [part update_rad grow set_part refresh_rad]. rewrite Eg. reflexivity.
Qed.
Lemma inv_createpair i g1 g2 : triple Inv [CreatePair i g1 g2] Inv.
Proof.
  apply triple_one. intros s Hs. cbn [exec]. destruct (pair_of c i) as [[e q]|] eqn:Ep; [|split; [exact Hs|constructor]].
  assert (Hn : pair_of c i <> None) by congruence. cbn [fst snd]. split.
  - apply inv_update_pair, inv_grow, inv_grow, inv_refresh_pair, Hs.
  - apply Forall_app. split; apply uses_pair_ok; intros p _.
    + exact (refresh_pair_live i s p Hs Hn).
    + cbn [r_pair update_pair]. rewrite Nat.eqb_refl. cbn [andb]. destruct (g1 p || g2 p) eqn:Eg; [reflexivity|].
      apply orb_false_iff in Eg. destruct Eg as [Eg1 Eg2].
      cbn [r_pair grow set_part]. rewrite (refresh_pair_live i s p Hs Hn).
      unfold pair_live. rewrite Ep. unfold addr. cbn [part update_pair grow set_part refresh_pair]. rewrite Eg1, Eg2. reflexivity.
Qed.

(** the callbacks allowed: those whose operation keeps [Cln] *)
Variable allowed : cb -> Prop.
Hypothesis allowed_ok : forall x, allowed x -> triple Cln [cb_op x] Cln.
Lemma cbs_ok l : (forall x, In x l -> allowed x) -> triple Cln (map cb_op l) Cln.
Proof.
  induction l as [|x l IH]; intro H; [apply triple_nil|]. cbn [map].
  apply triple_cons with (Q := Cln); [apply allowed_ok, H; left; reflexivity|]. apply IH. intros y Hy. apply H; right; exact Hy.
Qed.
Lemma step_ok h : (forall pl i x, In x (cbs h pl i) -> allowed x) -> triple Cln (step_ops c h) Cln.
Proof.
  intro H. assert (C : forall pl i, triple Cln (at_stage h pl i) Cln) by (intros pl i; apply cbs_ok; apply H).
  unfold step_ops, over_species.
  apply triple_app with (Q := Cln); [apply C|].
  apply triple_app with (Q := Cln); [apply C|].
  apply triple_app with (Q := Cln). { apply triple_flat_map. intro i. apply triple_when, cln_sort. }
  apply triple_app with (Q := Cln); [apply cln_collide|].
  apply triple_app with (Q := Cln).
  { apply triple_flat_map. intro i. apply triple_when. unfold push_ops.
    apply triple_app with (Q := Cln); [|apply C].
    destruct (fused h i); [apply cln_fused|].
    apply triple_cons with (Q := Cln); [apply cln_pushpos|].
    apply triple_app with (Q := Cln); [apply C|].
    apply triple_cons with (Q := Cln); [apply cln_interp|].
    apply triple_app with (Q := Cln); [apply C|].
    apply triple_app with (Q := Cln); [apply triple_when, cln_radevent|].
    apply triple_app with (Q := Cln); [apply triple_when, cln_pairevent|].
    apply triple_app with (Q := Cln); [apply C|].
    apply triple_cons with (Q := Cln); [apply cln_pushmom|].
    apply triple_app with (Q := Cln); [apply C|].
    apply triple_cons with (Q := Cln); [apply cln_pushpos|].
    apply triple_app with (Q := Cln); [apply C|apply cln_deposit]. }
  apply triple_app with (Q := Inv).
  { apply triple_app with (os1 := []) (Q := Inv). { intros s Hs. split; [exact (cln_inv s Hs)|constructor]. }
    apply triple_flat_map. intro i. apply triple_when. unfold create_ops.
    apply triple_app with (Q := Inv); apply triple_when; [apply inv_createrad|apply inv_createpair]. }
  apply triple_app with (Q := Inv).
  { apply triple_cons with (Q := Inv); apply inv_exchange. }
  apply triple_app with (Q := Inv).
  { destruct (rebalance h) as [[n arrays]|]; [apply inv_rebalance|apply triple_nil]. }
  apply triple_app with (Q := Cln); [apply cln_update|].
  repeat (apply triple_app with (Q := Cln); [apply C|]). apply C.
Qed.
Lemma run_ok init hs n k arrays :
  (forall x, In x init -> allowed x) -> (forall h, In h hs -> forall pl i x, In x (cbs h pl i) -> allowed x) ->
  Forall ok (snd (run c init hs (start c n k arrays))).
Proof.
  intros Hi Hh. assert (T : triple Cln (map cb_op init ++ flat_map (step_ops c) hs) Cln).
  { apply triple_app with (Q := Cln); [apply cbs_ok, Hi|]. clear Hi. induction hs as [|h hs' IH]; [apply triple_nil|].
    cbn [flat_map]. apply triple_app with (Q := Cln); [apply step_ok, Hh; left; reflexivity|].
    apply IH. intros h' Hin. apply Hh. right; exact Hin. }
  apply T. apply update_patches_cln.
Qed.
End Proofs.

(** ** C48: no window *)
Lemma runs_live c init hs n k arrays :
  loads_only init -> (forall h, In h hs -> no_window h) ->
  forall u, In u (snd (run c init hs (start c n k arrays))) -> live u.
Proof.
  intros Hi Hh. apply Forall_forall.
  apply (run_ok c true live) with (allowed := fun x => exists i g, x = CbLoad i g).
  - intros u _ H; exact H.
  - intros u H _; apply H; reflexivity.
  - intros x [i [g ->]]. apply cln_load.
  - intros x Hx. exact (Hi x Hx).
  - intros h Hin pl i x Hx. exact (Hh h Hin pl i x Hx).
Qed.
(** a window that injects nothing *)
Lemma shift_keeps c ok g : triple c ok (Cln c false) [Shift g false] (Cln c false).
Proof.
  apply triple_one. intros s [[H _] Hc]. split; [|constructor]. split; [|exact Hc]. split; [exact H|discriminate].
Qed.
Lemma runs_live_no_injection c init hs n k arrays :
  not_injecting init -> (forall h, In h hs -> no_injection h) ->
  forall u, In u (snd (run c init hs (start c n k arrays))) -> u_module u <> Bounds -> live u.
Proof.
  intros Hi Hh. apply (proj1 (Forall_forall (fun u => u_module u <> Bounds -> live u) _)).
  apply (run_ok c false (fun u => u_module u <> Bounds -> live u))
    with (allowed := fun x => forall g b, x = CbWindow g b -> b = false).
  - intros u _ H _; exact H.
  - intros u _ H1 H2; contradiction.
  - intros [i g|g b] Ha.
    + apply cln_load.
    + rewrite (Ha g b eq_refl). apply shift_keeps.
  - intros x Hx g b E. exact (Hi x Hx g b E).
  - intros h Hin pl i x Hx g b E. exact (Hh h Hin pl i x Hx g b E).
Qed.
(** the modules that never keep addresses *)
Lemma exec_robust c o s : forall u, In u (snd (exec c o s)) -> rechecks (u_module u) -> live u.
Proof.
  intros u Hu Hr.
  assert (R : forall m, u_module u = m -> rechecks m) by (intros m <-; exact Hr).
  assert (NR : forall m, u_module u = m -> m = Collider \/ m = Bounds \/ m = Pusher \/ m = Radiator \/ m = PairMaker -> False).
  { intros m E [F|[F|[F|[F|F]]]]; specialize (R m E); subst m; rewrite F in R;
      destruct R as [D|[D|[D|D]]]; discriminate D. }
  assert (D : forall m i s', In u (uses_direct m i s') -> live u).
  { intros m i s' H. unfold uses_direct, on_patches in H. apply in_flat_map in H. destruct H as [p [_ [<-|[]]]]. reflexivity. }
  assert (P : forall i s', In u (uses_push i s') -> live u).
  { intros i s' H. unfold uses_push, on_patches in H. apply in_flat_map in H. destruct H as [p [_ [<-|[]]]].
    destruct (NR _ eq_refl); tauto. }
  assert (Ra : forall i s', In u (uses_rad c i s') -> live u).
  { intros i s' H. unfold uses_rad, on_patches in H. destruct (photon_of c i); [|destruct H]. apply in_flat_map in H.
    destruct H as [p [_ [<-|[<-|[]]]]]; destruct (NR _ eq_refl); tauto. }
  assert (Pa : forall i s', In u (uses_pair c i s') -> live u).
  { intros i s' H. unfold uses_pair, on_patches in H. destruct (pair_of c i) as [[e q]|]; [|destruct H]. apply in_flat_map in H.
    destruct H as [p [_ [<-|[<-|[<-|[]]]]]]; destruct (NR _ eq_refl); tauto. }
  destruct o as [i| |i|i|i|i|i|i|i|i g|i g1 g2|g|n a| |i g|g b]; cbn [exec snd] in Hu; try (destruct Hu; fail).
  - unfold uses_sort, on_patches in Hu. apply in_flat_map in Hu. destruct Hu as [p [_ [<-|[]]]].
    unfold live, refresh_sorter; cbn [u_used u_live r_sort part]. rewrite Nat.eqb_refl. cbn [andb].
    destruct (Nat.eqb_spec (a_obj (part s p i)) (r_sort s i p)) as [E|E]; cbn [negb]; congruence.
  - destruct (colliding c); [|destruct Hu]. unfold uses_collide, on_patches in Hu. apply in_flat_map in Hu.
    destruct Hu as [p [_ Hu]]. apply in_flat_map in Hu. destruct Hu as [i [_ [<-|[<-|[]]]]]; destruct (NR _ eq_refl); tauto.
  - exact (D _ _ _ Hu).
  - exact (P _ _ Hu).
  - exact (D _ _ _ Hu).
  - exact (Ra _ _ Hu).
  - exact (Pa _ _ Hu).
  - exact (P _ _ Hu).
  - exact (D _ _ _ Hu).
  - destruct (photon_of c i); [|destruct Hu]. cbn [snd] in Hu. apply in_app_iff in Hu. destruct Hu as [Hu|Hu]; exact (Ra _ _ Hu).
  - destruct (pair_of c i) as [[e q]|]; [|destruct Hu]. cbn [snd] in Hu. apply in_app_iff in Hu. destruct Hu as [Hu|Hu]; exact (Pa _ _ Hu).
Qed.
Lemma exec_all_robust c os : forall s u, In u (snd (exec_all c os s)) -> rechecks (u_module u) -> live u.
Proof.
  induction os as [|o os IH]; intros s u Hu Hr; cbn [exec_all] in Hu; [destruct Hu|].
  pose proof (exec_robust c o s u) as E. destruct (exec c o s) as [s1 u1]. specialize (IH s1 u).
  destruct (exec_all c os s1) as [s2 u2]. cbn [snd] in *. apply in_app_iff in Hu. destruct Hu as [Hu|Hu]; auto.
Qed.

(** ** C63: windows *)
Definition quiet_step : choice :=
  mkChoice (fun _ => true) (fun _ => true) (fun _ => true) (fun _ => false) (fun _ _ => [])
    (fun _ _ => false) (fun _ _ => false) (fun _ _ => false) (fun _ _ => false) (fun _ _ => false) None.
Definition window_step (injected : nat -> nat -> bool) (injects : bool) : choice :=
  mkChoice (fun _ => true) (fun _ => true) (fun _ => true) (fun _ => false)
    (fun pl _ => match pl with AtStart => [CbWindow injected injects] | _ => [] end)
    (fun _ _ => false) (fun _ _ => false) (fun _ _ => false) (fun _ _ => false) (fun _ _ => false) None.
(** electrons (0), photons (1), positrons (2): electrons radiate, photons make pairs, all collide; two patches *)
Definition demo_cfg : config :=
  mkCfg 3 (fun i => if i =? 1 then None else Some 1) (fun i => if i =? 1 then Some (0, 2) else None) true.
Definition demo_start : st := start demo_cfg 2 100 (fun p i => mkArr (10 * p + i) (50 + 10 * p + i) false).
Definition stale_uses (us : list use) : list use := filter (fun u => negb (u_used u =? u_live u)) us.
Definition demo_uses (inj : nat -> nat -> bool) (b : bool) := snd (run demo_cfg [] [window_step inj b] demo_start).
Definition patch1 (p i : nat) : bool := (p =? 1) && (i =? 0).
Definition is_module (a b : module) : bool :=
  match a, b with
  | Sorter, Sorter | Collider, Collider | Bounds, Bounds | FusedPusher, FusedPusher | Pusher, Pusher
  | Interpolator, Interpolator | Depositor, Depositor | Radiator, Radiator | PairMaker, PairMaker => true
  | _, _ => false
  end.
Lemma stale_in us u : In u (stale_uses us) -> In u us /\ ~ live u.
Proof. unfold stale_uses. rewrite filter_In. intros [H1 H2]. split; [exact H1|]. unfold live. lia. Qed.
Lemma find_stale us m : existsb (fun u => is_module (u_module u) m) (stale_uses us) = true ->
  exists u, In u us /\ u_module u = m /\ ~ live u.
Proof.
  intro H. apply existsb_exists in H. destruct H as [u [Hu Hm]]. apply stale_in in Hu. destruct Hu as [H1 H2].
  exists u. split; [exact H1|]. split; [|exact H2]. destruct (u_module u), m; cbn in Hm; congruence.
Qed.
