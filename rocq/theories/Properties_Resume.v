(** C148: which kernels work on the live particle arrays after a checkpoint is loaded. *)
From Verif Require Import Base M_Lists S_Lists P_Lists M_Resume Properties_Lists.
Local Open Scope list_scope.

(** the flags are down whenever a step is over, which is when checkpoints are written *)
Lemma run_clean c init hs n k arrays : loads_only init -> (forall h, In h hs -> no_window h) ->
  clean (fst (run c init hs (start c n k arrays))).
Proof.
  intros Hi Hh. set (ok := fun _ : use => True).
  assert (L : forall x, (exists i g, x = CbLoad i g) -> triple c ok (Cln c true) [cb_op x] (Cln c true)).
  { intros x (i & g & ->). apply cln_load. }
  assert (T : triple c ok (Cln c true) (map cb_op init ++ flat_map (step_ops c) hs) (Cln c true)).
  { apply triple_app with (Q := Cln c true).
    - apply cbs_ok with (allowed := fun x => exists i g, x = CbLoad i g); [exact L|exact Hi].
    - clear Hi. induction hs as [|h hs' IH]; [apply triple_nil|]. cbn [flat_map]. apply triple_app with (Q := Cln c true).
      + apply step_ok with (allowed := fun x => exists i g, x = CbLoad i g); try (intros; exact I); [exact L|]. intros pl i x Hx. exact (Hh h (or_introl eq_refl) pl i x Hx).
      + apply IH. intros h' Hin. apply Hh. right; exact Hin. }
  destruct (T (start c n k arrays)) as [[_ X] _]; [apply update_patches_cln|]. exact X.
Qed.

Section S.
Variable c : config.
(** products of radiation and pair production are species of the simulation *)
Definition products_ok : Prop := (forall i ph, photon_of c i = Some ph -> ph < ns c) /\ (forall i e q, pair_of c i = Some (e, q) -> e < ns c /\ q < ns c).
(** operations of the modules that keep typed lists *)
Definition staged (o : op) : Prop := match o with PushPos _ | PushMom _ | RadEvent _ | PairEvent _ => True | _ => False end.

Lemma in_patches s f u : In u (on_patches s f) -> exists p, In u (f p).
Proof. unfold on_patches. rewrite in_flat_map. intros (p & _ & H). exists p. exact H. Qed.
Lemma fresh_other s k p i j : j < ns c -> fresh c s (S k) p i <> fresh c s 0 p j.
Proof.
  unfold fresh, slot_of, size. intro H. assert (S (ns c) <= S (np s) * S (ns c)) by (cbn; lia).
  set (z := S (np s) * S (ns c)) in *. assert (z <= S k * z) by (cbn; lia). lia.
Qed.
Lemma fresh_same s k p i : fresh c s (S k) p i <> fresh c s 0 p i.
Proof. unfold fresh, size. cbn. lia. Qed.
Section Stale.
Variable s : st.
Hypothesis C : clean s.
Lemma push_is p i : r_push (load c s) i p = fresh c s 1 p i.
Proof. change ((if ext s p i then fresh c s 0 p i else fresh c s 1 p i) = fresh c s 1 p i). rewrite (C p i). reflexivity. Qed.
Lemma rad_is p i ph : photon_of c i = Some ph -> r_rad (load c s) i p = (fresh c s 2 p i, fresh c s 3 p i).
Proof.
  intro E. unfold load, update_lists. cbn [r_rad]. unfold rad_ext. rewrite E. change (ext (unpickle c s)) with (ext s). rewrite !C. cbn [orb].
  unfold unpickle. cbn [r_rad]. rewrite E. reflexivity.
Qed.
Lemma pair_is p i e q : pair_of c i = Some (e, q) -> r_pair (load c s) i p = (fresh c s 4 p i, (fresh c s 5 p i, fresh c s 6 p i)).
Proof.
  intro E. unfold load, update_lists. cbn [r_pair]. unfold pair_ext. rewrite E. change (ext (unpickle c s)) with (ext s). rewrite !C. cbn [orb].
  unfold unpickle. cbn [r_pair]. rewrite E. reflexivity.
Qed.
Lemma stale o u : products_ok -> staged o -> In u (snd (exec c o (load c s))) -> ~ live u.
Proof.
  intros [W1 W2] S I. unfold live. destruct o; try destruct S; cbn [exec snd] in I.
  - apply in_patches in I. destruct I as (p & [<-|[]]). cbn [u_used u_live]. rewrite push_is. apply fresh_same.
  - unfold uses_rad in I. destruct (photon_of c i) as [ph|] eqn:E; [|destruct I]. apply in_patches in I. destruct I as (p & I). rewrite (rad_is p i ph E) in I.
    destruct I as [<-|[<-|[]]]; cbn [u_used u_live fst snd]; [apply fresh_same|apply fresh_other, (W1 i ph E)].
  - unfold uses_pair in I. destruct (pair_of c i) as [[e q]|] eqn:E; [|destruct I]. apply in_patches in I. destruct I as (p & I). rewrite (pair_is p i e q E) in I.
    destruct (W2 i e q E). destruct I as [<-|[<-|[<-|[]]]]; cbn [u_used u_live fst snd]; [apply fresh_same|apply fresh_other; assumption|apply fresh_other; assumption].
  - apply in_patches in I. destruct I as (p & [<-|[]]). cbn [u_used u_live]. rewrite push_is. apply fresh_same.
Qed.
End Stale.

(** ** refuted: take a checkpoint after any run without a moving window and load it.  Every use of particle arrays that the
    staged pusher, the radiation or the pair production module makes, in any patch and for any species, misses the arrays of the
    particle objects (the pusher does use every patch) *)
Theorem C148_staged_refuted : forall init hs n k arrays, products_ok -> loads_only init -> (forall h, In h hs -> no_window h) ->
  let s := load c (fst (run c init hs (start c n k arrays))) in
  (forall o u, staged o -> In u (snd (exec c o s)) -> ~ live u) /\
  (forall i p, p < np s -> exists u, In u (snd (exec c (PushPos i) s)) /\ u_patch u = p /\ u_spec u = i /\ ~ live u).
Proof.
  intros init hs n k arrays W Hi Hh s. pose proof (run_clean c init hs n k arrays Hi Hh) as C. split; [intros o u; apply stale; assumption|].
  intros i p Lp. exists (mkUse Pusher p i (r_push s i p) (addr s p i)).
  assert (In (mkUse Pusher p i (r_push s i p) (addr s p i)) (snd (exec c (PushPos i) s))) as H.
  { cbn [exec snd]. apply in_flat_map. exists p. split; [apply in_seq; lia|left; reflexivity]. }
  repeat split; [exact H|]. refine (stale _ C (PushPos i) _ W I H).
Qed.

(** ** what works: sorting, the fused push, interpolation and deposition always reach the live arrays after loading *)
Theorem C148_rechecking_modules : forall init hs s u, In u (snd (run c init hs (load c s))) -> rechecks (u_module u) -> live u.
Proof. intros init hs s u. apply C48_rechecking_modules. Qed.

(** the collisions of the next step also do, with the bucket bounds of the sorters, as their lists are generated on loading *)
Theorem C148_collisions : forall s u, In u (snd (exec c Collide (load c s))) -> live u.
Proof.
  intros s u H. unfold live. cbn [exec snd] in H. destruct (colliding c) eqn:K; [|destruct H]. apply in_patches in H. destruct H as (p & H).
  apply in_flat_map in H. destruct H as (i & _ & [<-|[<-|[]]]); cbn [u_used u_live].
  - unfold load, update_lists. cbn [r_coll]. destruct (ext (unpickle c s) p i); [reflexivity|]. unfold unpickle. cbn [r_coll]. rewrite K. reflexivity.
  - unfold load, update_lists, unpickle. cbn [b_coll b_sort]. rewrite K. reflexivity.
Qed.

(** so a simulation without collisions and QED whose species all use the fused pusher goes on correctly from any checkpoint *)
Definition quiet (o : op) : Prop := ~ staged o.
Lemma quiet_uses : colliding c = false -> (forall i, photon_of c i = None) -> (forall i, pair_of c i = None) ->
  forall o s u, quiet o -> In u (snd (exec c o s)) -> rechecks (u_module u).
Proof.
  intros K R Q o s u N H. unfold rechecks. destruct o; try (destruct (N I)); cbn [exec snd] in H; rewrite ?K, ?R, ?Q in H; cbn [snd] in H; try destruct H;
    apply in_patches in H; destruct H as (p & [<-|[]]); cbn [u_module]; auto.
Qed.
Lemma quiet_all : colliding c = false -> (forall i, photon_of c i = None) -> (forall i, pair_of c i = None) ->
  forall os s u, Forall quiet os -> In u (snd (exec_all c os s)) -> rechecks (u_module u).
Proof.
  intros K R Q. induction os as [|o os IH]; intros s u F H; [destruct H|]. inversion F as [|? ? F1 F2]; subst. cbn [exec_all] in H.
  destruct (exec c o s) as [s1 u1] eqn:E1. destruct (exec_all c os s1) as [s2 u2] eqn:E2. cbn [snd] in H. apply in_app_or in H. destruct H as [H|H].
  - apply (quiet_uses K R Q o s u F1). rewrite E1. exact H.
  - apply (IH s1 u F2). rewrite E2. exact H.
Qed.
Lemma quiet_cbs l : Forall quiet (map cb_op l).
Proof. induction l as [|x l IH]; constructor; [destruct x; intros []|exact IH]. Qed.
Lemma quiet_over en f : (forall i, Forall quiet (f i)) -> Forall quiet (over_species c en f).
Proof.
  intro H. unfold over_species. induction (seq 0 (ns c)) as [|i l IH]; [constructor|]. cbn [flat_map]. apply Forall_app. split; [|exact IH].
  destruct (en i); [apply H|constructor].
Qed.
Lemma quiet_step h : (forall i, fused h i = true) -> Forall quiet (step_ops c h).
Proof.
  intro Fu. unfold step_ops, at_stage.
  repeat (apply Forall_app; split); try apply quiet_cbs; try (apply quiet_over; intro i); try (repeat constructor; intros []).
  - unfold push_ops. rewrite Fu. apply Forall_app. split; [repeat constructor; intros []|apply quiet_cbs].
  - unfold create_ops. apply Forall_app. split; [destruct (is_some (photon_of c i))|destruct (is_some (pair_of c i))]; repeat constructor; intros [].
  - destruct (rebalance h) as [[m arrays]|]; repeat constructor; intros [].
Qed.
Theorem C148_all_fused : forall init hs s u, colliding c = false -> (forall i, photon_of c i = None) -> (forall i, pair_of c i = None) ->
  (forall h, In h hs -> forall i, fused h i = true) -> In u (snd (run c init hs (load c s))) -> live u.
Proof.
  intros init hs s u K R Q Fu H. apply (C148_rechecking_modules init hs s u H). refine (quiet_all K R Q _ _ u _ H).
  apply Forall_app. split; [apply quiet_cbs|]. clear H. induction hs as [|h hs IH]; [constructor|]. cbn [flat_map]. apply Forall_app.
  split; [apply quiet_step, Fu; left; reflexivity|apply IH; intros h' Hh; apply Fu; right; exact Hh].
Qed.

(** with collisions too, unless a moving window shifts the patches: a state that differs in the pusher's lists only makes the same
    uses as long as the pusher's lists are not used *)
Definition but_push (s t : st) : Prop :=
  np s = np t /\ clock s = clock t /\ part s = part t /\ r_coll s = r_coll t /\ r_rad s = r_rad t /\ r_pair s = r_pair t /\ r_sort s = r_sort t /\ b_sort s = b_sort t /\ b_coll s = b_coll t.
Lemma but_push_op : (forall i, photon_of c i = None) -> (forall i, pair_of c i = None) -> forall o s t, quiet o -> but_push s t ->
  but_push (fst (exec c o s)) (fst (exec c o t)) /\ snd (exec c o s) = snd (exec c o t).
Proof.
  intros R Q o [? ? ? ? ? ? ? ? ? ?] [? ? ? ? ? ? ? ? ? ?] N (E1 & E2 & E3 & E4 & E5 & E6 & E7 & E8 & E9). cbn in E1, E2, E3, E4, E5, E6, E7, E8, E9. subst.
  destruct o; try (destruct (N I)); cbn [exec fst snd]; rewrite ?R, ?Q; try (destruct injects); repeat split.
Qed.
Lemma but_push_all : (forall i, photon_of c i = None) -> (forall i, pair_of c i = None) -> forall os s t, Forall quiet os -> but_push s t ->
  snd (exec_all c os s) = snd (exec_all c os t).
Proof.
  intros R Q. induction os as [|o os IH]; intros s t F B; [reflexivity|]. inversion F as [|? ? F1 F2]; subst. destruct (but_push_op R Q o s t F1 B) as [B1 U].
  cbn [exec_all]. destruct (exec c o s) as [s1 u1], (exec c o t) as [t1 v1]. cbn [fst snd] in B1, U. pose proof (IH s1 t1 F2 B1) as X.
  destruct (exec_all c os s1), (exec_all c os t1). cbn [snd] in *. congruence.
Qed.
Lemma quiet_run init hs : (forall h, In h hs -> forall i, fused h i = true) -> Forall quiet (map cb_op init ++ flat_map (step_ops c) hs).
Proof.
  intro Fu. apply Forall_app. split; [apply quiet_cbs|]. induction hs as [|h hs IH]; [constructor|]. cbn [flat_map]. apply Forall_app.
  split; [apply quiet_step, Fu; left; reflexivity|apply IH; intros h' Hh; apply Fu; right; exact Hh].
Qed.
Lemma run_live init hs t : loads_only init -> (forall h, In h hs -> no_window h) -> Cln c true t -> forall u, In u (snd (run c init hs t)) -> live u.
Proof.
  intros Hi Hh K. apply Forall_forall.
  assert (L : forall x, (exists i g, x = CbLoad i g) -> triple c live (Cln c true) [cb_op x] (Cln c true)).
  { intros x (i & g & ->). apply cln_load. }
  assert (T : triple c live (Cln c true) (map cb_op init ++ flat_map (step_ops c) hs) (Cln c true)).
  { apply triple_app with (Q := Cln c true).
    - apply cbs_ok with (allowed := fun x => exists i g, x = CbLoad i g); [exact L|exact Hi].
    - clear Hi. induction hs as [|h hs' IH]; [apply triple_nil|]. cbn [flat_map]. apply triple_app with (Q := Cln c true).
      + apply step_ok with (allowed := fun x => exists i g, x = CbLoad i g); [intros v _ H; exact H|intros v H _; apply H; reflexivity|exact L|].
        intros pl i x Hx. exact (Hh h (or_introl eq_refl) pl i x Hx).
      + apply IH. intros h' Hin. apply Hh. right; exact Hin. }
  apply T, K.
Qed.
Theorem C148_fused_collisions : forall init hs s u, (forall i, photon_of c i = None) -> (forall i, pair_of c i = None) ->
  loads_only init -> (forall h, In h hs -> no_window h) -> (forall h, In h hs -> forall i, fused h i = true) ->
  In u (snd (run c init hs (load c s))) -> live u.
Proof.
  intros init hs s u R Q Hi Hh Fu H. set (l := load c s) in *.
  set (t := mkSt (np l) (clock l) (part l) (fun i p => addr l p i) (r_coll l) (r_rad l) (r_pair l) (r_sort l) (b_sort l) (b_coll l)).
  assert (E : snd (run c init hs l) = snd (run c init hs t)).
  { apply but_push_all; [exact R|exact Q|apply quiet_run, Fu|]. repeat split. }
  rewrite E in H. revert u H. apply run_live; [exact Hi|exact Hh|]. split; [|intros p i; reflexivity]. split; [split; [|split; [|split]]|].
  - intros p i _. reflexivity.
  - intros K p i _. unfold t, l, load, update_lists. cbn [r_coll]. destruct (ext (unpickle c s) p i); [reflexivity|]. unfold unpickle. cbn [r_coll]. rewrite K. reflexivity.
  - intros p i X. destruct (X (R i)).
  - intros p i X. destruct (X (Q i)).
  - intros _ K p i. unfold t, l, load, update_lists, unpickle. cbn [b_coll b_sort]. rewrite K. reflexivity.
Qed.

(** ** calling update_patches after loading would repair it: then every kernel of every step reaches the live arrays *)
Theorem C148_regenerated : forall init hs s, loads_only init -> (forall h, In h hs -> no_window h) ->
  forall u, In u (snd (run c init hs (update_patches c (load c s)))) -> live u.
Proof. intros init hs s Hi Hh. apply run_live; [exact Hi|exact Hh|apply update_patches_cln]. Qed.
End S.

(** a whole step after loading, with nothing growing: the modules with typed lists all miss, the others all reach; after
    update_patches nothing misses *)
Definition calm : choice :=
  mkChoice (fun _ => true) (fun _ => true) (fun _ => true) (fun _ => false) (fun _ _ => [])
    (fun _ _ => false) (fun _ _ => false) (fun _ _ => false) (fun _ _ => false) (fun _ _ => false) None.
Definition misses (us : list use) : list use := filter (fun u => negb (u_used u =? u_live u)) us.
Example C148_case : let s := load demo_cfg (fst (run demo_cfg [] [calm] demo_start)) in
  let us := snd (run demo_cfg [] [calm] s) in
  products_ok demo_cfg /\ 0 < length (misses us) < length us /\ length (misses us) = length (filter (fun u => match u_module u with Pusher | Radiator | PairMaker => true | _ => false end) us) /\
  misses (snd (run demo_cfg [] [calm] (update_patches demo_cfg s))) = [].
Proof.
  cbv zeta. split; [|vm_compute; repeat split; lia]. split.
  - intros i ph. cbn. destruct i as [|[|[|i]]]; cbn; try discriminate; intro H; injection H as <-; lia.
  - intros i e q. cbn. destruct i as [|[|[|i]]]; cbn; try discriminate; intro H; injection H as <- <-; lia.
Qed.

Print Assumptions C148_staged_refuted.
Print Assumptions C148_rechecking_modules.
Print Assumptions C148_collisions.
Print Assumptions C148_all_fused.
Print Assumptions C148_fused_collisions.
Print Assumptions C148_regenerated.
Print Assumptions C148_case.
