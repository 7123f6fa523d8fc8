(** Proofs for C37: momentum and whole steps. *)
From Verif Require Import Base M_Qed S_Qed P_Qed.
From Coq Require Import QArith Qcanon Permutation.
Local Open Scope nat_scope.
Local Open Scope list_scope.

Definition wmom (p : particle) : Qc * Qc * Qc := (p_w p * p_ux p, p_w p * p_uy p, p_w p * p_uz p)%Qc.
Definition sum3 {A} (f : A -> Qc * Qc * Qc) (l : list A) : Qc * Qc * Qc := fold_right (fun a x => add3 (f a) x) (0, 0, 0)%Qc l.
Lemma momentum_sum l : momentum l = sum3 wmom (alive l).
Proof.
  unfold momentum. induction (alive l) as [|p ps IH]; [reflexivity|]. cbn [qsum fold_right sum3 add3]. unfold sum3 in IH.
  rewrite <- IH. reflexivity.
Qed.
Lemma triple_eq (a b c a' b' c' : Qc) : a = a' -> b = b' -> c = c' -> (a, b, c) = (a', b', c').
Proof. intros -> -> ->; reflexivity. Qed.
Lemma add3_comm a b : add3 a b = add3 b a.
Proof. destruct a as [[? ?] ?], b as [[? ?] ?]. apply triple_eq; ring. Qed.
Lemma add3_assoc a b c : add3 a (add3 b c) = add3 (add3 a b) c.
Proof. destruct a as [[? ?] ?], b as [[? ?] ?], c as [[? ?] ?]. apply triple_eq; ring. Qed.
Lemma add3_0 a : add3 (0, 0, 0)%Qc a = a.
Proof. destruct a as [[? ?] ?]. apply triple_eq; ring. Qed.
Lemma sum3_app {A} (f : A -> _) l1 l2 : sum3 f (l1 ++ l2) = add3 (sum3 f l1) (sum3 f l2).
Proof.
  induction l1 as [|a l1 IH]; cbn [app sum3 fold_right]; [symmetry; apply add3_0|].
  fold (sum3 f (l1 ++ l2)). rewrite IH. apply add3_assoc.
Qed.
Lemma sum3_perm {A} (f : A -> _) l1 l2 : Permutation l1 l2 -> sum3 f l1 = sum3 f l2.
Proof.
  intro H. induction H as [|x l l' H IH|x y l|l l' l'' H1 IH1 H2 IH2]; cbn [sum3 fold_right]; try reflexivity.
  - fold (sum3 f l). fold (sum3 f l'). rewrite IH. reflexivity.
  - rewrite !add3_assoc, (add3_comm (f y)). reflexivity.
  - congruence.
Qed.
Lemma sum3_ext {A} (f g : A -> Qc * Qc * Qc) l : (forall a, In a l -> f a = g a) -> sum3 f l = sum3 g l.
Proof.
  induction l as [|a l IH]; intro H; cbn [sum3 fold_right]; [reflexivity|]. rewrite (H a (or_introl eq_refl)). f_equal.
  apply IH. intros b Hb. apply H. right; exact Hb.
Qed.

Section Qed.
Variables igl igm : Qc -> Qc -> Qc -> Qc.
Definition given (f : slot -> Qc) ig (es : list slot) := sum3 wmom (map (fun e => part_of ig (f e) e) es).
Lemma sum3_cons {A} (f : A -> Qc * Qc * Qc) x l : sum3 f (x :: l) = add3 (f x) (sum3 f l).
Proof. reflexivity. Qed.
Lemma emitters_cons s l : emitters (s :: l) = if emits s then s :: emitters l else emitters l.
Proof. reflexivity. Qed.
Lemma given_cons f ig s l : given f ig (s :: l) = add3 (wmom (part_of ig (f s) s)) (given f ig l).
Proof. reflexivity. Qed.
(** recoil takes exactly what the photons carry *)
Lemma recoil_momentum l : add3 (momentum (map (recoil igm) l)) (given delta igl (emitters l)) = momentum l.
Proof.
  rewrite !momentum_sum. induction l as [|s l IH]; [apply triple_eq; ring|].
  cbn [map]. rewrite !alive_cons, emitters_cons.
  replace (dead (recoil igm s)) with (dead s) by (unfold recoil; destruct (negb (dead s) && event s); reflexivity).
  destruct (dead s) eqn:E.
  - replace (emits s) with false by (unfold emits; rewrite E; reflexivity). exact IH.
  - rewrite !sum3_cons, <- IH. destruct (emits s) eqn:Em; unfold emits in Em.
    + rewrite given_cons. unfold recoil at 1. rewrite Em. destruct (sum3 wmom (alive (map (recoil igm) l))) as [[a1 a2] a3].
      destruct (given delta igl (emitters l)) as [[b1 b2] b3].
      unfold wmom, view, part_of; cbn [add3 p_w p_ux p_uy p_uz wt ux uy uz]. apply triple_eq; ring.
    + unfold recoil at 1. rewrite Em. symmetry. apply add3_assoc.
Qed.
(** a removed photon's momentum goes to the pair *)
Lemma remove_momentum l :
  add3 (momentum (map remove l)) (add3 (given delta igm (emitters l)) (given (fun g => 1 - delta g)%Qc igm (emitters l))) = momentum l.
Proof.
  rewrite !momentum_sum. induction l as [|s l IH]; [apply triple_eq; ring|].
  cbn [map]. rewrite !alive_cons, emitters_cons.
  replace (dead (remove s)) with (dead s || emits s)
    by (unfold remove, emits; destruct (dead s) eqn:E, (event s); cbn [negb andb orb dead]; congruence).
  destruct (dead s) eqn:E; cbn [orb].
  - replace (emits s) with false by (unfold emits; rewrite E; reflexivity). exact IH.
  - rewrite !sum3_cons, <- IH. destruct (emits s) eqn:Em; unfold emits in Em.
    + rewrite !given_cons. destruct (sum3 wmom (alive (map remove l))) as [[a1 a2] a3].
      destruct (given delta igm (emitters l)) as [[b1 b2] b3].
      destruct (given (fun g => 1 - delta g)%Qc igm (emitters l)) as [[c1 c2] c3].
      unfold wmom, view, part_of; cbn [add3 p_w p_ux p_uy p_uz wt ux uy uz]. apply triple_eq; ring.
    + rewrite sum3_cons. unfold remove at 1. rewrite Em. symmetry. apply add3_assoc.
Qed.
Lemma radiate_momentum i ph w w' : ph <> i -> radiate igl igm i ph w = Some w' ->
  add3 (momentum (w' i)) (momentum (w' ph)) = add3 (momentum (w i)) (momentum (w ph)).
Proof.
  intros Hp H. destruct (radiate_spec igl igm i ph w Hp) as [w'' [A [B [C _]]]].
  assert (w' = w'') by congruence. subst w''. rewrite B, <- (recoil_momentum (w i)).
  rewrite (momentum_sum (w' ph)), (sum3_perm wmom _ _ C), sum3_app, <- (momentum_sum (w ph)). fold (given delta igl (emitters (w i))).
  rewrite <- add3_assoc. f_equal. apply add3_comm.
Qed.
Lemma pairs_momentum i e q w w' : e <> i -> q <> i -> e <> q -> make_pairs igl igm i e q w = Some w' ->
  add3 (momentum (w' i)) (add3 (momentum (w' e)) (momentum (w' q)))
  = add3 (momentum (w i)) (add3 (momentum (w e)) (momentum (w q))).
Proof.
  intros H1 H2 H3 H. destruct (make_pairs_spec igl igm i e q w H1 H2 H3) as [w'' [A [B [C [D _]]]]].
  assert (w' = w'') by congruence. subst w''. rewrite B, <- (remove_momentum (w i)).
  rewrite (momentum_sum (w' e)), (sum3_perm wmom _ _ C), sum3_app, <- (momentum_sum (w e)). fold (given delta igm (emitters (w i))).
  rewrite (momentum_sum (w' q)), (sum3_perm wmom _ _ D), sum3_app, <- (momentum_sum (w q)).
  fold (given (fun g => 1 - delta g)%Qc igm (emitters (w i))).
  destruct (momentum (map remove (w i))) as [[? ?] ?], (momentum (w e)) as [[? ?] ?], (momentum (w q)) as [[? ?] ?],
    (given delta igm (emitters (w i))) as [[? ?] ?], (given (fun g => 1 - delta g)%Qc igm (emitters (w i))) as [[? ?] ?].
  apply triple_eq; ring.
Qed.

(** ** totals over all species *)
Lemma total_sum n w : total_momentum n w = sum3 (fun i => momentum (w i)) (seq 0 n).
Proof. reflexivity. Qed.
Lemma nodup_split (D : list nat) : forall l, NoDup D -> NoDup l -> incl D l ->
  exists r, Permutation l (D ++ r) /\ forall x, In x r -> ~ In x D.
Proof.
  induction D as [|d D IH]; intros l HD Hl Hi; [exists l; split; [apply Permutation_refl|intros x _ []]|].
  inversion HD as [|? ? Hd HD']; subst. destruct (in_split d l (Hi d (or_introl eq_refl))) as [l1 [l2 ->]].
  pose proof (NoDup_remove _ _ _ Hl) as [N1 N2].
  destruct (IH (l1 ++ l2) HD' N1) as [r [P Q]].
  - intros x Hx. assert (I := Hi x (or_intror Hx)). rewrite in_app_iff in I |- *. destruct I as [I|[I|I]]; [left; exact I| |right; exact I].
    subst x. contradiction.
  - exists r. split.
    + cbn [app]. apply Permutation_trans with (d :: l1 ++ l2); [apply Permutation_sym, Permutation_middle|]. apply perm_skip. exact P.
    + intros x Hx [<-|H]; [|exact (Q x Hx H)]. apply N2. apply (Permutation_in d (Permutation_sym P)). apply in_app_iff. right; exact Hx.
Qed.
Lemma total_change n D (w w' : world) : NoDup D -> (forall x, In x D -> x < n) ->
  (forall j, ~ In j D -> w' j = w j) ->
  sum3 (fun i => momentum (w' i)) D = sum3 (fun i => momentum (w i)) D ->
  total_momentum n w' = total_momentum n w.
Proof.
  intros HD Hn Hj Hs. rewrite !total_sum.
  destruct (nodup_split D (seq 0 n) HD (seq_NoDup n 0)) as [r [P Q]].
  { intros x Hx. apply in_seq. specialize (Hn x Hx). lia. }
  rewrite !(sum3_perm _ _ _ P), !sum3_app, Hs. f_equal. apply sum3_ext. intros a Ha. rewrite (Hj a (Q a Ha)). reflexivity.
Qed.

(** ** a step *)
Variable kinds : nat -> kind.
Variable enabled : nat -> bool.
Variable n : nat.
Hypothesis kinds_sane : sane n kinds.
Notation active i := (enabled i && is_qed kinds i).
Definition log_of (w : world) (i : nat) : list (nat * nat * Qc) := if active i then emissions i (w i) else [].
Lemma received_log i l l' : untouched l l' -> received l l' -> calm l -> emissions i l' = emissions i l.
Proof.
  intros Hu Hr Hc. destruct (Hr Hc) as [_ E]. unfold emissions. rewrite E. apply map_ext_in. intros a Ha.
  unfold event_index in Ha. destruct (index_from_range l 0 a Ha) as [_ H]. rewrite Nat.sub_0_r in H. rewrite (Hu a H). reflexivity.
Qed.
Lemma species_step i w : i < n -> exists w', create_species igl igm kinds enabled i w = Some (w', log_of w i)
  /\ total_momentum n w' = total_momentum n w
  /\ forall j, j <> i -> calm (w j) -> calm (w' j) /\ emissions j (w' j) = emissions j (w j).
Proof.
  intro Hi. specialize (kinds_sane i Hi). unfold create_species, log_of, is_qed.
  destruct (enabled i); cbn [andb]; [|exists w; split; [reflexivity|]; split; [reflexivity|intros; split; [assumption|reflexivity]]].
  destruct (kinds i) as [|ph|e q].
  - exists w. split; [reflexivity|]. split; [reflexivity|intros; split; [assumption|reflexivity]].
  - destruct kinds_sane as [H1 H2]. destruct (radiate_spec igl igm i ph w H1) as [w' [A [B [C [D [E F]]]]]]. exists w'. rewrite A.
    split; [reflexivity|]. split.
    + apply (total_change n [i; ph]).
      * constructor; [intros [X|[]]; congruence|]. constructor; [intros []|constructor].
      * intros x [<-|[<-|[]]]; assumption.
      * intros j Hj. apply F; intro; apply Hj; subst; cbn; tauto.
      * cbn [sum3 fold_right]. pose proof (radiate_momentum i ph w w' H1 A) as M.
        rewrite !add3_assoc, M. reflexivity.
    + intros j Hj Hc. destruct (Nat.eq_dec j ph) as [->|Hp].
      * split; [apply (E Hc)|]. apply received_log; assumption.
      * rewrite (F j Hj Hp). split; [exact Hc|reflexivity].
  - destruct kinds_sane as [H1 [H2 [H3 [H4 H5]]]].
    destruct (make_pairs_spec igl igm i e q w H1 H2 H3) as [w' [A [B [C [D [E1 [E2 [F1 [F2 G]]]]]]]]]. exists w'. rewrite A.
    split; [reflexivity|]. split.
    + apply (total_change n [i; e; q]).
      * constructor; [intros [X|[X|[]]]; congruence|]. constructor; [intros [X|[]]; congruence|]. constructor; [intros []|constructor].
      * intros x [<-|[<-|[<-|[]]]]; assumption.
      * intros j Hj. apply G; intro; apply Hj; subst; cbn; tauto.
      * cbn [sum3 fold_right]. pose proof (pairs_momentum i e q w w' H1 H2 H3 A) as M.
        rewrite (add3_comm (momentum (w' q))), (add3_comm (momentum (w q))), !add3_0. exact M.
    + intros j Hj Hc. destruct (Nat.eq_dec j e) as [->|He]; [|destruct (Nat.eq_dec j q) as [->|Hq]].
      * split; [apply (F1 Hc)|]. apply received_log; assumption.
      * split; [apply (F2 Hc)|]. apply received_log; assumption.
      * rewrite (G j Hj He Hq). split; [exact Hc|reflexivity].
Qed.
Lemma loop_step is_ : NoDup is_ -> (forall i, In i is_ -> i < n) -> forall w, (forall i, In i is_ -> active i = true -> calm (w i)) ->
  exists w', create_loop igl igm kinds enabled is_ w = Some (w', flat_map (log_of w) is_) /\ total_momentum n w' = total_momentum n w.
Proof.
  induction is_ as [|i is_ IH]; intros Hnd Hn w Hc; [exists w; split; reflexivity|].
  inversion Hnd as [|? ? Hni Hnd']; subst. cbn [create_loop flat_map].
  destruct (species_step i w (Hn i (or_introl eq_refl))) as [w1 [-> [M1 K]]].
  assert (Hk : forall j, In j is_ -> active j = true -> calm (w1 j) /\ emissions j (w1 j) = emissions j (w j)).
  { intros j Hj Ha. apply K; [intro; subst; contradiction|]. apply Hc; [right; exact Hj|exact Ha]. }
  destruct (IH Hnd' (fun j Hj => Hn j (or_intror Hj)) w1 (fun j Hj Ha => proj1 (Hk j Hj Ha))) as [w2 [-> M2]].
  exists w2. split; [|congruence]. do 3 f_equal.
  assert (X : forall l, (forall j, In j l -> In j is_) -> flat_map (log_of w1) l = flat_map (log_of w) l).
  { induction l as [|j l IHl]; intro Hl; [reflexivity|]. cbn [flat_map]. rewrite (IHl (fun x Hx => Hl x (or_intror Hx))). f_equal.
    unfold log_of. destruct (active j) eqn:Ea; [|reflexivity]. apply Hk; [apply Hl; left; reflexivity|exact Ea]. }
  apply X. auto.
Qed.
Lemma event_calm_from d l : forall k, calm (event_from k d l).
Proof.
  induction l as [|s l IH]; intros k x Hx; cbn [event_from] in Hx; [destruct Hx|]. destruct Hx as [<-|Hx]; [|apply (IH (S k) x Hx)].
  unfold event_slot. destruct (dead s) eqn:E; cbn [dead event]; [reflexivity|]. destruct (d k); cbn [dead]; congruence.
Qed.
Lemma event_alive_from d l : forall k, alive (event_from k d l) = alive l.
Proof.
  induction l as [|s l IH]; intro k; cbn [event_from]; [reflexivity|]. rewrite !alive_cons, IH.
  unfold event_slot. destruct (dead s) eqn:E; cbn [dead]; [reflexivity|]. destruct (d k); cbn [dead]; reflexivity.
Qed.
Lemma event_emissions_from d l : forall k base, (forall j, nth (k + j) base blank = nth j (event_from k d l) blank) ->
  map (fun a => (a, delta (nth a base blank))) (event_index_from k (event_from k d l)) = decided_from k d l.
Proof.
  induction l as [|s l IH]; intros k base Hb; cbn [event_from event_index_from decided_from]; [reflexivity|].
  assert (Hn : forall j, nth (S k + j) base blank = nth j (event_from (S k) d l) blank).
  { intro j. replace (S k + j) with (k + S j) by lia. rewrite (Hb (S j)). reflexivity. }
  assert (H0 := Hb 0). rewrite Nat.add_0_r in H0. cbn [event_from nth] in H0.
  unfold event_slot in *. destruct (dead s); cbn [dead event negb andb]; [apply IH; exact Hn|].
  destruct (d k) as [f|]; cbn [dead event negb andb].
  - cbn [map]. rewrite H0. cbn [delta]. f_equal. apply IH. exact Hn.
  - apply IH. exact Hn.
Qed.
Lemma event_emissions i d l : emissions i (event_stage d l) = decided i d l.
Proof.
  unfold emissions, decided, event_stage, event_index. rewrite <- (event_emissions_from d l 0 (event_from 0 d l)) by reflexivity.
  rewrite map_map. reflexivity.
Qed.
Lemma event_loop_spec decide is_ : NoDup is_ -> forall w j,
  event_loop kinds enabled decide is_ w j =
  if existsb (Nat.eqb j) is_ && active j then event_stage (decide j) (w j) else w j.
Proof.
  induction is_ as [|i is_ IH]; intros Hnd w j; cbn [event_loop existsb]; [reflexivity|].
  inversion Hnd as [|? ? Hni Hnd']; subst. rewrite (IH Hnd').
  destruct (Nat.eqb_spec j i) as [->|Hj]; cbn [orb].
  - assert (Ex : existsb (Nat.eqb i) is_ = false).
    { destruct (existsb (Nat.eqb i) is_) eqn:E; [|reflexivity]. apply existsb_exists in E. destruct E as [x [Hx Ex]].
      apply Nat.eqb_eq in Ex. subst x. contradiction. }
    rewrite Ex. cbn [andb]. destruct (active i); [apply set_same|reflexivity].
  - destruct (active i); [rewrite set_other by exact Hj|]; reflexivity.
Qed.
Lemma in_seq_b j : j < n -> existsb (Nat.eqb j) (seq 0 n) = true.
Proof. intro H. apply existsb_exists. exists j. split; [apply in_seq; lia|apply Nat.eqb_refl]. Qed.
Lemma qed_step_spec decide w :
  exists w', qed_step igl igm kinds enabled n decide w =
             Some (w', flat_map (fun i => if active i then decided i (decide i) (w i) else []) (seq 0 n))
          /\ total_momentum n w' = total_momentum n w.
Proof.
  unfold qed_step. set (w1 := event_loop kinds enabled decide (seq 0 n) w).
  assert (S1 : forall j, j < n -> w1 j = if active j then event_stage (decide j) (w j) else w j).
  { intros j Hj. unfold w1. rewrite event_loop_spec by apply seq_NoDup. rewrite in_seq_b by exact Hj. reflexivity. }
  destruct (loop_step (seq 0 n) (seq_NoDup n 0)) with (w := w1) as [w' [A B]].
  - intros i Hi. apply in_seq in Hi. lia.
  - intros i Hi Ha. rewrite S1 by (apply in_seq in Hi; lia). rewrite Ha. apply event_calm_from.
  - exists w'. rewrite A. split.
    + do 2 f_equal. assert (X : forall l, (forall j, In j l -> j < n) ->
        flat_map (log_of w1) l = flat_map (fun i => if active i then decided i (decide i) (w i) else []) l).
      { induction l as [|j l IHl]; intro Hl; [reflexivity|]. cbn [flat_map]. rewrite (IHl (fun x Hx => Hl x (or_intror Hx))). f_equal.
        unfold log_of. rewrite S1 by (apply Hl; left; reflexivity). destruct (active j); [apply event_emissions|reflexivity]. }
      apply X. intros j Hj. apply in_seq in Hj. lia.
    + rewrite B, !total_sum. apply sum3_ext. intros j Hj. apply in_seq in Hj. rewrite S1 by lia.
      destruct (active j); [|reflexivity]. rewrite !momentum_sum. f_equal. apply event_alive_from.
Qed.
End Qed.

Lemma alive_remove l : alive (map remove l) = map view (filter (fun s => negb (dead s) && negb (event s)) l).
Proof.
  induction l as [|s l IH]; [reflexivity|]. cbn [map filter]. rewrite alive_cons, IH. unfold remove.
  destruct (dead s) eqn:E; cbn [negb andb]; [rewrite E; reflexivity|]. destruct (event s); cbn [dead negb]; [reflexivity|].
  rewrite E. reflexivity.
Qed.
Lemma pairs_full igl igm i e q w : e <> i -> q <> i -> e <> q ->
  exists w', make_pairs igl igm i e q w = Some w'
  /\ alive (w' i) = map view (filter (fun s => negb (dead s) && negb (event s)) (w i))
  /\ Permutation (alive (w' e)) (alive (w e) ++ map (fun g => part_of igm (delta g) g) (emitters (w i)))
  /\ Permutation (alive (w' q)) (alive (w q) ++ map (fun g => part_of igm (1 - delta g)%Qc g) (emitters (w i)))
  /\ (forall k, dead (nth k (w e) blank) = false -> nth k (w' e) blank = nth k (w e) blank)
  /\ (forall k, dead (nth k (w q) blank) = false -> nth k (w' q) blank = nth k (w q) blank)
  /\ (forall j, j <> i -> j <> e -> j <> q -> w' j = w j).
Proof.
  intros H1 H2 H3. destruct (make_pairs_spec igl igm i e q w H1 H2 H3) as [w' [A [B [C [D [E1 [E2 [_ [_ G]]]]]]]]]. exists w'.
  split; [exact A|]. split; [rewrite B; apply alive_remove|]. exact (conj C (conj D (conj E1 (conj E2 G)))).
Qed.
Lemma alive_recoil igm l :
  alive (map (recoil igm) l) =
  map (fun s => if event s then part_of igm (1 - delta s)%Qc s else view s) (filter (fun s => negb (dead s)) l).
Proof.
  induction l as [|s l IH]; [reflexivity|]. cbn [map filter]. rewrite alive_cons, IH. unfold recoil.
  destruct (dead s) eqn:E; cbn [negb andb]; [rewrite E; reflexivity|]. destruct (event s) eqn:Ev; cbn [dead map]; rewrite ?E, Ev; [|reflexivity].
  f_equal. unfold view, part_of; cbn [pos ux uy uz inv_gamma wt].
  rewrite (Qcmult_comm (ux s)), (Qcmult_comm (uy s)), (Qcmult_comm (uz s)). reflexivity.
Qed.
