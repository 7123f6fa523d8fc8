(** Proofs about the random generators. *)
From Verif Require Import Base M_Random S_Random.
Local Open Scope list_scope.
Local Open Scope nat_scope.

Definition gid (g : gen) : source * list nat := (g_source g, g_key g).
Definition moved (us : list use) (g g' : gen) : Prop :=
  gid g' = gid g /\ g_drawn g <= g_drawn g' /\ (forall j, In (gid g, j) us -> g_drawn g <= j < g_drawn g').
Definition adv (gs : list gen) (us : list use) (gs' : list gen) : Prop :=
  NoDup us /\ Forall2 (moved us) gs gs' /\ (forall u, In u us -> In (fst u) (map gid gs)).

Lemma NoDup_app_intro {A} (a b : list A) : NoDup a -> NoDup b -> (forall x, In x a -> In x b -> False) -> NoDup (a ++ b).
Proof.
  induction a as [|x a IH]; intros Ha Hb D; [exact Hb|]. inversion Ha as [|? ? Hx Ha']; subst. cbn [app]. constructor.
  - rewrite in_app_iff. intros [I|I]; [exact (Hx I)|exact (D x (or_introl eq_refl) I)].
  - apply IH; [exact Ha'|exact Hb|]. intros y Iy. apply D. right. exact Iy.
Qed.
Lemma moved_more us us' g g' : moved us g g' -> (forall j, In (gid g, j) us' -> In (gid g, j) us) -> moved us' g g'.
Proof. intros (A & B & C) S. split; [exact A|]. split; [exact B|]. intros j I. apply C. apply S. exact I. Qed.
Lemma Forall2_ids us gs gs' : Forall2 (moved us) gs gs' -> map gid gs' = map gid gs.
Proof. induction 1 as [|g g' gs gs' (E & _) _ IH]; [reflexivity|]. cbn [map]. rewrite E, IH. reflexivity. Qed.
Lemma still us gs : (forall g j, In g gs -> ~ In (gid g, j) us) -> Forall2 (moved us) gs gs.
Proof.
  induction gs as [|g gs IH]; intro N; constructor.
  - split; [reflexivity|]. split; [lia|]. intros j I. destruct (N g j (or_introl eq_refl) I).
  - apply IH. intros h j Ih. apply N. right. exact Ih.
Qed.
Lemma Forall2_more us us' gs gs' : Forall2 (moved us) gs gs' -> (forall g j, In g gs -> In (gid g, j) us' -> In (gid g, j) us) -> Forall2 (moved us') gs gs'.
Proof.
  induction 1 as [|g g' gs gs' M _ IH]; intro S; constructor.
  - apply (moved_more us); [exact M|]. intro j. apply S. left. reflexivity.
  - apply IH. intros h j Ih. apply S. right. exact Ih.
Qed.
Lemma in_draw g n u : In u (fst (draw g n)) <-> fst u = gid g /\ g_drawn g <= snd u < g_drawn g + n.
Proof.
  unfold draw. cbn [fst]. rewrite in_map_iff. destruct u as [i j]. cbn [fst snd]. split.
  - intros (k & E & I). apply in_seq in I. injection E as E1 E2. subst. split; [reflexivity|lia].
  - intros [E I]. exists j. split; [|apply in_seq; lia]. unfold gid in E. subst i. reflexivity.
Qed.
Lemma draw_each_adv gs : NoDup (map gid gs) -> forall counts, adv gs (fst (draw_each gs counts)) (snd (draw_each gs counts)).
Proof.
  assert (forall gs, adv gs [] gs) as Z.
  { intro l. split; [constructor|]. split; [apply still; intros ? ? ? []|intros ? []]. }
  induction gs as [|g gs IH]; intros N counts; [apply Z|]. destruct counts as [|n counts]; [apply Z|].
  inversion N as [|? ? Hg N']; subst. specialize (IH N' counts). cbn [draw_each].
  pose proof (in_draw g n) as D. destruct (draw g n) as [u g'] eqn:Ed. destruct (draw_each gs counts) as [us gs'] eqn:E. cbn [fst snd] in *.
  destruct IH as (A & B & C).
  assert (forall x, In x u -> In x us -> False) as X.
  { intros x I I'. apply Hg. apply D in I. destruct I as [I _]. rewrite <- I. apply C. exact I'. }
  assert (g_drawn g' = g_drawn g + n /\ gid g' = gid g) as [Dg Ig] by (unfold draw in Ed; injection Ed as _ <-; split; reflexivity).
  split; [|split].
  - apply NoDup_app_intro; [|exact A|exact X]. unfold draw in Ed. injection Ed as <- _. apply FinFun.Injective_map_NoDup; [|apply seq_NoDup]. intros a b Eab. injection Eab as Eab. exact Eab.
  - constructor.
    + split; [exact Ig|]. split; [lia|]. intros j I. apply in_app_or in I. destruct I as [I|I]; [apply D in I; cbn [snd] in I; lia|]. destruct (Hg (C _ I)).
    + apply (Forall2_more us); [exact B|]. intros h j Ih I. apply in_app_or in I. destruct I as [I|I]; [|exact I].
      apply D in I. destruct I as [I _]. cbn [fst] in I. destruct Hg. rewrite <- I. apply in_map. exact Ih.
  - intros x I. cbn [map]. apply in_app_or in I. destruct I as [I|I]; [left; apply D in I; symmetry; apply I|right; apply C; exact I].
Qed.
Lemma adv_trans gs us gs1 us1 gs2 : adv gs us gs1 -> adv gs1 us1 gs2 -> adv gs (us ++ us1) gs2.
Proof.
  intros (A & B & C) (A1 & B1 & C1). pose proof (Forall2_ids _ _ _ B) as E.
  assert (Forall2 (moved (us ++ us1)) gs gs2) as F.
  { clear - B B1. revert gs2 B1. induction B as [|g g' gs gs' M _ IH]; intros gs2 B1; inversion B1 as [|? h ? gs2' M1 B1']; subst; constructor; [|apply IH; exact B1'].
    destruct M as (M & L & U). destruct M1 as (M1 & L1 & U1). split; [congruence|]. split; [lia|]. intros j I. apply in_app_or in I. destruct I as [I|I]; [apply U in I; lia|]. rewrite <- M in I. apply U1 in I. lia. }
  assert (forall u, In u us1 -> In (fst u) (map gid gs)) as C1' by (intros u I; rewrite <- E; apply C1; exact I).
  split; [|split; [exact F|]].
  - apply NoDup_app_intro; [exact A|exact A1|]. intros [i j] I I1. pose proof (C _ I) as K. cbn [fst] in K. clear - B B1 K I I1.
    revert gs2 B1. induction B as [|g g' gs gs' M _ IH]; intros gs2 B1; [destruct K|]. inversion B1 as [|? h ? gs2' M1 B1']; subst. destruct K as [<- |K]; [|exact (IH K _ B1')].
    destruct M as (M & L & U). destruct M1 as (M1 & L1 & U1). apply U in I. rewrite <- M in I1. apply U1 in I1. lia.
  - intros u I. apply in_app_or in I. destruct I as [I|I]; [apply C|apply C1']; exact I.
Qed.
Lemma draw_rounds_adv rounds : forall gs, NoDup (map gid gs) -> adv gs (fst (draw_rounds gs rounds)) (snd (draw_rounds gs rounds)).
Proof.
  induction rounds as [|c rounds IH]; intros gs N.
  - split; [constructor|]. split; [apply still; intros ? ? ? []|intros ? []].
  - cbn [draw_rounds]. pose proof (draw_each_adv gs N c) as A. destruct (draw_each gs c) as [u gs'] eqn:E. cbn [fst snd] in A.
    assert (NoDup (map gid gs')) as N' by (rewrite (Forall2_ids _ _ _ (proj1 (proj2 A))); exact N).
    specialize (IH gs' N'). destruct (draw_rounds gs' rounds) as [us gs''] eqn:E'. cbn [fst snd] in *. exact (adv_trans _ _ _ _ _ A IH).
Qed.

(** ** the invariant of one process *)
Section Process.
Variable e : source.
Variable k : list nat.
Variable rank : nat.

Definition child_id (i : nat) : source * list nat := (e, k ++ [i]).
Definition child (n : nat) (x : source * list nat) : Prop := exists i, i < n /\ x = child_id i.
Definition thread (R : list nat) (x : source * list nat) : Prop := exists run t, In run R /\ x = (System run rank (S t), []).
Definition colls (p : proc) : list gen := match p_coll p with Some gs => gs | None => [] end.
Definition live_in (U : list use) (gs : list gen) : Prop := NoDup (map gid gs) /\ (forall g j, In g gs -> In (gid g, j) U -> j < g_drawn g).

Record inv (R : list nat) (U : list use) (p : proc) : Prop := mkInv {
  i_nodup : NoDup U;
  i_root : gid (p_gen p) = (e, k);
  i_uses : forall u, In u U -> child (g_children (p_gen p)) (fst u) \/ thread R (fst u);
  i_coll : live_in U (colls p);
  i_coll_ids : forall g, In g (colls p) -> child (g_children (p_gen p)) (gid g);
  i_thr : live_in U (p_threads p);
  i_thr_ids : forall g, In g (p_threads p) -> thread R (gid g) }.

Lemma child_not_thread n R x : child n x -> thread R x -> False.
Proof. intros (i & _ & ->) (run & t & _ & E). unfold child_id in E. injection E as _ E. destruct k; discriminate. Qed.
Lemma child_inj i j : child_id i = child_id j -> i = j.
Proof. unfold child_id. intro E. injection E as E. apply app_inv_head in E. injection E as E. exact E. Qed.
Lemma child_up n m x : n <= m -> child n x -> child m x.
Proof. intros L (i & H & E). exists i. split; [lia|exact E]. Qed.

Lemma live_app U us gs : live_in U gs -> (forall g j, In g gs -> ~ In (gid g, j) us) -> live_in (U ++ us) gs.
Proof. intros (N & L) D. split; [exact N|]. intros g j Ig I. apply in_app_or in I. destruct I as [I|I]; [exact (L g j Ig I)|destruct (D g j Ig I)]. Qed.
Lemma live_moved U us gs gs' : live_in U gs -> adv gs us gs' -> live_in (U ++ us) gs' /\ (forall u, In u U -> In u us -> False).
Proof.
  intros (N & L) (_ & B & C). split; [split|].
  - rewrite (Forall2_ids _ _ _ B). exact N.
  - clear N C. revert L. induction B as [|g g' gs gs' M _ IH]; intros L h j Ih I; [destruct Ih|]. destruct Ih as [<- |Ih].
    + destruct M as (M & L1 & U1). rewrite M in I. apply in_app_or in I. destruct I as [I|I]; [specialize (L g j (or_introl eq_refl) I); lia|apply U1 in I; lia].
    + refine (IH _ h j Ih I). intros; apply L; [right|]; assumption.
  - intros [i j] I I'. pose proof (C _ I') as K. cbn [fst] in K. clear N C. revert L. induction B as [|g g' gs gs' M _ IH]; intros L; [destruct K|]. destruct K as [<- |K].
    + destruct M as (_ & _ & U1). apply U1 in I'. specialize (L g j (or_introl eq_refl) I). lia.
    + apply (IH K). intros; apply L; [right|]; assumption.
Qed.

(** generators spawned now *)
Definition young (g : gen) (n : nat) : list gen := fst (spawn g n).
Lemma young_ids g n : gid g = (e, k) -> map gid (young g n) = map child_id (seq (g_children g) n).
Proof. intro E. unfold gid in E. injection E as E1 E2. unfold young, spawn. cbn [fst]. rewrite map_map. apply map_ext. intro i. unfold gid, child_id. cbn [g_source g_key]. congruence. Qed.
Lemma young_nodup g n : gid g = (e, k) -> NoDup (map gid (young g n)).
Proof. intro E. rewrite young_ids by exact E. apply FinFun.Injective_map_NoDup; [exact child_inj|apply seq_NoDup]. Qed.
Lemma young_new g n x : gid g = (e, k) -> In x (map gid (young g n)) -> exists i, g_children g <= i < g_children g + n /\ x = child_id i.
Proof. intros E I. rewrite young_ids in I by exact E. apply in_map_iff in I. destruct I as (i & Ei & I). apply in_seq in I. exists i. split; [lia|congruence]. Qed.
Lemma young_live R U p n : inv R U p -> live_in U (young (p_gen p) n).
Proof.
  intro V. split; [apply young_nodup; apply V|]. intros g j Ig I. apply (in_map gid) in Ig. apply young_new in Ig; [|apply V]. destruct Ig as (i & Hi & E).
  destruct (i_uses _ _ _ V _ I) as [C|T]; cbn [fst] in *; rewrite E in *.
  - destruct C as (i' & Hi' & E'). apply child_inj in E'. lia.
  - destruct (child_not_thread (S i) R (child_id i)); [exists i; split; [lia|reflexivity]|exact T].
Qed.
Definition older (p : proc) (n : nat) : proc := mkProc (snd (spawn (p_gen p) n)) (p_patches p) (p_coll p) (p_threads p).

(** spawning and using at once *)
Lemma inv_young R U p n us gs' : inv R U p -> adv (young (p_gen p) n) us gs' -> inv R (U ++ us) (older p n).
Proof.
  intros V A. pose proof (live_moved _ _ _ _ (young_live R U p n V) A) as [_ D]. destruct A as (Nu & B & C).
  assert (forall u, In u us -> exists i, g_children (p_gen p) <= i < g_children (p_gen p) + n /\ fst u = child_id i) as F by (intros u I; apply young_new; [apply V|apply C; exact I]).
  assert (forall (gs : list gen) g j, (forall g, In g gs -> child (g_children (p_gen p)) (gid g) \/ thread R (gid g)) -> In g gs -> ~ In (gid g, j) us) as Q.
  { intros gs g j H Ig I. destruct (F _ I) as (i & Hi & E). cbn [fst] in E. destruct (H g Ig) as [K|T]; rewrite E in *.
    - destruct K as (i' & Hi' & E'). apply child_inj in E'. lia.
    - destruct (child_not_thread (S i) R (child_id i)); [exists i; split; [lia|reflexivity]|exact T]. }
  constructor.
  - apply NoDup_app_intro; [apply V|exact Nu|exact D].
  - exact (i_root _ _ _ V).
  - intros u I. unfold older, spawn. cbn [p_gen snd g_children]. apply in_app_or in I. destruct I as [I|I].
    + destruct (i_uses _ _ _ V u I) as [K|T]; [left; apply (child_up (g_children (p_gen p))); [lia|exact K]|right; exact T].
    + destruct (F u I) as (i & Hi & E). left. exists i. split; [lia|exact E].
  - apply live_app; [apply V|]. intros g j Ig. apply (Q (colls p)); [|exact Ig]. intros h Ih. left. apply (i_coll_ids _ _ _ V h Ih).
  - intros g Ig. apply (child_up (g_children (p_gen p))); [unfold older, spawn; cbn; lia|]. apply (i_coll_ids _ _ _ V g Ig).
  - apply live_app; [apply V|]. intros g j Ig. apply (Q (p_threads p)); [|exact Ig]. intros h Ih. right. apply (i_thr_ids _ _ _ V h Ih).
  - exact (i_thr_ids _ _ _ V).
Qed.
Lemma inv_renew R U p : inv R U p -> inv R U (renew p).
Proof.
  intro V. unfold renew. pose proof (young_live R U p (p_patches p) V) as Y. unfold young in Y. pose proof (young_new (p_gen p) (p_patches p)) as W. unfold young in W.
  assert (g_children (snd (spawn (p_gen p) (p_patches p))) = g_children (p_gen p) + p_patches p) as G by reflexivity.
  assert (gid (snd (spawn (p_gen p) (p_patches p))) = gid (p_gen p)) as E by reflexivity.
  destruct (spawn (p_gen p) (p_patches p)) as [gs g]. cbn [fst snd] in *. constructor; cbn [p_gen p_threads p_coll colls].
  - apply V.
  - rewrite E. apply V.
  - intros u I. rewrite G. destruct (i_uses _ _ _ V u I) as [K|T]; [left; apply (child_up (g_children (p_gen p))); [lia|exact K]|right; exact T].
  - exact Y.
  - intros h Ih. apply (in_map gid) in Ih. apply W in Ih; [|apply V]. destruct Ih as (i & Hi & Ei). exists i. split; [lia|exact Ei].
  - apply V.
  - apply V.
Qed.
Lemma inv_window R U rounds : forall p U0, U0 = U -> inv R U0 p -> inv R (U0 ++ fst (window_rounds (p_gen p) rounds)) (mkProc (snd (window_rounds (p_gen p) rounds)) (p_patches p) (p_coll p) (p_threads p)).
Proof.
  revert U. induction rounds as [|c rounds IH]; intros U p U0 -> V.
  - cbn [window_rounds fst snd]. rewrite app_nil_r. destruct p. exact V.
  - cbn [window_rounds]. pose proof (inv_young R U p (length c) _ _ V (draw_each_adv (young (p_gen p) (length c)) (young_nodup _ _ (i_root _ _ _ V)) c)) as V1.
    unfold young, older in V1. destruct (spawn (p_gen p) (length c)) as [gs g']. cbn [fst snd] in V1. specialize (IH _ _ _ eq_refl V1). cbn [p_gen p_patches p_coll p_threads] in IH.
    destruct (window_rounds g' rounds) as [us g'']. cbn [fst snd] in *. rewrite app_assoc. exact IH.
Qed.

Lemma inv_more R R' U p : (forall r, In r R -> In r R') -> inv R U p -> inv R' U p.
Proof.
  intros S V. assert (forall x, thread R x -> thread R' x) as T by (intros x (r & t & I & E); exists r, t; auto).
  constructor; try apply V.
  - intros u I. destruct (i_uses _ _ _ V u I); auto.
  - intros g I. apply T. apply (i_thr_ids _ _ _ V g I).
Qed.
Lemma inv_patches R U p n : inv R U p -> inv R U (mkProc (p_gen p) n (p_coll p) (p_threads p)).
Proof. intro V. constructor; try apply V. Qed.
Lemma inv_restarted R U p run : inv R U p -> ~ In run R -> NoDup (map gid (map (restarted run) (p_threads p))) -> inv (run :: R) U (mkProc (p_gen p) (p_patches p) (p_coll p) (map (restarted run) (p_threads p))).
Proof.
  intros V N ND. assert (forall g, In g (map (restarted run) (p_threads p)) -> exists t, gid g = (System run rank (S t), [])) as K.
  { intros g I. apply in_map_iff in I. destruct I as (h & <- & I). destruct (i_thr_ids _ _ _ V h I) as (r & t & _ & E). exists t. unfold gid in E. injection E as E1 E2. unfold restarted. rewrite E1. reflexivity. }
  assert (inv (run :: R) U p) as V' by (apply (inv_more R); [intros; right; assumption|exact V]).
  constructor; cbn [p_gen p_patches p_coll p_threads]; try apply V'.
  - split; [exact ND|]. intros g j Ig I. destruct (K g Ig) as (t & E). rewrite E in I. destruct (i_uses _ _ _ V _ I) as [C|(r & t' & Ir & E')]; cbn [fst] in *.
    + destruct (child_not_thread _ [run] _ C). exists run, t. split; [left|]; reflexivity.
    + injection E' as -> _. destruct (N Ir).
  - intros g Ig. destruct (K g Ig) as (t & E). exists run, t. split; [left; reflexivity|exact E].
Qed.
Lemma restarted_ids R U p run : inv R U p -> (forall g g', In g (p_threads p) -> In g' (p_threads p) -> gid (restarted run g) = gid (restarted run g') -> gid g = gid g') -> NoDup (map gid (map (restarted run) (p_threads p))).
Proof.
  intros V H. destruct (i_thr _ _ _ V) as [N _]. clear V. induction (p_threads p) as [|g l IH]; [constructor|]. cbn [map] in *. inversion N as [|? ? Hg N']; subst. constructor.
  - intro I. rewrite map_map in I. apply in_map_iff in I. destruct I as (h & E & I). apply Hg. rewrite (H g h); [apply in_map; exact I|left; reflexivity|right; exact I|symmetry; exact E].
  - apply IH; [|exact N']. intros; apply H; [right|right|]; assumption.
Qed.

(** one interpreter at a time: all threads belong to the current run *)
Definition current (run : nat) (p : proc) : Prop := forall g, In g (p_threads p) -> exists t, gid g = (System run rank (S t), []).
Lemma current_ids p run0 run : current run0 p -> forall g g', In g (p_threads p) -> In g' (p_threads p) -> gid (restarted run g) = gid (restarted run g') -> gid g = gid g'.
Proof.
  intros C g g' I I' E. destruct (C g I) as (t & Et). destruct (C g' I') as (t' & Et'). rewrite Et, Et'. unfold gid in Et, Et'. injection Et as A _. injection Et' as A' _.
  unfold restarted in E. rewrite A, A' in E. unfold gid in E. cbn [g_source g_key default_rng] in E. congruence.
Qed.

Lemma happen_inv R U p run0 ev : inv R U p -> current run0 p -> (forall run, ev = Resume run -> ~ In run R) ->
  let (us, p') := happen p ev in inv (later_runs [ev] ++ R) (U ++ us) p' /\ exists run1, current run1 p'.
Proof.
  intros V C F. destruct ev as [rounds|rounds|n| |rounds|n|run|counts]; unfold later_runs; cbn [flat_map app happen].
  - pose proof (inv_young R U p (p_patches p) _ _ V (draw_rounds_adv rounds (young (p_gen p) (p_patches p)) (young_nodup _ _ (i_root _ _ _ V)))) as V1. unfold young, older in V1.
    destruct (spawn (p_gen p) (p_patches p)) as [gs g]. cbn [fst snd] in V1. split; [exact V1|exists run0; exact C].
  - pose proof (inv_window R U rounds p U eq_refl V) as V1. destruct (window_rounds (p_gen p) rounds) as [us g]. split; [exact V1|exists run0; exact C].
  - pose proof (inv_young R U p 1 _ _ V (draw_each_adv (young (p_gen p) 1) (young_nodup _ _ (i_root _ _ _ V)) [n])) as V1. unfold young, older in V1.
    destruct (spawn (p_gen p) 1) as [gs g]. split; [exact V1|exists run0; exact C].
  - rewrite app_nil_r. split; [apply inv_renew; exact V|exists run0; exact C].
  - pose proof (i_coll _ _ _ V) as L. pose proof (i_coll_ids _ _ _ V) as LI. unfold colls in L, LI. destruct (p_coll p) as [gs|] eqn:E.
    2:{ rewrite app_nil_r. split; [exact V|exists run0; exact C]. }
    pose proof (draw_rounds_adv rounds gs (proj1 L)) as A. destruct (draw_rounds gs rounds) as [us gs']. cbn [fst snd] in A.
    destruct (live_moved _ _ _ _ L A) as [L' D]. destruct A as (Nu & B & K). split; [|exists run0; exact C].
    constructor; cbn [p_gen p_patches p_coll p_threads colls].
    + apply NoDup_app_intro; [apply V|exact Nu|exact D].
    + apply V.
    + intros u I. apply in_app_or in I. destruct I as [I|I]; [apply (i_uses _ _ _ V u I)|]. left. specialize (K u I). apply in_map_iff in K. destruct K as (g & <- & Ig). exact (LI g Ig).
    + exact L'.
    + intros g Ig. apply (in_map gid) in Ig. rewrite (Forall2_ids _ _ _ B) in Ig. apply in_map_iff in Ig. destruct Ig as (h & <- & Ih). exact (LI h Ih).
    + apply live_app; [apply V|]. intros g j Ig I. specialize (K _ I). cbn [fst] in K. apply in_map_iff in K. destruct K as (h & E' & Ih).
      apply (child_not_thread _ R (gid g)) with (1 := eq_ind _ (child _) (LI h Ih) _ E'). exact (i_thr_ids _ _ _ V g Ig).
    + apply V.
  - rewrite app_nil_r. destruct (p_coll p) eqn:E; (split; [|exists run0; exact C]); rewrite <- E; [apply inv_renew|]; apply inv_patches; exact V.
  - rewrite app_nil_r.
    assert (current run (mkProc (p_gen p) (p_patches p) (p_coll p) (map (restarted run) (p_threads p)))) as C1.
    { intros g I. cbn [p_threads] in I. apply in_map_iff in I. destruct I as (h & <- & I). destruct (C h I) as (t & Et). exists t. unfold gid in Et. injection Et as E1 E2. unfold restarted. rewrite E1. reflexivity. }
    pose proof (inv_restarted R U p run V (F run eq_refl) (restarted_ids R U p run V (current_ids p run0 run C))) as V1.
    destruct (p_coll p) eqn:E; (split; [|exists run]); [apply inv_renew; exact V1|exact C1|exact V1|exact C1].
  - pose proof (i_thr _ _ _ V) as L. pose proof (draw_each_adv (p_threads p) (proj1 L) counts) as A. destruct (draw_each (p_threads p) counts) as [us ts]. cbn [fst snd] in A.
    destruct (live_moved _ _ _ _ L A) as [L' D]. destruct A as (Nu & B & K). pose proof (Forall2_ids _ _ _ B) as EI.
    assert (forall g, In g ts -> exists h, In h (p_threads p) /\ gid h = gid g) as TT by (intros g Ig; apply (in_map gid) in Ig; rewrite EI in Ig; apply in_map_iff in Ig; destruct Ig as (h & E & Ih); exists h; auto).
    split.
    + constructor; cbn [p_gen p_patches p_coll p_threads].
      * apply NoDup_app_intro; [apply V|exact Nu|exact D].
      * apply V.
      * intros u I. apply in_app_or in I. destruct I as [I|I]; [apply (i_uses _ _ _ V u I)|]. right. specialize (K u I). apply in_map_iff in K. destruct K as (g & <- & Ig). apply (i_thr_ids _ _ _ V g Ig).
      * apply live_app; [apply V|]. intros g j Ig I. specialize (K _ I). cbn [fst] in K. apply in_map_iff in K. destruct K as (h & E & Ih).
        apply (child_not_thread _ R (gid g) (i_coll_ids _ _ _ V g Ig)). rewrite <- E. exact (i_thr_ids _ _ _ V h Ih).
      * apply V.
      * exact L'.
      * intros g Ig. destruct (TT g Ig) as (h & Ih & E). rewrite <- E. exact (i_thr_ids _ _ _ V h Ih).
    + exists run0. intros g Ig. destruct (TT g Ig) as (h & Ih & E). rewrite <- E. exact (C h Ih).
Qed.

Lemma happenings_inv es : forall R U p run0, inv R U p -> current run0 p -> NoDup (later_runs es) -> (forall r, In r (later_runs es) -> ~ In r R) ->
  exists R', inv R' (U ++ fst (happenings p es)) (snd (happenings p es)).
Proof.
  induction es as [|ev es IH]; intros R U p run0 V C N F.
  - exists R. cbn [happenings fst snd]. rewrite app_nil_r. exact V.
  - cbn [happenings]. pose proof (happen_inv R U p run0 ev V C) as H. destruct (happen p ev) as [us p'].
    unfold later_runs in N, F. cbn [flat_map] in N, F. fold (later_runs es) in N, F.
    destruct H as (V1 & run1 & C1). { intros run ->. apply F. left. reflexivity. }
    assert (NoDup (later_runs es) /\ (forall r, In r (later_runs es) -> ~ In r (later_runs [ev] ++ R))) as [N1 F1].
    { unfold later_runs at 3. cbn [flat_map]. rewrite app_nil_r. split.
      - destruct ev; try exact N. inversion N; assumption.
      - intros r Ir I. apply in_app_or in I. destruct I as [I|I]; [|apply (F r); [apply in_or_app; right; exact Ir|exact I]].
        destruct ev as [?|?|?| |?|?|rn|?]; try destruct I; [|contradiction]. subst. inversion N as [|? ? Hn _]; subst. exact (Hn Ir). }
    destruct (IH _ _ _ run1 V1 C1 N1 F1) as (R' & V2). exists R'. destruct (happenings p' es) as [us' p'']. cbn [fst snd] in *. rewrite app_assoc. exact V2.
Qed.
End Process.
