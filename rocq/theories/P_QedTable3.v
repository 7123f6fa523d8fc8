From Verif Require Import Base M_QedTable S_QedTable P_QedTable.
From Coq Require Import QArith Lqa.
Local Open Scope nat_scope.

(** the state after k events with depth acc passed since *)
Definition consistent (dr : draws) (k : nat) (acc : Q) (s : depth_state) : Prop :=
  match tau s with
  | None => drawn s = k /\ (acc == 0)%Q
  | Some x => drawn s = S k /\ (x == dr k - acc)%Q /\ (0 < x)%Q
  end.

Definition run_events e dr h s := snd (depth_run e dr h s).
Lemma run_cons e dr st h s : run_events e dr (st :: h) s = snd (depth_one e dr st s) :: run_events e dr h (fst (depth_one e dr st s)).
Proof.
  unfold run_events. cbn [depth_run]. destruct (depth_one e dr st s) as [s1 b]. cbn [fst snd].
  destruct (depth_run e dr h s1); reflexivity.
Qed.

Lemma crosses_spec e x d : crosses e (x - d) = true <-> reached e x d.
Proof.
  destruct e; cbn [crosses reached].
  - rewrite qle_false. split; intro; lra.
  - rewrite Qle_bool_iff. split; intro; lra.
Qed.
Lemma reached_ext e a b x y : (a - x == b - y)%Q -> reached e a x -> reached e b y.
Proof. destruct e; cbn [reached]; intros; lra. Qed.

Lemma one_step e dr st s k acc :
  (forall n, (0 < dr n)%Q) -> consistent dr k acc s ->
  (e = ElectronLike -> forall d, st = Depth d -> ~ (acc + d == dr k)%Q) ->
  match st with
  | Idle => snd (depth_one e dr st s) = false /\ fst (depth_one e dr st s) = s
  | Depth d =>
      (snd (depth_one e dr st s) = true <-> reached e (dr k) (acc + d)) /\
      consistent dr (if snd (depth_one e dr st s) then S k else k) (if snd (depth_one e dr st s) then 0%Q else acc + d)%Q
        (fst (depth_one e dr st s))
  end.
Proof.
  intros Hd Hc Hn. destruct st as [|d]; [split; reflexivity|].
  assert (exists x0, (x0 == dr k - acc)%Q /\
    depth_one e dr (Depth d) s =
      (if crosses e (x0 - d) then (mkDepth (Some (dr (S k))) (S (S k)), true) else (mkDepth (Some (x0 - d)%Q) (S k), false))) as (x0 & Hx & E).
  { unfold consistent in Hc. cbn [depth_one]. destruct (tau s) as [x|] eqn:Et.
    - destruct Hc as (Hk & Hx & Hp). destruct (Qeq_bool x 0) eqn:Eq; [apply Qeq_bool_iff in Eq; lra|].
      exists x. rewrite Hk. split; [exact Hx|reflexivity].
    - destruct Hc as (Hk & Ha). exists (dr k). rewrite Hk. split; [lra|reflexivity]. }
  rewrite E. pose proof (crosses_spec e x0 d) as C.
  assert (reached e x0 d <-> reached e (dr k) (acc + d)) as R.
  { split; apply reached_ext; lra. }
  destruct (crosses e (x0 - d)) eqn:Ec; cbn [fst snd].
  - split; [rewrite <- R, <- C; tauto|]. unfold consistent. cbn [tau drawn]. split; [reflexivity|]. split; [lra|apply Hd].
  - split; [rewrite <- R, <- C; tauto|]. unfold consistent. cbn [tau drawn]. split; [reflexivity|]. split; [lra|].
    assert (~ reached e x0 d) as Nr by (rewrite <- C; discriminate).
    destruct e; cbn [reached] in Nr.
    + specialize (Hn eq_refl d eq_refl). destruct (Qlt_le_dec 0 (x0 - d)) as [L|L]; [exact L|]. exfalso.
      assert (~ (acc + d < dr k)%Q) by lra. destruct (Q_dec (acc + d) (dr k)) as [[G|G]|G]; [lra|lra|contradiction].
    + lra.
Qed.

Lemma number_cons b ev : number (b :: ev) = (if b then 1 else 0) + number ev.
Proof. unfold number. apply countb_cons. Qed.

Lemma passed_ext h : forall ev a b, (a == b)%Q -> (passed a h ev == passed b h ev)%Q.
Proof.
  induction h as [|[|d] h IH]; intros [|b ev] x y H; cbn [passed]; auto. destruct b; apply IH; [reflexivity|lra].
Qed.

Lemma run_general e dr h : forall s k acc,
  (forall n, (0 < dr n)%Q) -> consistent dr k acc s ->
  (e = ElectronLike -> forall t d, nth_error h t = Some (Depth d) ->
     ~ (passed acc (firstn t h) (firstn t (run_events e dr h s)) + d == dr (k + number (firstn t (run_events e dr h s)))%nat)%Q) ->
  length (run_events e dr h s) = length h /\
  forall t st, nth_error h t = Some st ->
    (nth t (run_events e dr h s) false = true <->
     exists d, st = Depth d /\
       reached e (dr (k + number (firstn t (run_events e dr h s)))) (passed acc (firstn t h) (firstn t (run_events e dr h s)) + d)).
Proof.
  induction h as [|st h IH]; intros s k acc Hd Hc Hn.
  - split; [reflexivity|]. intros [|t] st H; discriminate.
  - rewrite run_cons in *.
    assert (e = ElectronLike -> forall d, st = Depth d -> ~ (acc + d == dr k)%Q) as Hn0.
    { intros He d Es. specialize (Hn He 0%nat d). cbn [nth_error firstn passed number countb filter length] in Hn.
      rewrite Nat.add_0_r in Hn. apply Hn. now rewrite Es. }
    pose proof (one_step e dr st s k acc Hd Hc Hn0) as O.
    destruct (depth_one e dr st s) as [s1 b] eqn:E1. cbn [fst snd] in *.
    set (k1 := if b then S k else k). set (acc1 := match st with Idle => acc | Depth d => if b then 0%Q else (acc + d)%Q end).
    assert (consistent dr k1 acc1 s1) as Hc1.
    { unfold k1, acc1. destruct st as [|d]; [destruct O as [-> ->]; exact Hc|]. destruct O as [_ O]. exact O. }
    assert (forall t, passed acc (firstn (S t) (st :: h)) (firstn (S t) (b :: run_events e dr h s1)) =
                      passed acc1 (firstn t h) (firstn t (run_events e dr h s1))) as Pa.
    { intro t. cbn [firstn passed]. unfold acc1. destruct st; reflexivity. }
    assert (forall t, k + number (firstn (S t) (b :: run_events e dr h s1)) = k1 + number (firstn t (run_events e dr h s1))) as Na.
    { intro t. cbn [firstn]. rewrite number_cons. unfold k1. destruct b; lia. }
    destruct (IH s1 k1 acc1 Hd Hc1) as [L IHt].
    { intros He t d Ht. rewrite <- Pa, <- Na. apply (Hn He (S t) d Ht). }
    split; [cbn [length]; lia|]. intros [|t] st' Ht.
    + cbn [nth_error] in Ht. apply (f_equal (fun o => match o with Some a => a | None => st end)) in Ht. subst st'.
      cbn [nth firstn passed number countb filter length]. rewrite Nat.add_0_r.
      destruct st as [|d].
      * destruct O as [-> _]. split; [discriminate|]. intros (d & X & _). discriminate.
      * destruct O as [O _]. rewrite O. split; [intro R; exists d; auto|]. intros (d' & X & R). now injection X as <-.
    + rewrite Pa, Na. cbn [nth]. apply IHt. exact Ht.
Qed.

Lemma fresh_consistent dr : consistent dr 0 0%Q (mkDepth None 0).
Proof. split; reflexivity. Qed.

Theorem events_spec e dr h : (forall n, (0 < dr n)%Q) -> never_exact e dr h ->
  length (events e dr h) = length h /\
  forall t st, nth_error h t = Some st ->
    (nth t (events e dr h) false = true <->
     exists d, st = Depth d /\ reached e (threshold dr (events e dr h) t) (passed_by h (events e dr h) t d)).
Proof.
  intros Hd Hn. apply (run_general e dr h (mkDepth None 0) 0 0%Q Hd (fresh_consistent dr)). exact Hn.
Qed.

Lemma total_general e dr h : forall s k acc,
  (forall n, (0 < dr n)%Q) -> consistent dr k acc s -> depths_positive h ->
  (e = ElectronLike -> forall t d, nth_error h t = Some (Depth d) ->
     ~ (passed acc (firstn t h) (firstn t (run_events e dr h s)) + d == dr (k + number (firstn t (run_events e dr h s)))%nat)%Q) ->
  (0 <= acc)%Q ->
  (sum_draws dr (k + number (run_events e dr h s)) - sum_draws dr k <= acc + total h)%Q.
Proof.
  induction h as [|st h IH]; intros s k acc Hd Hc Hp Hn Ha.
  - cbn. rewrite Nat.add_0_r. lra.
  - rewrite run_cons in *.
    assert (e = ElectronLike -> forall d, st = Depth d -> ~ (acc + d == dr k)%Q) as Hn0.
    { intros He d Es. specialize (Hn He 0%nat d). cbn [nth_error firstn passed number countb filter length] in Hn.
      rewrite Nat.add_0_r in Hn. apply Hn. now rewrite Es. }
    pose proof (one_step e dr st s k acc Hd Hc Hn0) as O.
    destruct (depth_one e dr st s) as [s1 b] eqn:E1. cbn [fst snd] in *.
    pose proof (Forall_inv Hp) as Hst. pose proof (Forall_inv_tail Hp) as Hp'.
    destruct st as [|d].
    + destruct O as [-> ->]. rewrite number_cons. cbn [total Nat.add]. apply IH; auto.
      intros He t d Ht. apply (Hn He (S t) d Ht).
    + destruct O as [R Hc1]. cbn [total]. rewrite number_cons. destruct b.
      * assert (reached e (dr k) (acc + d)) as Rk by (apply R; reflexivity).
        assert (sum_draws dr (S k + number (run_events e dr h s1)) - sum_draws dr (S k) <= 0 + total h)%Q as G.
        { apply IH; auto; [|lra]. intros He t d' Ht. specialize (Hn He (S t) d' Ht).
          cbn [firstn passed] in Hn. rewrite number_cons in Hn. rewrite Nat.add_assoc, (Nat.add_1_r k) in Hn. exact Hn. }
        rewrite Nat.add_assoc, (Nat.add_1_r k). cbn [sum_draws] in G.
        assert (dr k <= acc + d)%Q by (destruct e; cbn [reached] in Rk; lra). lra.
      * cbn [Nat.add]. assert (0 <= acc + d)%Q as Ha' by (cbn beta iota in Hst; lra).
        assert (sum_draws dr (k + number (run_events e dr h s1)) - sum_draws dr k <= (acc + d) + total h)%Q as G.
        { apply IH; auto. intros He t d' Ht. specialize (Hn He (S t) d' Ht).
          cbn [firstn passed] in Hn. rewrite number_cons in Hn. exact Hn. }
        lra.
Qed.

Theorem total_bound e dr h : (forall n, (0 < dr n)%Q) -> depths_positive h -> never_exact e dr h ->
  (sum_draws dr (number (events e dr h)) <= total h)%Q.
Proof.
  intros Hd Hp Hn.
  pose proof (total_general e dr h (mkDepth None 0) 0 0%Q Hd (fresh_consistent dr) Hp Hn (Qle_refl 0)) as G.
  cbn [Nat.add sum_draws] in G. unfold run_events in G. unfold events. lra.
Qed.

(** electrons that meet every threshold exactly *)
Lemma exact_never n : forall s, (exists k, s = mkDepth (Some 0%Q) k \/ s = mkDepth None k) ->
  run_events ElectronLike (fun _ => 1%Q) (repeat (Depth 1) n) s = repeat false n.
Proof.
  induction n as [|n IH]; intros s (k & Hs); [reflexivity|].
  cbn [repeat]. rewrite run_cons.
  assert (depth_one ElectronLike (fun _ => 1%Q) (Depth 1) s = (mkDepth (Some 0%Q) (S k), false)) as E
    by (destruct Hs as [-> | ->]; reflexivity).
  rewrite E. cbn [fst snd]. f_equal. apply IH. exists (S k). now left.
Qed.

(** until the first event no draw matters *)
Lemma first_event_tau e dr dr' h : forall s s' x, tau s = Some x -> tau s' = Some x ->
  (0 < x)%Q -> (forall t d, nth_error h t = Some (Depth d) -> e = ElectronLike -> ~ (total (firstn (S t) h) == x)%Q) ->
  first_event (run_events e dr h s) = first_event (run_events e dr' h s').
Proof.
  induction h as [|st h IH]; intros s s' x Hs Hs' Hx Hn; [reflexivity|].
  rewrite !run_cons. destruct st as [|d]; cbn [depth_one fst snd].
  - cbn [first_event]. f_equal. apply (IH s s' x Hs Hs' Hx).
    intros t d Ht He. specialize (Hn (S t) d Ht He). cbn [firstn total] in Hn. exact Hn.
  - rewrite Hs, Hs'. assert (Qeq_bool x 0 = false) as Hz.
    { destruct (Qeq_bool x 0) eqn:Ez; [apply Qeq_bool_iff in Ez; lra|reflexivity]. }
    rewrite Hz. destruct (crosses e (x - d)) eqn:Ec; cbn [fst snd first_event]; [reflexivity|].
    f_equal. apply (IH _ _ (x - d)%Q); [reflexivity|reflexivity| |].
    + assert (~ reached e x d) as Nr by (rewrite <- crosses_spec, Ec; discriminate).
      destruct e; cbn [reached] in Nr; [|lra].
      specialize (Hn 0%nat d eq_refl eq_refl). cbn [firstn total] in Hn.
      destruct (Q_dec d x) as [[G|G]|G]; [lra|lra|exfalso; apply Hn; lra].
    + intros t d' Ht He X. apply (Hn (S t) d' Ht He). cbn [firstn total] in *. lra.
Qed.
