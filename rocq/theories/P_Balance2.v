(** The exchange of M_Balance meets the conditions of P_Balance. *)
From Verif Require Import Base M_Balance S_Balance P_Balance.
Local Open Scope list_scope.

Lemma map_nth_seq {A} (d : A) l : map (fun r => nth r l d) (seq 0 (length l)) = l.
Proof.
  induction l as [|a l IH]; cbn [length seq map nth]; [auto|]. f_equal. rewrite <- seq_shift, map_map.
  etransitivity; [|exact IH]. apply map_ext. reflexivity.
Qed.
Lemma nodup_flat_filter {A C} (f : A -> C) (l : nat -> list A) (P : nat -> A -> bool) rs :
  NoDup (map f (flat_map l rs)) -> NoDup (map f (flat_map (fun r => filter (P r) (l r)) rs)).
Proof.
  induction rs as [|r rs IH]; cbn; [auto|]. rewrite !map_app. intro N. apply nodup_app_inv in N as (N1 & N2 & D).
  apply nodup_app_intro; [now apply nodup_map_filter|auto|]. intros x Hx Hy. apply (D x).
  - apply in_map_iff in Hx as (a & <- & I). apply filter_In in I. apply in_map. tauto.
  - apply in_map_iff in Hy as (a & <- & I). apply in_map. apply in_flat_map in I as (q & Iq & I). apply filter_In in I.
    apply in_flat_map. exists q. tauto.
Qed.
Lemma memb_in i l : memb i l = true <-> In i l.
Proof.
  unfold memb. rewrite existsb_exists. split.
  - intros (x & I & E). apply Nat.eqb_eq in E. now subst.
  - intro I. exists i. split; [auto|apply Nat.eqb_refl].
Qed.
Lemma insert_perm p l : Permutation (insert_idx p l) (p :: l).
Proof.
  induction l as [|q l IH]; cbn; [auto|]. destruct (p <=? q); [auto|].
  eapply Permutation_trans; [apply perm_skip; exact IH|apply perm_swap].
Qed.

Section Exchange.
Context {B : Type}.
Notation patch := (patch B).
Variable h : list (list patch).
Variable new : nat -> nat.
Hypothesis Valid : valid_holdings h.
Hypothesis Range : forall p, In p (concat h) -> new (idx p) < length h.
Let n := length h.

Lemma sorted_perm : Permutation (sorted_indices B h) (map idx (concat h)).
Proof.
  unfold sorted_indices. induction (map idx (concat h)) as [|a l IH]; cbn; [auto|].
  eapply Permutation_trans; [apply insert_perm|]. now apply perm_skip.
Qed.
Lemma concat_in p : In p (concat h) <-> exists r, r < n /\ In p (nth r h []).
Proof.
  rewrite in_concat. split.
  - intros (l & I & J). apply (In_nth _ _ []) in I as (r & Hr & <-). eauto.
  - intros (r & Hr & I). exists (nth r h []). split; [now apply nth_In|auto].
Qed.
Lemma in_new i r : In i (new_indices B h new r) <-> new i = r /\ In i (map idx (concat h)).
Proof.
  unfold new_indices. rewrite filter_In, Nat.eqb_eq. split; intros [H1 H2]; split; auto.
  - eapply Permutation_in; [apply sorted_perm|auto].
  - eapply Permutation_in; [apply Permutation_sym, sorted_perm|auto].
Qed.
Definition stays (r : nat) (p : patch) : bool := new (idx p) =? r.
Definition leaves (r : nat) (p : patch) : bool := negb (stays r p).

Lemma to_send_eq r : r < n -> to_send B h new r = map idx (filter (leaves r) (nth r h [])).
Proof.
  intro Hr. unfold to_send.
  assert (G : forall l, (forall p, In p l -> In p (concat h)) ->
    filter (fun i => negb (memb i (new_indices B h new r))) (map idx l) = map idx (filter (leaves r) l)).
  { induction l as [|p l IH]; intro Hin; cbn [map filter]; [auto|]. rewrite IH by (intros; apply Hin; now right).
    assert (E : memb (idx p) (new_indices B h new r) = stays r p).
    { apply eq_true_iff_eq. rewrite memb_in, in_new. unfold stays. rewrite Nat.eqb_eq. split; [tauto|]. intro; split; [auto|].
      apply in_map. apply Hin. now left. }
    rewrite E. change (leaves r p) with (negb (stays r p)). now destruct (stays r p). }
  apply G. intros p I. apply concat_in. eauto.
Qed.
Lemma pop_mid kept p t : ~ In (idx p) (map idx kept) -> pop B (idx p) (kept ++ p :: t) = Some (p, kept ++ t).
Proof.
  induction kept as [|q kept IH]; cbn [app pop map]; intro H; [now rewrite Nat.eqb_refl|].
  destruct (Nat.eqb_spec (idx q) (idx p)) as [E|E]; [exfalso; apply H; now left|].
  rewrite IH; [reflexivity|]. intro I. apply H. now right.
Qed.
Lemma pop_all_eq P l : forall kept, NoDup (map idx (kept ++ l)) ->
  pop_all B (map idx (filter P l)) (kept ++ l) = Some (filter P l, kept ++ filter (fun p => negb (P p)) l).
Proof.
  induction l as [|p l IH]; intros kept N; cbn [filter map pop_all].
  - reflexivity.
  - destruct (P p) eqn:E; cbn [map negb pop_all].
    + assert (N' := N). rewrite map_app in N'. cbn [map] in N'. apply NoDup_remove in N' as [N1 N2]. rewrite <- map_app in N1.
      rewrite pop_mid by (intro I; apply N2, in_or_app; now left). rewrite IH by exact N1. reflexivity.
    + specialize (IH (kept ++ [p])). rewrite <- app_assoc in IH. cbn [app] in IH. rewrite IH by exact N.
      now rewrite <- app_assoc.
Qed.
Lemma nth_nodup r : NoDup (map idx (nth r h [])).
Proof using Valid.
  clear Range n new. unfold valid_holdings in Valid. revert r. induction h as [|l t IH]; intros [|r]; cbn in *; try constructor.
  - rewrite map_app in Valid. now apply nodup_app_inv in Valid.
  - apply IH. rewrite map_app in Valid. now apply nodup_app_inv in Valid.
Qed.

Lemma locations_fst : map fst (locations B h) = map idx (concat h).
Proof.
  unfold locations.
  assert (E : forall rs, map fst (flat_map (fun r => map (fun p => (idx p, r)) (nth r h [])) rs)
    = map idx (concat (map (fun r => nth r h []) rs))).
  { induction rs as [|r rs IH]; cbn; [auto|]. rewrite !map_app, IH, map_map. reflexivity. }
  rewrite E, map_nth_seq. reflexivity.
Qed.
Lemma old_rank_spec r p : r < n -> In p (nth r h []) -> old_rank B h (idx p) = Some r.
Proof using Valid Range.
  intros Hr I. unfold old_rank. assert (J : In (idx p, r) (locations B h)).
  { unfold locations. apply in_flat_map. exists r. split; [apply in_seq; unfold n in Hr; lia|].
    apply in_map_iff. exists p. auto. }
  assert (Nd : NoDup (map fst (locations B h))) by (rewrite locations_fst; exact Valid).
  destruct (find _ _) as [[i q]|] eqn:F.
  - apply find_some in F as [F1 F2]. cbn in F2. apply Nat.eqb_eq in F2. subst i. apply in_rev in F1.
    pose proof (nodup_map_inj fst _ _ _ Nd F1 J eq_refl) as E. congruence.
  - exfalso. apply in_rev in J. pose proof (find_none _ _ F _ J) as E. cbn in E. now rewrite Nat.eqb_refl in E.
Qed.
Lemma owner_unique r r' p q : r < n -> r' < n -> In p (nth r h []) -> In q (nth r' h []) -> idx p = idx q -> r = r' /\ p = q.
Proof using Valid Range.
  intros Hr Hr' I I' E. pose proof (old_rank_spec r p Hr I) as O. pose proof (old_rank_spec r' q Hr' I') as O'.
  rewrite E in O. split; [congruence|]. eapply (nodup_map_inj idx (concat h)); eauto; apply concat_in; eauto.
Qed.
Definition owner (i : nat) : nat := match old_rank B h i with Some s => s | None => 0 end.
Lemma in_recv i r : r < n -> (In i (to_recv B h new r) <-> new i = r /\ exists s p, s < n /\ s <> r /\ In p (nth s h []) /\ idx p = i).
Proof using Valid Range.
  intro Hr. unfold to_recv. rewrite filter_In, in_new, negb_true_iff, <- not_true_iff_false, memb_in. split.
  - intros [[E I] Nn]. split; [auto|]. apply in_map_iff in I as (p & <- & I). apply concat_in in I as (s & Hs & I).
    exists s, p. repeat split; auto. intros ->. apply Nn. now apply in_map.
  - intros [E (s & p & Hs & Hne & I & <-)]. split; [split; [auto|]|].
    + apply in_map. apply concat_in. eauto.
    + intro J. apply in_map_iff in J as (q & Eq & J). destruct (owner_unique r s q p); auto.
Qed.
Definition Ss (r : nat) : list (message B) := map (fun p => mkMsg B r (new (idx p)) (idx p) p) (filter (leaves r) (nth r h [])).
Definition Rs (r : nat) : list (nat * nat) := map (fun i => (owner i, i)) (to_recv B h new r).
Definition Hs (r : nat) : list patch := filter (stays r) (nth r h []).
Lemma start_eq r : r < n -> start B h new r = Some (mkProc B (Ss r) (Rs r) (Hs r)).
Proof using Valid Range.
  intro Hr. unfold start. rewrite to_send_eq by exact Hr.
  pose proof (pop_all_eq (leaves r) (nth r h []) [] (nth_nodup r)) as E. cbn [app] in E. rewrite E.
  assert (F : forall l, (forall i, In i l -> In i (to_recv B h new r)) ->
    fold_right (fun i acc => match old_rank B h i, acc with
       | Some s, Some l => Some (if s =? r then l else (s, i) :: l) | _, _ => None end) (Some []) l
    = Some (map (fun i => (owner i, i)) l)).
  { induction l as [|i l IH]; intro Hin; [reflexivity|]. cbn [fold_right map]. rewrite IH by (intros; apply Hin; now right).
    destruct (proj1 (in_recv i r Hr) (Hin i (or_introl eq_refl))) as (_ & s & p & Hs' & Hne & I & <-).
    assert (Eo : owner (idx p) = s) by (unfold owner; now rewrite (old_rank_spec s p Hs' I)).
    rewrite (old_rank_spec s p Hs' I), (proj2 (Nat.eqb_neq s r) Hne), Eo. reflexivity. }
  rewrite F by auto. unfold Ss, Rs, Hs. do 2 f_equal. apply filter_ext. intro p. unfold leaves. apply negb_involutive.
Qed.
Lemma starts_eq : starts B h new = Some (procs0 n Ss Rs Hs).
Proof using Valid Range.
  unfold starts, procs0. fold n.
  assert (G : forall rs, (forall r, In r rs -> r < n) -> all_some (map (start B h new) rs) = Some (map (fun r => mkProc B (Ss r) (Rs r) (Hs r)) rs)).
  { induction rs as [|r rs IH]; intro Hin; cbn [map all_some]; [auto|]. rewrite start_eq by (apply Hin; now left).
    rewrite IH by (intros; apply Hin; now right). reflexivity. }
  apply G. intros r I. apply in_seq in I. lia.
Qed.

Let M := flat_map Ss (seq 0 n).
Lemma in_M m : In m M <-> exists r p, r < n /\ In p (nth r h []) /\ new (idx p) <> r /\ m = mkMsg B r (new (idx p)) (idx p) p.
Proof.
  unfold M. rewrite in_flat_map. split.
  - intros (r & Ir & I). apply in_seq in Ir. unfold Ss in I. apply in_map_iff in I as (p & <- & I).
    apply filter_In in I as [I L]. exists r, p. unfold leaves, stays in L. rewrite negb_true_iff, Nat.eqb_neq in L. repeat split; auto. lia.
  - intros (r & p & Hr & I & Hne & ->). exists r. split; [apply in_seq; lia|]. unfold Ss. apply in_map_iff. exists p. split; [auto|].
    apply filter_In. split; [auto|]. unfold leaves, stays. now rewrite negb_true_iff, Nat.eqb_neq.
Qed.
Lemma M_data : map (m_data B) M = flat_map (fun r => filter (leaves r) (nth r h [])) (seq 0 n).
Proof.
  unfold M. induction (seq 0 n) as [|r rs IH]; cbn; [auto|]. rewrite map_app, IH. f_equal. unfold Ss. rewrite map_map. apply map_id.
Qed.
Lemma flat_all : flat_map (fun r => nth r h []) (seq 0 n) = concat h.
Proof. rewrite flat_map_concat_map. unfold n. now rewrite map_nth_seq. Qed.
Lemma M_data_nodup : NoDup (map idx (map (m_data B) M)).
Proof using Valid Range. rewrite M_data. apply nodup_flat_filter. rewrite flat_all. exact Valid. Qed.
Lemma M_tags : NoDup (map (m_tag B) M).
Proof using Valid Range.
  assert (E : map (m_tag B) M = map idx (map (m_data B) M)).
  { rewrite map_map. apply map_ext_in. intros m I. apply in_M in I as (r & p & _ & _ & _ & ->). reflexivity. }
  rewrite E. exact M_data_nodup.
Qed.
Lemma M_dst m : In m M -> m_dst B m < n.
Proof using Valid Range.
  intro I. apply in_M in I as (r & p & Hr & I & _ & ->). cbn. apply Range. apply concat_in. eauto.
Qed.
Lemma Rs_nodup r : r < n -> NoDup (Rs r).
Proof using Valid Range.
  intro Hr. unfold Rs. apply (NoDup_map_inv snd). rewrite map_map. cbn. rewrite map_id. unfold to_recv, new_indices.
  apply NoDup_filter, NoDup_filter. eapply Permutation_NoDup; [apply Permutation_sym, sorted_perm|exact Valid].
Qed.
Lemma Rs_match r s i : r < n -> (In (s, i) (Rs r) <-> exists m, In m M /\ m_src B m = s /\ m_dst B m = r /\ m_tag B m = i).
Proof using Valid Range.
  intro Hr. unfold Rs. rewrite in_map_iff. split.
  - intros (i' & E & I). injection E as E ->. apply in_recv in I as (En & s' & p & Hs' & Hne & I & Ei); [|exact Hr].
    assert (owner i = s') by (unfold owner; rewrite <- Ei, (old_rank_spec s' p); auto).
    exists (mkMsg B s' (new (idx p)) (idx p) p). split; [|cbn; repeat split; congruence].
    apply in_M. exists s', p. repeat split; auto. rewrite Ei, En. auto.
  - intros (m & I & E1 & E2 & E3). apply in_M in I as (s' & p & Hs' & I & Hne & ->). cbn in *. exists i. split.
    + unfold owner. rewrite <- E3, (old_rank_spec s' p) by assumption. congruence.
    + apply in_recv; [exact Hr|]. rewrite <- E3. split; [auto|]. exists s', p. repeat split; auto. congruence.
Qed.

Lemma assigned st g : inv n Ss Rs Hs st g -> done B (fst st) = true -> snd st = [] /\ as_assigned new h (map (held B) (fst st)).
Proof using Valid Range.
  intros I Hd. assert (I' := I). destruct st as [ps net]. destruct I' as (L & _ & _).
  destruct (done_result n Ss Rs Hs M_tags M_dst Rs_nodup Rs_match (ps, net) g I Hd) as (E1 & P & R).
  cbn [fst snd] in *. split; [exact E1|]. split; [rewrite map_length; exact L|]. intro r.
  destruct (Nat.lt_ge_cases r n) as [Hr|Hr].
  2:{ rewrite nth_overflow by (rewrite map_length; lia).
      assert (E : filter (fun p => new (idx p) =? r) (concat h) = []).
      { assert (G : forall l, (forall p : patch, In p l -> new (idx p) < n) -> filter (fun p => new (idx p) =? r) l = []).
        { induction l as [|p l IH]; intro H; cbn; [auto|]. rewrite IH by (intros; apply H; now right).
          pose proof (H p (or_introl eq_refl)). destruct (Nat.eqb_spec (new (idx p)) r); [lia|auto]. }
        apply G. exact Range. }
      now rewrite E. }
  destruct (R r Hr) as (p & Ep & Ek & Eh & Fd).
  rewrite (nth_error_nth (map (held B) ps) r [] (x := held B p)) by (rewrite nth_error_map, Ep; reflexivity).
  rewrite Eh.
  assert (Sub : forall m, In m (g r) -> In m M).
  { intros m J. eapply Permutation_in; [apply Permutation_sym; exact P|]. apply in_flat_map. exists r. split; [apply in_seq; lia|auto]. }
  rewrite Forall_forall in Fd.
  apply NoDup_Permutation.
  - apply nodup_app_intro.
    + apply NoDup_filter. apply (NoDup_map_inv idx). apply nth_nodup.
    + assert (Nd : NoDup (map (m_data B) (flat_map g (seq 0 n)))).
      { eapply Permutation_NoDup; [apply Permutation_map; exact P|]. apply (NoDup_map_inv idx). exact M_data_nodup. }
      assert (Ir : In r (seq 0 n)) by (apply in_seq; lia). clear -Nd Ir. induction (seq 0 n) as [|q l IH]; [destruct Ir|].
      cbn in Nd. rewrite map_app in Nd. apply nodup_app_inv in Nd as (N1 & N2 & _). destruct Ir as [->|Ir]; auto.
    + intros x Hx Hy. apply filter_In in Hx as [Hx _]. apply in_map_iff in Hy as (m & <- & J).
      pose proof (Fd m J) as Ed. apply Sub, in_M in J as (s & q & Hs' & J & Hne & ->). cbn in *.
      destruct (owner_unique r s q q) as [Ers _]; auto. congruence.
  - apply NoDup_filter. apply (NoDup_map_inv idx). exact Valid.
  - intro x. rewrite in_app_iff, filter_In, Nat.eqb_eq, concat_in. unfold Hs. rewrite filter_In. unfold stays. rewrite Nat.eqb_eq. split.
    + intros [[J E]|J]; [eauto|]. apply in_map_iff in J as (m & <- & J). pose proof (Fd m J) as Ed.
      apply Sub, in_M in J as (s & q & Hs' & J & Hne & ->). cbn in *. eauto.
    + intros [(s & Hs' & J) E]. destruct (Nat.eq_dec s r) as [->|Hne]; [left; auto|right].
      set (m := mkMsg B s (new (idx x)) (idx x) x).
      assert (Im : In m M) by (apply in_M; exists s, x; repeat split; auto; congruence).
      assert (J' := Permutation_in _ P Im). apply in_flat_map in J' as (q & Iq & Jq). apply in_seq in Iq.
      destruct (R q ltac:(lia)) as (_ & _ & _ & _ & Fq). rewrite Forall_forall in Fq. pose proof (Fq m Jq) as Eq. cbn in Eq.
      rewrite E in Eq. subst q. change x with (m_data B m). now apply in_map.
Qed.

Lemma exchange_result : exists ps, starts B h new = Some ps /\ forall sched,
  let st := run B ps sched in
  (done B (fst st) = true -> snd st = [] /\ as_assigned new h (map (held B) (fst st))) /\
  ((forall r, r < length h -> step B st r = st) -> done B (fst st) = true).
Proof using Valid Range.
  exists (procs0 n Ss Rs Hs). split; [apply starts_eq|]. intro sched. cbn zeta. unfold run.
  destruct (run_inv n Ss Rs Hs M_dst Rs_nodup Rs_match sched _ _ (inv0 n Ss Rs Hs)) as (g & I & _). split.
  - intro Hd. eapply assigned; eauto.
  - intro Hb. eapply blocked_done; eauto using M_tags, M_dst, Rs_nodup, Rs_match.
Qed.
Lemma exchange_completes : exists ps, starts B h new = Some ps /\ forall rounds,
  Forall (fun l => forall r, r < length h -> In r l) rounds ->
  length (flat_map (sends B) ps) + length (flat_map (recvs B) ps) <= length rounds ->
  done B (fst (run B ps (concat rounds))) = true.
Proof using Valid Range.
  exists (procs0 n Ss Rs Hs). split; [apply starts_eq|]. intros rounds F Hle. unfold run.
  eapply rounds_done; [exact M_tags|exact M_dst|exact Rs_nodup|exact Rs_match|apply inv0|exact F|exact Hle].
Qed.
End Exchange.

(** ** loads and previous ranks in index order *)
Section Loads.
Context {B L : Type}.
Variable zero : L.
Lemma fold_loads (es : list (L * nat)) : forall g, NoDup (map snd es) -> Forall (fun e => snd e < length g) es ->
  exists g', fold_left (fun acc (e : L * nat) => match acc with
      | Some g => if snd e <? length g then Some (upd (snd e) (fst e) g) else None
      | None => None end) es (Some g) = Some g' /\ length g' = length g /\
    (forall e, In e es -> nth (snd e) g' zero = fst e) /\ (forall k, ~ In k (map snd es) -> nth k g' zero = nth k g zero).
Proof.
  induction es as [|[v i] es IH]; intros g N F; cbn [fold_left fst snd map].
  - exists g. repeat split; auto. intros e [].
  - apply Forall_cons_iff in F as [Fi F]. cbn [snd] in Fi. rewrite (proj2 (Nat.ltb_lt _ _) Fi).
    cbn [map snd] in N. apply NoDup_cons_iff in N as [Ni N].
    destruct (IH (upd i v g) N) as (g' & E & Lg & H1 & H2).
    { eapply Forall_impl; [|exact F]. intros e. cbn. now rewrite upd_length. }
    exists g'. split; [exact E|]. rewrite upd_length in Lg. split; [exact Lg|]. split.
    + intros e [<-|I]; [|now apply H1]. cbn. rewrite H2 by exact Ni. apply nth_upd_eq. exact Fi.
    + intros k Hk. cbn [In] in Hk. rewrite H2 by tauto. apply nth_upd_neq. tauto.
Qed.
Lemma gather_result (h : list (list (patch B))) (load : patch B -> L) :
  Permutation (map idx (concat h)) (seq 0 (length (concat h))) ->
  exists g, gather_loads B zero h (map (map load) h) = Some g /\ length g = length (concat h) /\
    forall p, In p (concat h) -> nth (idx p) g zero = load p.
Proof.
  intro P. unfold gather_loads.
  assert (E : flat_map (fun e : list L * list (patch B) => combine (fst e) (map idx (snd e))) (combine (map (map load) h) h)
    = map (fun p => (load p, idx p)) (concat h)).
  { clear P. induction h as [|l t IH]; [reflexivity|]. cbn [map combine flat_map concat fst snd]. rewrite IH, map_app. f_equal.
    clear. induction l as [|p l IH]; [reflexivity|]. cbn. now rewrite IH. }
  assert (N : sumn (map (@length L) (map (map load) h)) = length (concat h)).
  { clear P E. induction h as [|l t IH]; [reflexivity|]. cbn [map concat]. cbn. rewrite app_length, map_length. f_equal. exact IH. }
  rewrite E, N.
  destruct (fold_loads (map (fun p => (load p, idx p)) (concat h)) (repeat zero (length (concat h)))) as (g & Eg & Lg & H1 & _).
  - rewrite map_map. cbn. eapply Permutation_NoDup; [apply Permutation_sym; exact P|apply seq_NoDup].
  - apply Forall_forall. intros e I. apply in_map_iff in I as (p & <- & I). cbn. rewrite repeat_length.
    assert (J : In (idx p) (seq 0 (length (concat h)))) by (eapply Permutation_in; [exact P|now apply in_map]).
    apply in_seq in J. lia.
  - exists g. rewrite repeat_length in Lg. split; [exact Eg|]. split; [exact Lg|]. intros p I.
    apply (H1 (load p, idx p)). apply in_map_iff. eauto.
Qed.
End Loads.

Fixpoint asc (l : list nat) : Prop := match l with [] => True | x :: t => Forall (fun y => x <= y) t /\ asc t end.
Lemma insert_asc p l : asc l -> asc (insert_idx p l).
Proof.
  induction l as [|q l IH]; cbn [insert_idx asc]; intro H; [repeat constructor|]. destruct H as [F A].
  destruct (Nat.leb_spec p q).
  - cbn [asc]. repeat split; auto. constructor; [auto|]. eapply Forall_impl; [|exact F]. cbn. lia.
  - cbn [asc]. split; [|auto]. eapply Permutation_Forall; [apply Permutation_sym, insert_perm|]. constructor; [lia|auto].
Qed.
Lemma asc_unique l : forall l', asc l -> asc l' -> Permutation l l' -> l = l'.
Proof.
  induction l as [|x l IH]; intros [|y l'] A A' P; auto.
  - apply Permutation_nil in P. discriminate.
  - apply Permutation_sym, Permutation_nil in P. discriminate.
  - cbn in A, A'. destruct A as [F A], A' as [F' A'].
    assert (x = y).
    { assert (I : In x (y :: l')) by (eapply Permutation_in; [exact P|now left]).
      assert (J : In y (x :: l)) by (eapply Permutation_in; [apply Permutation_sym; exact P|now left]).
      rewrite Forall_forall in F, F'. destruct I as [<-|I]; [auto|]. destruct J as [<-|J]; [auto|].
      specialize (F _ J). specialize (F' _ I). cbn in *. lia. }
    subst y. f_equal. apply IH; auto. eapply Permutation_cons_inv; eauto.
Qed.
Lemma seq_asc k : forall a, asc (seq a k).
Proof.
  induction k as [|k IH]; intro a; cbn; [auto|]. split; [|apply IH]. apply Forall_forall. intros y I. apply in_seq in I. lia.
Qed.
Lemma sorted_seq {B} (h : list (list (patch B))) :
  Permutation (map idx (concat h)) (seq 0 (length (concat h))) -> sorted_indices B h = seq 0 (length (concat h)).
Proof.
  intro P. apply asc_unique; [|apply seq_asc|eapply Permutation_trans; [apply sorted_perm|exact P]].
  clear P. unfold sorted_indices. induction (map idx (concat h)) as [|a l IH]; cbn; [auto|]. now apply insert_asc.
Qed.
Lemma previous_result {B} (h : list (list (patch B))) :
  Permutation (map idx (concat h)) (seq 0 (length (concat h))) ->
  length (previous_ranks B h) = length (concat h) /\
  Forall (fun r => r < length h) (previous_ranks B h) /\
  forall r p, r < length h -> In p (nth r h []) -> nth (idx p) (previous_ranks B h) 0 = r.
Proof.
  intro P. unfold previous_ranks. rewrite (sorted_seq h P), map_length, seq_length. split; [reflexivity|].
  assert (V : valid_holdings h) by (eapply Permutation_NoDup; [apply Permutation_sym; exact P|apply seq_NoDup]).
  assert (Lk : forall p, In p (concat h) -> idx p < length (concat h)).
  { intros p I. assert (J : In (idx p) (seq 0 (length (concat h)))) by (eapply Permutation_in; [exact P|now apply in_map]).
    apply in_seq in J. lia. }
  split.
  - apply Forall_forall. intros r I. apply in_map_iff in I as (i & <- & I).
    assert (J : In i (map idx (concat h))) by (eapply Permutation_in; [apply Permutation_sym; exact P|exact I]).
    apply in_map_iff in J as (p & <- & J). apply concat_in in J as (r & Hr & J).
    rewrite (old_rank_spec h (fun _ => 0) V ltac:(intros; cbn; apply concat_in in H as (? & ? & ?); lia) r p Hr J). exact Hr.
  - intros r p Hr I. set (f := fun i => match old_rank B h i with Some r => r | None => 0 end).
    assert (Ic : In p (concat h)) by (apply concat_in; eauto).
    rewrite (nth_indep _ 0 (f 0)) by (rewrite map_length, seq_length; auto). rewrite map_nth, seq_nth by auto. unfold f. cbn [plus].
    rewrite (old_rank_spec h (fun _ => 0) V ltac:(intros; cbn; apply concat_in in H as (? & ? & ?); lia) r p Hr I). reflexivity.
Qed.
