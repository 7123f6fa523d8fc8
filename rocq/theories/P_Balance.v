(** Proofs about the exchange of patches (M_Balance, second half). *)
From Verif Require Import Base M_Balance S_Balance.
Local Open Scope list_scope.

Lemma nodup_map_inj {A B} (f : A -> B) l x y : NoDup (map f l) -> In x l -> In y l -> f x = f y -> x = y.
Proof.
  induction l as [|a l IH]; cbn; intros Nd Hx Hy E; [destruct Hx|]. apply NoDup_cons_iff in Nd as [Na Nd].
  destruct Hx as [->|Hx], Hy as [->|Hy]; auto; exfalso; apply Na; [rewrite E|rewrite <- E]; now apply in_map.
Qed.
Lemma nodup_filter {A} (p : A -> bool) l : NoDup l -> NoDup (filter p l).
Proof. apply NoDup_filter. Qed.
Lemma nodup_map_filter {A B} (f : A -> B) p l : NoDup (map f l) -> NoDup (map f (filter p l)).
Proof.
  induction l as [|a l IH]; cbn; [auto|]. rewrite NoDup_cons_iff. intros [Na Nd].
  destruct (p a); auto. cbn. constructor; auto. intro H. apply Na. rewrite in_map_iff in *.
  destruct H as (x & E & I). apply filter_In in I. exists x. tauto.
Qed.
Lemma nodup_app_inv {A} (l1 l2 : list A) : NoDup (l1 ++ l2) -> NoDup l1 /\ NoDup l2 /\ forall x, In x l1 -> ~ In x l2.
Proof.
  induction l1 as [|a l IH]; cbn; [intro; repeat split; auto; constructor|]. rewrite NoDup_cons_iff, in_app_iff.
  intros [Na Nd]. destruct (IH Nd) as (N1 & N2 & D). repeat split; auto.
  - constructor; tauto.
  - intros x [->|Hx]; [tauto|auto].
Qed.
Lemma nodup_app_intro {A} (l1 l2 : list A) : NoDup l1 -> NoDup l2 -> (forall x, In x l1 -> ~ In x l2) -> NoDup (l1 ++ l2).
Proof.
  induction l1 as [|a l IH]; cbn; [auto|]. rewrite NoDup_cons_iff. intros [Na N1] N2 D. constructor.
  - rewrite in_app_iff. intros [H|H]; [auto|]. apply (D a); auto.
  - apply IH; [exact N1|exact N2|]. intros x Hx. apply D. now right.
Qed.

Section Exchange.
Context {B : Type}.
Notation patch := (patch B).
Notation message := (message B).
Notation proc := (proc B).
Notation src := (m_src B). Notation dst := (m_dst B). Notation tag := (m_tag B). Notation data := (m_data B).
Definition key (m : message) : nat * nat := (src m, tag m).

(** ** any set of processes that send and receive matching messages *)
Section Abstract.
Variable n : nat.
Variable Ss : nat -> list message.
Variable Rs : nat -> list (nat * nat).
Variable Hs : nat -> list patch.
Let M := flat_map Ss (seq 0 n).
Hypothesis Utag : NoDup (map tag M).
Hypothesis Dst : forall m, In m M -> dst m < n.
Hypothesis Rnd : forall r, r < n -> NoDup (Rs r).
Hypothesis Rmatch : forall r s i, r < n -> (In (s, i) (Rs r) <-> exists m, In m M /\ src m = s /\ dst m = r /\ tag m = i).

Definition procs0 : list proc := map (fun r => mkProc B (Ss r) (Rs r) (Hs r)) (seq 0 n).
Definition inv (st : list proc * list message) (g : nat -> list message) : Prop :=
  let '(ps, net) := st in
  length ps = n /\
  Permutation M (flat_map (sends B) ps ++ net ++ flat_map g (seq 0 n)) /\
  forall r, r < n -> exists p, nth_error ps r = Some p /\
    Rs r = map key (g r) ++ recvs B p /\ held B p = Hs r ++ map data (g r) /\
    Forall (fun m => dst m = r) (g r).

Lemma inv0 : inv (procs0, []) (fun _ => []).
Proof.
  unfold inv, procs0. rewrite map_length, seq_length. split; [reflexivity|]. split.
  - cbn [app]. assert (E : flat_map (fun _ : nat => @nil message) (seq 0 n) = []) by (clear; induction (seq 0 n) as [|a l IH]; [reflexivity|exact IH]).
    rewrite E, app_nil_r. unfold M. rewrite !flat_map_concat_map, map_map. cbn [sends]. apply Permutation_refl.
  - intros r Hr. exists (mkProc B (Ss r) (Rs r) (Hs r)). rewrite nth_error_map.
    rewrite (nth_error_nth' (seq 0 n) 0) by (now rewrite seq_length). rewrite seq_nth by exact Hr. cbn.
    rewrite app_nil_r. auto.
Qed.

Lemma take_msg_some s d t net m net' : take_msg B s d t net = Some (m, net') ->
  src m = s /\ dst m = d /\ tag m = t /\ Permutation net (m :: net').
Proof.
  revert m net'. induction net as [|x net IH]; cbn; intros m net' E; [discriminate|].
  destruct ((src x =? s) && (dst x =? d) && (tag x =? t)) eqn:C.
  - injection E as <- <-. repeat rewrite andb_true_iff in C. rewrite !Nat.eqb_eq in C. intuition.
  - destruct (take_msg B s d t net) as [[m' t']|] eqn:Et; [|discriminate]. injection E as <- <-.
    destruct (IH m' t' eq_refl) as (A1 & A2 & A3 & A4). repeat split; auto.
    eapply Permutation_trans; [apply perm_skip; exact A4|apply perm_swap].
Qed.
Lemma take_msg_none s d t net m : take_msg B s d t net = None -> In m net -> src m = s -> dst m = d -> tag m = t -> False.
Proof.
  induction net as [|x net IH]; cbn; intros E I A1 A2 A3; [exact I|]. destruct I as [->|I].
  - rewrite A1, A2, A3, !Nat.eqb_refl in E. discriminate.
  - destruct ((src x =? s) && (dst x =? d) && (tag x =? t)); [discriminate|].
    destruct (take_msg B s d t net) as [[m' t']|]; [discriminate|]. auto.
Qed.

Lemma flat_map_upd {A C} (f : A -> list C) ps : forall r p q x, nth_error ps r = Some p -> Permutation (f p) (x ++ f q) ->
  Permutation (flat_map f ps) (x ++ flat_map f (upd r q ps)).
Proof.
  induction ps as [|a ps IH]; intros [|r] p q x; cbn; try discriminate; intros E P.
  - injection E as ->. rewrite app_assoc. now apply Permutation_app_tail.
  - eapply Permutation_trans; [apply Permutation_app_head; eapply IH; eauto|].
    rewrite !app_assoc. apply Permutation_app_tail. apply Permutation_app_comm.
Qed.
Lemma flat_map_fun {C} (g g' : nat -> list C) x r l : NoDup l -> In r l ->
  (forall q, q <> r -> g' q = g q) -> Permutation (g' r) (x ++ g r) ->
  Permutation (flat_map g' l) (x ++ flat_map g l).
Proof.
  intros Nd I Hne P. induction l as [|a l IH]; [destruct I|]. apply NoDup_cons_iff in Nd as [Na Nd]. cbn.
  destruct (Nat.eq_dec a r) as [->|Hd].
  - assert (E : flat_map g' l = flat_map g l).
    { clear -Na Hne. induction l as [|b l IH]; cbn; [auto|]. cbn in Na. rewrite Hne, IH; tauto || (intro; subst; tauto) || auto. }
    rewrite E, app_assoc. now apply Permutation_app_tail.
  - rewrite Hne by exact Hd. destruct I as [->|I]; [congruence|].
    eapply Permutation_trans; [apply Permutation_app_head; apply IH; auto|].
    rewrite !app_assoc. apply Permutation_app_tail. apply Permutation_app_comm.
Qed.
Lemma nth_error_upd {A} (r q : nat) (v : A) l : r < length l -> nth_error (upd r v l) q = if q =? r then Some v else nth_error l q.
Proof.
  revert r q. induction l as [|a l IH]; intros [|r] [|q] H; cbn in *; auto; try lia. apply IH. lia.
Qed.

Definition remaining (ps : list proc) : nat := length (flat_map (sends B) ps) + length (flat_map (recvs B) ps).

Lemma step_inv st g r : inv st g -> exists g', inv (step B st r) g' /\
  (step B st r = st \/ remaining (fst (step B st r)) < remaining (fst st)).
Proof.
  destruct st as [ps net]. intros (L & P & H). unfold step.
  destruct (nth_error ps r) as [p|] eqn:Ep; [|exists g; split; [repeat split; auto|now left]].
  assert (Hr : r < n) by (rewrite <- L; apply nth_error_Some; congruence).
  destruct (sends B p) as [|m ms] eqn:Es.
  - destruct (recvs B p) as [|[s i] rs] eqn:Er; [exists g; split; [repeat split; auto|now left]|].
    destruct (take_msg B s r i net) as [[m net']|] eqn:Et; [|exists g; split; [repeat split; auto|now left]].
    apply take_msg_some in Et as (T1 & T2 & T3 & T4).
    set (g' := fun q => if q =? r then g r ++ [m] else g q). exists g'. set (p' := mkProc B [] rs (held B p ++ [data m])).
    assert (Pg : Permutation (flat_map g' (seq 0 n)) ([m] ++ flat_map g (seq 0 n))).
    { apply (flat_map_fun g g' [m] r); [apply seq_NoDup|apply in_seq; lia| |].
      - intros q Hq. unfold g'. now rewrite (proj2 (Nat.eqb_neq q r) Hq).
      - unfold g'. rewrite Nat.eqb_refl. apply Permutation_app_comm. }
    split; [|right].
    + unfold inv. split; [now rewrite upd_length|]. split.
      * eapply Permutation_trans; [exact P|]. apply Permutation_app.
        -- apply (flat_map_upd (sends B) ps r p p' []); [exact Ep|]. rewrite Es. apply Permutation_refl.
        -- eapply Permutation_trans; [apply Permutation_app_tail; exact T4|].
           eapply Permutation_trans; [|apply Permutation_app_head; apply Permutation_sym; exact Pg].
           cbn [app]. apply Permutation_middle.
      * intros q Hq. rewrite nth_error_upd by lia. unfold g'. destruct (Nat.eqb_spec q r) as [->|Hne].
        -- exists p'. destruct (H r Hr) as (p0 & E0 & R0 & D0 & F0). rewrite Ep in E0. injection E0 as <-. split; [auto|].
           rewrite !map_app. cbn [map recvs p' held]. rewrite R0, Er, D0, <- !app_assoc. cbn [app].
           split; [|split; [auto|]].
           ++ unfold key at 3. now rewrite T1, T3.
           ++ apply Forall_app. split; [auto|]. constructor; auto.
        -- exact (H q Hq).
    + cbn [fst]. unfold remaining.
      assert (E1 : length (flat_map (sends B) ps) = length (flat_map (sends B) (upd r p' ps))).
      { apply Permutation_length, (flat_map_upd (sends B) ps r p p' []); [exact Ep|]. rewrite Es. apply Permutation_refl. }
      assert (E2 : length (flat_map (recvs B) ps) = length ([(s, i)] ++ flat_map (recvs B) (upd r p' ps))).
      { apply Permutation_length, flat_map_upd with (p := p); [exact Ep|]. rewrite Er. apply Permutation_refl. }
      cbn [app length] in E2. lia.
  - exists g. set (p' := mkProc B ms (recvs B p) (held B p)).
    assert (Pm : Permutation (flat_map (sends B) ps) ([m] ++ flat_map (sends B) (upd r p' ps))).
    { apply flat_map_upd with (p := p); [exact Ep|]. rewrite Es. apply Permutation_refl. }
    split; [|right].
    + unfold inv. split; [now rewrite upd_length|]. split.
      * eapply Permutation_trans; [exact P|]. eapply Permutation_trans; [apply Permutation_app_tail; exact Pm|].
        cbn [app]. rewrite <- app_assoc. cbn [app]. rewrite (app_assoc _ net (m :: _)). rewrite (app_assoc _ net (flat_map _ _)).
        apply Permutation_middle.
      * intros q Hq. rewrite nth_error_upd by lia. destruct (Nat.eqb_spec q r) as [->|Hne]; [|exact (H q Hq)].
        exists p'. destruct (H r Hr) as (p0 & E0 & R0 & D0 & F0). rewrite Ep in E0. injection E0 as <-. auto.
    + cbn [fst]. unfold remaining. apply Permutation_length in Pm. cbn [app length] in Pm.
      assert (E2 : length (flat_map (recvs B) ps) = length (flat_map (recvs B) (upd r p' ps))).
      { apply Permutation_length, (flat_map_upd (recvs B) ps r p p' []); [exact Ep|]. apply Permutation_refl. }
      lia.
Qed.
Lemma run_inv sched : forall st g, inv st g -> exists g', inv (fold_left (step B) sched st) g' /\
  remaining (fst (fold_left (step B) sched st)) <= remaining (fst st).
Proof.
  induction sched as [|r sched IH]; intros st g I; cbn [fold_left].
  - exists g. auto.
  - destruct (step_inv st g r I) as (g1 & I1 & D). destruct (IH _ _ I1) as (g2 & I2 & D2). exists g2. split; [exact I2|].
    destruct D as [D|D]; [rewrite D in *|]; lia.
Qed.

Lemma blocked_done st g : inv st g -> (forall r, r < n -> step B st r = st) -> done B (fst st) = true.
Proof using Utag Dst Rnd Rmatch.
  destruct st as [ps net]. intros (L & P & H) Hs'. cbn [fst].
  assert (Nos : forall r p, nth_error ps r = Some p -> sends B p = []).
  { intros r p E. assert (Hr : r < n) by (rewrite <- L; apply nth_error_Some; congruence).
    specialize (Hs' r Hr). unfold step in Hs'. rewrite E in Hs'. destruct (sends B p) as [|m ms] eqn:Es; [auto|].
    injection Hs' as _ E2. apply (f_equal (@length _)) in E2. rewrite app_length in E2. cbn in E2. lia. }
  assert (Ns : flat_map (sends B) ps = []).
  { clear -Nos. induction ps as [|p ps IH]; cbn; [auto|]. rewrite (Nos 0 p eq_refl). apply IH. intros r q E. apply (Nos (S r) q E). }
  rewrite Ns in P. cbn [app] in P.
  unfold done. apply forallb_forall. intros p Ip. apply In_nth_error in Ip as (r & Er).
  rewrite (Nos r p Er). destruct (recvs B p) as [|[s i] rs] eqn:Erc; [reflexivity|exfalso].
  assert (Hr : r < n) by (rewrite <- L; apply nth_error_Some; congruence).
  destruct (H r Hr) as (p0 & E0 & R0 & _ & _). rewrite Er in E0. injection E0 as <-.
  assert (I : In (s, i) (Rs r)) by (rewrite R0, Erc; apply in_or_app; right; now left).
  apply Rmatch in I as (m & Im & M1 & M2 & M3); [|exact Hr].
  apply (Permutation_in _ P) in Im. apply in_app_or in Im as [Im|Im].
  - specialize (Hs' r Hr). unfold step in Hs'. rewrite Er, (Nos r p Er), Erc in Hs'.
    destruct (take_msg B s r i net) as [[m' net']|] eqn:Et; [|eapply take_msg_none; eauto].
    injection Hs' as _ E2. apply take_msg_some in Et as (_ & _ & _ & Pn). apply Permutation_length in Pn. rewrite E2 in Pn. cbn in Pn. lia.
  - apply in_flat_map in Im as (q & Iq & Im). apply in_seq in Iq. destruct (H q ltac:(lia)) as (_ & _ & _ & _ & Fq).
    rewrite Forall_forall in Fq. pose proof (Fq m Im) as Eq. rewrite M2 in Eq. subst q.
    pose proof (Rnd r Hr) as Nd. rewrite R0, Erc in Nd. apply nodup_app_inv in Nd as (_ & _ & Dj).
    apply (Dj (s, i)); [|now left]. replace (s, i) with (key m) by (unfold key; congruence). now apply in_map.
Qed.

Lemma done_result st g : inv st g -> done B (fst st) = true ->
  snd st = [] /\ Permutation M (flat_map g (seq 0 n)) /\ forall r, r < n -> exists p, nth_error (fst st) r = Some p /\
    map key (g r) = Rs r /\ held B p = Hs r ++ map data (g r) /\ Forall (fun m => dst m = r) (g r).
Proof using Utag Dst Rnd Rmatch.
  destruct st as [ps net]. intros (L & P & H) Hd. cbn [fst snd] in *. unfold done in Hd. rewrite forallb_forall in Hd.
  assert (Hp : forall p, In p ps -> sends B p = [] /\ recvs B p = []).
  { intros p Ip. specialize (Hd p Ip). destruct (sends B p), (recvs B p); auto; discriminate. }
  assert (Ns : flat_map (sends B) ps = []).
  { clear -Hp. induction ps as [|p ps IH]; cbn; [auto|]. rewrite (proj1 (Hp p (or_introl eq_refl))). apply IH. intros; apply Hp; now right. }
  rewrite Ns in P. cbn [app] in P.
  assert (Hr' : forall r, r < n -> exists p, nth_error ps r = Some p /\
    map key (g r) = Rs r /\ held B p = Hs r ++ map data (g r) /\ Forall (fun m => dst m = r) (g r)).
  { intros r Hr. destruct (H r Hr) as (p & E & R0 & D0 & F0). exists p. split; [auto|]. split; [|auto].
    rewrite R0. rewrite (proj2 (Hp p ltac:(eapply nth_error_In; eauto))). now rewrite app_nil_r. }
  assert (Hn : net = []).
  { destruct net as [|m net]; [auto|exfalso].
    assert (Im : In m M) by (eapply Permutation_in; [apply Permutation_sym; exact P|now left]).
    pose proof (Dst m Im) as Hm. destruct (Hr' (dst m) Hm) as (_ & _ & Ek & _ & _).
    assert (I : In (key m) (map key (g (dst m)))).
    { rewrite Ek. apply Rmatch; [exact Hm|]. exists m. auto. }
    apply in_map_iff in I as (m' & E' & Im'). unfold key in E'. injection E' as _ Et.
    apply (Permutation_map tag) in P. pose proof (Permutation_NoDup P Utag) as Nd. cbn [app map] in Nd.
    apply NoDup_cons_iff in Nd as [Na _]. apply Na. rewrite <- Et. apply in_map. apply in_or_app. right.
    apply in_flat_map. exists (dst m). split; [apply in_seq; lia|exact Im']. }
  split; [exact Hn|]. split; [|exact Hr']. rewrite Hn in P. exact P.
Qed.

(** rounds in which every process gets a turn: done after at most as many rounds as there are operations *)
Lemma round_progress l : forall st g, inv st g -> (forall r, r < n -> In r l) ->
  done B (fst st) = true \/ remaining (fst (fold_left (step B) l st)) < remaining (fst st).
Proof using Utag Dst Rnd Rmatch.
  intros st g I Hall.
  assert (G : forall l', (forall r, In r l' -> step B st r = st) -> (forall r, r < n -> In r l' \/ In r l) ->
     done B (fst st) = true \/ remaining (fst (fold_left (step B) l st)) < remaining (fst st)).
  { clear Hall. induction l as [|r l IH]; intros l' Hl' Hall.
    - left. eapply blocked_done; [exact I|]. intros r Hr. destruct (Hall r Hr) as [J|[]]. auto.
    - cbn [fold_left]. destruct (step_inv st g r I) as (g1 & I1 & [D|D]).
      + rewrite D. apply (IH (r :: l')).
        * intros q [<-|J]; auto.
        * intros q Hq. destruct (Hall q Hq) as [J|[<-|J]]; auto; left; [right|left]; auto.
      + right. destruct (run_inv l _ _ I1) as (_ & _ & D2). lia. }
  apply (G []); [intros r []|]. intros r Hr. right. auto.
Qed.
Lemma done_step st r : done B (fst st) = true -> step B st r = st.
Proof.
  destruct st as [ps net]. cbn [fst]. unfold done. intro Hd. rewrite forallb_forall in Hd. unfold step.
  destruct (nth_error ps r) as [p|] eqn:E; [|auto]. specialize (Hd p (nth_error_In _ _ E)).
  destruct (sends B p), (recvs B p); auto; discriminate.
Qed.
Lemma done_run l st : done B (fst st) = true -> fold_left (step B) l st = st.
Proof. intro Hd. induction l as [|r l IH]; cbn; [auto|]. now rewrite done_step. Qed.
Lemma rounds_done rounds : forall st g, inv st g -> Forall (fun l => forall r, r < n -> In r l) rounds ->
  remaining (fst st) <= length rounds -> done B (fst (fold_left (step B) (concat rounds) st)) = true.
Proof using Utag Dst Rnd Rmatch.
  induction rounds as [|l rounds IH]; intros st g I F Hle; cbn [concat length] in *.
  - cbn. destruct st as [ps net]. destruct I as (L & P & H). cbn [fst] in *. unfold remaining in Hle.
    unfold done. apply forallb_forall. intros p Ip. destruct (sends B p) as [|m ms] eqn:Es.
    + destruct (recvs B p) as [|k ks] eqn:Er; [auto|exfalso].
      assert (In k (flat_map (recvs B) ps)) by (apply in_flat_map; exists p; rewrite Er; split; [auto|now left]).
      destruct (flat_map (recvs B) ps); [contradiction|cbn in Hle; lia].
    + exfalso. assert (In m (flat_map (sends B) ps)) by (apply in_flat_map; exists p; rewrite Es; split; [auto|now left]).
      destruct (flat_map (sends B) ps); [contradiction|cbn in Hle; lia].
  - apply Forall_cons_iff in F as [Fl F]. rewrite fold_left_app.
    destruct (round_progress l st g I Fl) as [Hd|Hlt].
    + rewrite (done_run l) by exact Hd. rewrite done_run by exact Hd. exact Hd.
    + destruct (run_inv l st g I) as (g' & I' & _). eapply IH; eauto. lia.
Qed.
End Abstract.
End Exchange.
