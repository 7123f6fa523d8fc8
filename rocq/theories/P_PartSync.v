(** Proofs about the particle exchange. *)
From Verif Require Import Base M_Layout M_PartSync S_PartSync P_Sort2D P_Output P_Pairing.
From Coq Require Import QArith Permutation.
Local Open Scope list_scope.
Local Open Scope nat_scope.

Section Proofs.
Context {R Geo : Type}.
Variable nb : nat.
Variable opp : nat -> nat.
Variable classify : Geo -> R -> option nat.
Variable shift : Geo -> R -> R.
Variable outside : Geo -> R -> bool.
Variable clear : R -> R.
Variable clear_dead : bool.
Variable geo : nat -> Geo.
Variable nbr : nat -> nat -> option nat.
Variable fresh : nat -> nat -> R.
Hypothesis Sides : sides_ok nb classify outside.

Local Notation slot := (slot R).
Local Notation dead := (dead R).
Local Notation row := (row R).
Local Notation mkSlot := (mkSlot R).
Local Notation patches := (M_PartSync.patches R).
Local Notation pth := (pth R).
Local Notation count_outgoing := (count_outgoing R Geo nb classify).
Local Notation outgoing := (outgoing R Geo nb classify geo).
Local Notation incoming_from := (incoming_from opp nbr).
Local Notation npart_new := (npart_new nb opp nbr).
Local Notation extend := (extend R fresh).
Local Notation extend_all := (extend_all R nb opp nbr fresh).
Local Notation alloc := (alloc nb opp nbr).
Local Notation index_writes := (index_writes R Geo opp classify nbr).
Local Notation all_writes := (all_writes R Geo nb opp classify geo nbr).
Local Notation write := (write nb opp nbr).
Local Notation loads := (loads nb opp nbr).
Local Notation step3 := (step3 R Geo nb opp shift geo nbr).
Local Notation thread := (thread R).
Local Notation thread0 := (thread0 R nb opp nbr).
Local Notation thread_done := (thread_done R nb opp nbr).
Local Notation mark1 := (mark1 R Geo outside clear clear_dead).
Local Notation mark_all := (mark_all R Geo outside clear clear_dead geo).
Local Notation run3 := (run3 R Geo nb opp shift geo nbr).
Local Notation exchange := (exchange R Geo nb opp classify shift outside clear clear_dead geo nbr fresh).
Local Notation on_side := (on_side classify).

Definition leaves (g : Geo) (b : nat) (s : slot) : bool := negb (dead s) && on_side g b (row s).

Lemma filter_map_comm {A B} (f : A -> B) (p : B -> bool) l : filter p (map f l) = map f (filter (fun a => p (f a)) l).
Proof. induction l as [|a l IH]; auto. cbn. destruct (p (f a)); cbn; rewrite IH; auto. Qed.
Lemma filter_filter {A} (p q : A -> bool) l : filter p (filter q l) = filter (fun a => q a && p a) l.
Proof. induction l as [|a l IH]; auto. cbn. destruct (q a); cbn; [destruct (p a)|]; rewrite ?IH; auto. Qed.
Lemma left_by_rows g b l : left_by classify g b l = map row (filter (leaves g b) l).
Proof. unfold left_by, alive. rewrite filter_map_comm, filter_filter. reflexivity. Qed.

(** *** counting *)
Lemma count_fold g l c : length c = nb ->
  let r := fold_left (fun c s => if dead s then c else match classify g (row s) with Some b => upd b (S (nth b c 0)) c | None => c end) l c in
  length r = nb /\ forall b, b < nb -> nth b r 0 = nth b c 0 + countb (leaves g b) l.
Proof using. clear - nb classify.
  revert c. induction l as [|s l IH]; intros c Hc; cbn zeta; cbn [fold_left].
  - split; [auto|]. intros b Hb. rewrite countb_nil. lia.
  - set (c1 := if dead s then c else match classify g (row s) with Some b => upd b (S (nth b c 0)) c | None => c end).
    assert (Hc1 : length c1 = nb). { unfold c1. destruct (dead s); auto. destruct (classify g (row s)); auto. now rewrite upd_length. }
    destruct (IH c1 Hc1) as [H1 H2]. split; auto. intros b Hb. rewrite H2 by auto. rewrite countb_cons. unfold c1, leaves, S_PartSync.on_side.
    destruct (dead s); cbn [negb andb]; [lia|]. destruct (classify g (row s)) as [b'|] eqn:E; [|lia].
    destruct (Nat.eqb_spec b' b) as [->|N].
    + rewrite nth_upd_eq by lia. lia.
    + rewrite nth_upd_neq by auto. lia.
Qed.
Lemma count_outgoing_nth g l b : b < nb -> nth b (count_outgoing g l) 0 = countb (leaves g b) l.
Proof using. clear - nb classify.
  intro Hb. unfold M_PartSync.count_outgoing. destruct (count_fold g l (repeat 0 nb) (repeat_length _ _)) as [_ H]. rewrite H by auto.
  rewrite nth_repeat. lia.
Qed.
Lemma outgoing_nth st p b : p < length st -> b < nb -> nth b (nth p (outgoing st) []) 0 = countb (leaves (geo p) b) (pth st p).
Proof.
  intros Hp Hb. unfold M_PartSync.outgoing. rewrite (nth_map _ _ _ 0) by (rewrite seq_length; auto). rewrite seq_nth by auto. cbn [Nat.add].
  now apply count_outgoing_nth.
Qed.

(** *** indices of the leaving particles *)
Fixpoint lidx (g : Geo) (b : nat) (l : list slot) (ip : nat) : list nat :=
  match l with [] => [] | s :: l' => if leaves g b s then ip :: lidx g b l' (S ip) else lidx g b l' (S ip) end.
Lemma lidx_length g b l ip : length (lidx g b l ip) = countb (leaves g b) l.
Proof using. clear - classify. revert ip; induction l as [|s l IH]; intro ip; auto. cbn [lidx]. rewrite countb_cons. destruct (leaves g b s); cbn [length]; rewrite IH; lia. Qed.
Lemma lidx_nth g b l ip i : In i (lidx g b l ip) -> exists s, ip <= i /\ nth_error l (i - ip) = Some s /\ leaves g b s = true.
Proof using. clear - classify.
  revert ip; induction l as [|s l IH]; intros ip H; [contradiction|]. cbn [lidx] in H. 
  assert (X : In i (lidx g b l (S ip)) -> exists s0, ip <= i /\ nth_error (s :: l) (i - ip) = Some s0 /\ leaves g b s0 = true).
  { intro H'. destruct (IH _ H') as (s0 & L & E & Lv). exists s0. replace (i - ip) with (S (i - S ip)) by lia. cbn. repeat split; auto; lia. }
  destruct (leaves g b s) eqn:E; auto. destruct H as [<-|H]; auto. exists s. rewrite Nat.sub_diag. auto.
Qed.
Lemma lidx_rows g b l ip d : map (fun i => row (nth (i - ip) l d)) (lidx g b l ip) = map row (filter (leaves g b) l).
Proof.
  revert ip; induction l as [|s l IH]; intro ip; auto. cbn [lidx filter].
  assert (X : map (fun i => row (nth (i - ip) (s :: l) d)) (lidx g b l (S ip)) = map row (filter (leaves g b) l)).
  { rewrite <- (IH (S ip)). apply map_ext_in. intros i Hi. apply lidx_nth in Hi. destruct Hi as (_ & L & _).
    replace (i - ip) with (S (i - S ip)) by lia. reflexivity. }
  destruct (leaves g b s); cbn [map]; rewrite X; auto. rewrite Nat.sub_diag. reflexivity.
Qed.

Lemma index_writes_in p g l ip ib q b' k i : length ib = nb ->
  In (q, b', k, i) (index_writes p g l ip ib) <->
  exists b, nbr p b = Some q /\ b' = opp b /\ b < nb /\ nth b ib 0 <= k /\ nth_error (lidx g b l ip) (k - nth b ib 0) = Some i.
Proof.
  revert ip ib; induction l as [|s l IH]; intros ip ib Hib; cbn [M_PartSync.index_writes lidx].
  - split; [contradiction|]. intros (b & _ & _ & _ & _ & H). destruct (k - nth b ib 0); discriminate.
  - unfold leaves, S_PartSync.on_side. destruct (dead s) eqn:D; cbn [negb andb]; [apply IH; auto|].
    destruct (classify g (row s)) as [c|] eqn:C; [|apply IH; auto].
    assert (Hc : c < nb) by (eapply Sides; eauto).
    destruct (nbr p c) as [q'|] eqn:N.
    + cbn [In]. rewrite IH by (now rewrite upd_length). split.
      * intros [E|(b & H1 & H2 & H3 & H4 & H5)].
        -- inversion E; subst. exists c. rewrite Nat.eqb_refl, Nat.sub_diag. cbn. auto 10.
        -- exists b. repeat split; auto.
           ++ destruct (Nat.eq_dec c b) as [->|]; [rewrite nth_upd_eq in H4 by lia; lia|rewrite nth_upd_neq in H4 by auto; lia].
           ++ destruct (Nat.eqb_spec c b) as [->|].
              ** rewrite nth_upd_eq in H4, H5 by lia. replace (k - nth b ib 0) with (S (k - S (nth b ib 0))) by lia. exact H5.
              ** now rewrite nth_upd_neq in H4, H5 by auto.
      * intros (b & H1 & H2 & H3 & H4 & H5). destruct (Nat.eqb_spec c b) as [->|].
        -- destruct (k - nth b ib 0) as [|m] eqn:M; cbn in H5.
           ++ left. inversion H5; subst. replace k with (nth b ib 0) by lia. congruence.
           ++ right. exists b. rewrite nth_upd_eq by lia. repeat split; auto; [lia|]. replace (k - S (nth b ib 0)) with m by lia. auto.
        -- right. exists b. rewrite nth_upd_neq by auto. auto.
    + rewrite IH by auto. split; intros (b & H1 & H2 & H3 & H4 & H5); exists b; repeat split; auto;
      destruct (Nat.eqb_spec c b) as [->|]; auto; congruence.
Qed.

Section World.
Variable st : patches.
Let n := length st.
Hypothesis Sym : nbr_symmetric n nb opp nbr.
Let out := outgoing st.
Let st1 := extend_all out st.
Let new := npart_new out.

Lemma nth_map_seq {B} (f : nat -> B) m p d : p < m -> nth p (map f (seq 0 m)) d = f p.
Proof. intro H. rewrite (nth_map _ _ _ 0) by (rewrite seq_length; auto). rewrite seq_nth by auto. reflexivity. Qed.
Lemma st1_length : length st1 = n.
Proof. unfold st1, M_PartSync.extend_all. now rewrite map_length, seq_length. Qed.
Lemma st1_nth q : q < n -> pth st1 q = extend q (to_extend R (new q) (pth st q)) (pth st q).
Proof. intro H. unfold M_PartSync.pth at 1, st1, M_PartSync.extend_all. rewrite nth_map_seq by auto. reflexivity. Qed.
Definition tail (q : nat) : list slot := map (fun i => mkSlot (fresh q (length (pth st q) + i)) true) (seq 0 (to_extend R (new q) (pth st q))).
Lemma st1_app q : q < n -> pth st1 q = pth st q ++ tail q.
Proof. intro H. rewrite st1_nth by auto. reflexivity. Qed.
Lemma tail_dead q s : In s (tail q) -> dead s = true.
Proof. unfold tail. intro H. apply in_map_iff in H. destruct H as (i & <- & _). reflexivity. Qed.
Lemma filter_tail q f : (forall s, dead s = true -> f s = false) -> filter f (tail q) = [].
Proof.
  intro F. pose proof (tail_dead q) as T. induction (tail q) as [|s l IH]; auto. cbn. rewrite F by (apply T; left; auto). apply IH. intros; apply T; right; auto.
Qed.
Lemma filter_st1 q f : q < n -> (forall s, dead s = true -> f s = false) -> filter f (pth st1 q) = filter f (pth st q).
Proof. intros Hq F. rewrite st1_app, filter_app, filter_tail, app_nil_r by auto. reflexivity. Qed.
Lemma leaves_dead g b s : dead s = true -> leaves g b s = false.
Proof. unfold leaves. intros ->. reflexivity. Qed.
Lemma alive_st1 q : q < n -> alive (pth st1 q) = alive (pth st q).
Proof. intro H. unfold alive. rewrite filter_st1; auto. intros s ->. reflexivity. Qed.

Lemma in_count q b : q < n -> b < nb -> incoming_from out q b = match nbr q b with Some p => length (lidx (geo p) (opp b) (pth st1 p) 0) | None => 0 end.
Proof.
  intros Hq Hb. unfold M_PartSync.incoming_from. destruct (nbr q b) as [p|] eqn:N; auto. destruct (Sym _ _ _ Hq Hb N) as (Hp & Ho & _).
  unfold out. rewrite outgoing_nth by auto. rewrite lidx_length. unfold countb. rewrite filter_st1 by (auto; intros; apply leaves_dead; auto). reflexivity.
Qed.
Lemma sumn_in_le l x : In x l -> x <= sumn l.
Proof. induction l as [|a l IH]; intros []; rewrite sumn_cons; [lia|]. apply IH in H. lia. Qed.
Lemma in_le_new q b : b < nb -> incoming_from out q b <= new q.
Proof. intro Hb. unfold new, M_PartSync.npart_new. apply sumn_in_le, in_map, in_seq. lia. Qed.

(** *** the index buffers *)
Definition entry_ok (e : nat * nat * nat * nat) : Prop :=
  let '(q, b, k, i) := e in q < n /\ b < nb /\ exists p, nbr q b = Some p /\ nth_error (lidx (geo p) (opp b) (pth st1 p) 0) k = Some i.
Lemma all_writes_in e : In e (all_writes st1) <-> entry_ok e.
Proof.
  destruct e as [[[q b'] k] i]. unfold M_PartSync.all_writes, entry_ok. rewrite in_flat_map. split.
  - intros (p & Hp & H). apply in_seq in Hp. rewrite st1_length in Hp. apply index_writes_in in H; [|apply repeat_length].
    destruct H as (b & N & -> & Hb & _ & E). rewrite nth_repeat, Nat.sub_0_r in E.
    destruct (Sym p b q ltac:(lia) Hb N) as (Hq & Ho & Hoo & N'). repeat split; auto. exists p. rewrite Hoo. auto.
  - intros (Hq & Hb & p & N & E). destruct (Sym q b' p Hq Hb N) as (Hp & Ho & Hoo & N').
    exists p. split; [apply in_seq; rewrite st1_length; lia|]. apply index_writes_in; [apply repeat_length|].
    exists (opp b'). rewrite nth_repeat, Nat.sub_0_r. repeat split; auto. lia.
Qed.
Lemma nth_error_lt {A} (l : list A) k x : nth_error l k = Some x -> k < length l.
Proof. intro H. apply nth_error_Some. congruence. Qed.
Lemma write_ok es w : (forall e, In e es -> entry_ok e) -> fold_left (write out) es (Mem w) = Mem (rev es ++ w).
Proof.
  revert w; induction es as [|e es IH]; intros w H; auto. cbn [fold_left rev]. rewrite <- app_assoc. cbn [app].
  assert (E : write out (Mem w) e = Mem (e :: w)).
  { pose proof (H e (or_introl eq_refl)) as Ok. destruct e as [[[q b] k] i]. cbn [M_PartSync.write]. destruct Ok as (Hq & Hb & p & N & E).
    apply nth_error_lt in E. unfold M_PartSync.alloc. pose proof (in_count q b Hq Hb) as C. rewrite N in C. pose proof (in_le_new q b Hb) as L.
    unfold new in L. destruct (0 <? npart_new out q) eqn:P; [|apply Nat.ltb_ge in P; lia]. rewrite N.
    destruct (0 <? incoming_from out q b) eqn:P2; [|apply Nat.ltb_ge in P2; lia].
    destruct (k <? incoming_from out q b) eqn:P3; [reflexivity|apply Nat.ltb_ge in P3; lia]. }
  rewrite E. apply IH. intros; apply H; right; auto.
Qed.
Lemma read_ok w q b k : (forall e, In e w <-> entry_ok e) -> q < n -> b < nb ->
  forall p i, nbr q b = Some p -> nth_error (lidx (geo p) (opp b) (pth st1 p) 0) k = Some i -> read w q b k = Some i.
Proof.
  intros W Hq Hb p i N E. unfold read.
  destruct (find _ w) as [[[[q' b'] k'] i']|] eqn:F.
  - apply find_some in F. destruct F as [F1 F2]. apply W in F1. destruct F1 as (_ & _ & p' & N' & E').
    assert (q' = q /\ b' = b /\ k' = k) as (-> & -> & ->) by lia. rewrite N in N'. inversion N'; subst. congruence.
  - exfalso. assert (In (q, b, k, i) w) as Hi by (apply W; cbn; eauto 10). apply (find_none _ _ F) in Hi. cbn in Hi. rewrite !Nat.eqb_refl in Hi. discriminate.
Qed.

(** rows arriving at q, in buffer order *)
Definition where_from (q : nat) : list (nat * option nat) :=
  flat_map (fun b => match nbr q b with Some p => map (fun i => (p, Some i)) (lidx (geo p) (opp b) (pth st1 p) 0) | None => [] end) (seq 0 nb).
Lemma map_seq_nth {A} (l : list A) (f : nat -> option A) : (forall k x, nth_error l k = Some x -> f k = Some x) ->
  map f (seq 0 (length l)) = map Some l.
Proof.
  revert f; induction l as [|a l IH]; intros f H; auto. cbn [length seq map]. f_equal; [apply H; reflexivity|].
  rewrite <- seq_shift, map_map. apply IH. intros k x E. apply H. exact E.
Qed.
Lemma loads_eq w q : (forall e, In e w <-> entry_ok e) -> q < n -> loads out w q = where_from q.
Proof.
  intros W Hq. unfold M_PartSync.loads, where_from.
  assert (E : flat_map (fun b => match nbr q b with Some i => map (fun k => (i, read w q b k)) (seq 0 (incoming_from out q b)) | None => [] end) (seq 0 nb)
            = flat_map (fun b => match nbr q b with Some p => map (fun i => (p, Some i)) (lidx (geo p) (opp b) (pth st1 p) 0) | None => [] end) (seq 0 nb)).
  { apply flat_map_ext_in'. intros b Hb. apply in_seq in Hb. pose proof (in_count q b Hq ltac:(lia)) as C. destruct (nbr q b) as [p|] eqn:N; auto. rewrite C.
    transitivity (map (fun o => (p, o)) (map (fun k => read w q b k) (seq 0 (length (lidx (geo p) (opp b) (pth st1 p) 0))))); [now rewrite map_map|].
    rewrite map_seq_nth, map_map; auto. intros k x E. apply (read_ok w q b k W Hq ltac:(lia) p x); auto. }
  destruct (0 <? npart_new out q) eqn:P; [exact E|]. rewrite <- E. symmetry.
  apply Nat.ltb_ge in P. assert (Z : forall b, In b (seq 0 nb) -> incoming_from out q b = 0).
  { intros b Hb. apply in_seq in Hb. pose proof (in_le_new q b ltac:(lia)). unfold new in *. lia. }
  clear E. induction (seq 0 nb) as [|b l IH]; auto. cbn [flat_map]. rewrite IH by (intros; apply Z; right; auto). rewrite (Z b) by (left; auto).
  destruct (nbr q b); auto.
Qed.
Definition arr (q : nat) : list R := arrivals nb opp classify geo nbr st q.
Lemma arr_length q : q < n -> length (arr q) = new q.
Proof.
  intro Hq. unfold arr, arrivals, new, M_PartSync.npart_new.
  assert (E : forall l, (forall b, In b l -> b < nb) -> length (flat_map (fun b => match nbr q b with Some p => left_by classify (geo p) (opp b) (nth p st []) | None => [] end) l)
            = sumn (map (incoming_from out q) l)).
  { induction l as [|b l IH]; intro Hl; auto. cbn [flat_map map]. rewrite app_length, sumn_cons, IH by (intros; apply Hl; right; auto). f_equal.
    rewrite in_count by (auto; apply Hl; left; auto). destruct (nbr q b) as [p|] eqn:N; auto. rewrite left_by_rows, map_length, lidx_length.
    destruct (Sym q b p Hq (Hl b (or_introl eq_refl)) N) as (Hp & _). unfold countb. rewrite filter_st1 by (auto; intros; apply leaves_dead; auto). reflexivity. }
  apply E. intros b Hb. apply in_seq in Hb. lia.
Qed.
Lemma where_from_rows q d : q < n -> map (fun e => match snd e with Some ip => row (nth ip (pth st1 (fst e)) d) | None => row d end) (where_from q) = arr q.
Proof.
  intro Hq. unfold where_from, arr, arrivals. rewrite map_flat_map. apply flat_map_ext_in'. intros b Hb. apply in_seq in Hb.
  destruct (nbr q b) as [p|] eqn:N; auto. destruct (Sym q b p Hq ltac:(lia) N) as (Hp & _). rewrite map_map. cbn [fst snd].
  rewrite left_by_rows. change (nth p st []) with (pth st p). rewrite <- (filter_st1 p) by (auto; intros; apply leaves_dead; auto).
  rewrite <- (lidx_rows _ _ _ 0 d). apply map_ext. intro i. now rewrite Nat.sub_0_r.
Qed.
Lemma where_from_alive q e : q < n -> In e (where_from q) -> exists ip s, snd e = Some ip /\ fst e < n /\ nth_error (pth st1 (fst e)) ip = Some s /\ dead s = false.
Proof.
  intros Hq H. unfold where_from in H. apply in_flat_map in H. destruct H as (b & Hb & H). apply in_seq in Hb.
  destruct (nbr q b) as [p|] eqn:N; [|contradiction]. apply in_map_iff in H. destruct H as (i & <- & H). cbn [fst snd].
  destruct (Sym q b p Hq ltac:(lia) N) as (Hp & _). apply lidx_nth in H. destruct H as (s & _ & E & L). rewrite Nat.sub_0_r in E.
  exists i, s. repeat split; auto. unfold leaves in L. destruct (dead s); auto.
Qed.

(** *** storing into dead slots *)
Fixpoint fillf (g : Geo) (l : list slot) (rows : list R) : list slot :=
  match l with
  | [] => []
  | s :: l' => match rows with
               | [] => l
               | r :: rows' => if dead s then mkSlot (shift g r) false :: fillf g l' rows' else s :: fillf g l' rows
               end
  end.
Lemma fillf_nil g l : fillf g l [] = l. Proof. destruct l; reflexivity. Qed.
Lemma fillf_length g l rows : length (fillf g l rows) = length l.
Proof. revert rows; induction l as [|s l IH]; intros [|r rows]; auto. cbn. destruct (dead s); cbn; now rewrite IH. Qed.
Lemma fillf_app g a b rows : fillf g (a ++ b) rows = fillf g a rows ++ fillf g b (skipn (countb dead a) rows).
Proof.
  revert rows; induction a as [|s a IH]; intro rows; cbn [app]; [reflexivity|]. destruct rows as [|r rows].
  - rewrite skipn_nil. rewrite fillf_nil. cbn [fillf]. rewrite fillf_nil. reflexivity.
  - cbn [fillf]. rewrite countb_cons. destruct (dead s); cbn [app]; rewrite IH; reflexivity.
Qed.
Lemma fillf_alive g l rows k s : nth_error l k = Some s -> dead s = false -> nth_error (fillf g l rows) k = Some s.
Proof.
  revert rows k; induction l as [|a l IH]; intros rows k H D; [destruct k; discriminate|]. destruct rows as [|r rows]; auto. cbn [fillf].
  destruct k as [|k]; cbn in H.
  - inversion H; subst. rewrite D. reflexivity.
  - destruct (dead a); cbn; apply IH; auto.
Qed.
Lemma fillf_perm g l rows : length rows <= countb dead l -> Permutation (alive (fillf g l rows)) (alive l ++ map (shift g) rows).
Proof using. clear - shift.
  revert rows; induction l as [|s l IH]; intros rows H.
  - destruct rows; [reflexivity|cbn in H; lia].
  - destruct rows as [|r rows]; [cbn [fillf map]; now rewrite app_nil_r|]. cbn [fillf]. rewrite countb_cons in H. unfold alive in *.
    destruct (dead s) eqn:D; cbn [filter M_PartSync.dead negb].
    + rewrite D. cbn [negb map M_PartSync.row]. cbn [length] in H. rewrite IH by lia. apply Permutation_middle.
    + rewrite D. cbn [negb map]. cbn [app]. constructor. apply (IH (r :: rows)). lia.
Qed.

(** *** the third loop *)
Definition slots1 (q : nat) := pth st1 q.
Definition Inv (x : patches) (ts : list thread) : Prop :=
  length x = n /\ length ts = n /\
  forall q, q < n -> exists t k, nth_error ts q = Some t /\
    k <= length (arr q) /\ pending R t = skipn k (where_from q) /\ buf R t = firstn k (arr q) /\
    ipart R t <= length (slots1 q) /\ ibuff R t = countb dead (firstn (ipart R t) (slots1 q)) /\ ibuff R t <= new q /\
    (k < length (arr q) -> ipart R t = 0) /\
    pth x q = fillf (geo q) (firstn (ipart R t) (slots1 q)) (arr q) ++ skipn (ipart R t) (slots1 q).
Lemma where_from_length q : q < n -> length (where_from q) = length (arr q).
Proof. intro Hq. rewrite <- (where_from_rows q (mkSlot (fresh 0 0) true) Hq). now rewrite map_length. Qed.
Lemma keeps_alive g l k rows j s : nth_error l j = Some s -> dead s = false -> nth_error (fillf g (firstn k l) rows ++ skipn k l) j = Some s.
Proof.
  intros H D. destruct (Nat.lt_ge_cases j (length (firstn k l))) as [L|L].
  - rewrite nth_error_app1 by (now rewrite fillf_length). apply fillf_alive; auto.
    rewrite <- (firstn_skipn k l) in H. now rewrite nth_error_app1 in H by auto.
  - rewrite nth_error_app2 by (now rewrite fillf_length). rewrite fillf_length.
    rewrite <- (firstn_skipn k l) in H. now rewrite nth_error_app2 in H by auto.
Qed.
Lemma nth_error_upd_eq {A} i (v : A) l : i < length l -> nth_error (upd i v l) i = Some v.
Proof. revert i; induction l as [|a l IH]; intros [|i] H; cbn in *; try lia; auto. apply IH; lia. Qed.
Lemma nth_error_upd_neq {A} i j (v : A) l : i <> j -> nth_error (upd i v l) j = nth_error l j.
Proof. revert i j; induction l as [|a l IH]; intros [|i] [|j] H; cbn; auto; try congruence. Qed.
Lemma firstn_snoc {A} (l : list A) k x : nth_error l k = Some x -> firstn (S k) l = firstn k l ++ [x].
Proof. revert l; induction k as [|k IH]; intros [|a l] H; cbn in H; try discriminate; [inversion H; reflexivity|]. cbn [firstn app]. f_equal. now apply IH. Qed.
Lemma skipn_cons {A} (l : list A) k x : nth_error l k = Some x -> skipn k l = x :: skipn (S k) l.
Proof. revert l; induction k as [|k IH]; intros [|a l] H; cbn in H; try discriminate; [inversion H; reflexivity|]. cbn [skipn]. now apply IH. Qed.
Lemma upd_app_len {A} (a b : list A) v x : upd (length a) v (a ++ x :: b) = a ++ v :: b.
Proof. induction a as [|y a IH]; auto. cbn. now rewrite IH. Qed.
Lemma fillf_one_dead g a s rows r : nth_error rows (countb dead a) = Some r -> dead s = true ->
  fillf g (a ++ [s]) rows = fillf g a rows ++ [mkSlot (shift g r) false].
Proof. intros H D. rewrite fillf_app. rewrite (skipn_cons _ _ _ H). cbn [fillf]. rewrite D. reflexivity. Qed.
Lemma fillf_one_alive g a s rows : dead s = false -> fillf g (a ++ [s]) rows = fillf g a rows ++ [s].
Proof. intros D. rewrite fillf_app. destruct (skipn _ rows); cbn [fillf]; rewrite ?D; reflexivity. Qed.

Lemma step_inv x ts q : Inv x ts -> exists x' ts', step3 out (Some (x, ts)) q = Some (x', ts') /\ Inv x' ts'.
Proof.
  intros (Lx & Lt & I). cbn [M_PartSync.step3]. destruct (nth_error ts q) as [t|] eqn:T; [|exists x, ts; split; [reflexivity|split; auto]].
  assert (Hq : q < n) by (rewrite <- Lt; eapply nth_error_lt; eauto).
  destruct (I q Hq) as (t' & k & T' & Hk & P & B & Ip & Ib & Ibn & K0 & X). rewrite T in T'. inversion T'; subst t'; clear T'.
  pose proof (where_from_length q Hq) as WL. pose proof (arr_length q Hq) as AL.
  assert (Other : forall q0 (t' : thread), q0 < n -> q0 <> q -> nth_error (upd q t' ts) q0 = nth_error ts q0) by (intros; apply nth_error_upd_neq; auto).
  destruct (pending R t) as [|[i oip] rest] eqn:PE.
  - assert (k = length (arr q)).
    { destruct (Nat.eq_dec k (length (arr q))) as [|NE]; auto. exfalso. symmetry in P. apply (f_equal (@length _)) in P. rewrite skipn_length in P. cbn in P. lia. }
    subst k. rewrite firstn_all in B. destruct (npart_new out q <=? ibuff R t) eqn:E1; [exists x, ts; split; [reflexivity|split; [|split]; auto]|].
    apply Nat.leb_gt in E1.
    destruct (nth_error (pth x q) (ipart R t)) as [s|] eqn:E2; [|exists x, ts; split; [reflexivity|split; [|split]; auto]].
    assert (FL : length (fillf (geo q) (firstn (ipart R t) (slots1 q)) (arr q)) = ipart R t) by (rewrite fillf_length, firstn_length; lia).
    assert (S1 : nth_error (slots1 q) (ipart R t) = Some s).
    { rewrite X in E2. rewrite nth_error_app2 in E2 by lia. rewrite FL, Nat.sub_diag in E2.
      destruct (nth_error (slots1 q) (ipart R t)) as [s'|] eqn:E3; [rewrite (skipn_cons _ _ _ E3) in E2; cbn in E2; exact E2|].
      apply nth_error_None in E3. rewrite skipn_all2 in E2 by auto. discriminate. }
    pose proof (nth_error_lt _ _ _ S1) as IL.
    destruct (dead s) eqn:D.
    + assert (BR : exists r, nth_error (buf R t) (ibuff R t) = Some r).
      { destruct (nth_error (buf R t) (ibuff R t)) eqn:E3; eauto. apply nth_error_None in E3. rewrite B in E3. unfold new in AL. lia. }
      destruct BR as [r BR]. rewrite BR. eexists; eexists; split; [reflexivity|]. split; [now rewrite upd_length|]. split; [now rewrite upd_length|].
      intros q0 Hq0. destruct (Nat.eq_dec q0 q) as [->|NE].
      * exists (mkThread R [] (buf R t) (S (ipart R t)) (S (ibuff R t))), (length (arr q)). rewrite nth_error_upd_eq by lia. split; [reflexivity|].
        cbn [pending buf ipart ibuff]. split; [lia|]. split; [now rewrite P|]. split; [now rewrite firstn_all|]. split; [lia|].
        split. { rewrite (firstn_snoc _ _ _ S1), countb_app, countb_cons, D, countb_nil, <- Ib. lia. }
        split; [unfold new; lia|]. split; [lia|].
        unfold M_PartSync.pth at 1. rewrite nth_upd_eq by lia. rewrite X at 1. rewrite (skipn_cons _ _ _ S1).
        replace (upd (ipart R t)) with (@upd slot (length (fillf (geo q) (firstn (ipart R t) (slots1 q)) (arr q)))) by now rewrite FL.
        rewrite upd_app_len. rewrite (firstn_snoc _ _ _ S1). rewrite (fillf_one_dead _ _ _ _ r); auto; [|rewrite <- Ib, <- B; auto]. rewrite <- app_assoc. reflexivity.
      * destruct (I q0 Hq0) as (t0 & k0 & H). exists t0, k0. rewrite Other by auto. unfold M_PartSync.pth at 1. rewrite nth_upd_neq by auto. exact H.
    + eexists; eexists; split; [reflexivity|]. split; [auto|]. split; [now rewrite upd_length|].
      intros q0 Hq0. destruct (Nat.eq_dec q0 q) as [->|NE].
      * exists (mkThread R [] (buf R t) (S (ipart R t)) (ibuff R t)), (length (arr q)). rewrite nth_error_upd_eq by lia. split; [reflexivity|].
        cbn [pending buf ipart ibuff]. split; [lia|]. split; [now rewrite P|]. split; [now rewrite firstn_all|]. split; [lia|].
        split. { rewrite (firstn_snoc _ _ _ S1), countb_app, countb_cons, D, countb_nil, <- Ib. lia. }
        split; [auto|]. split; [lia|]. rewrite X. rewrite (firstn_snoc _ _ _ S1), (skipn_cons _ _ _ S1). rewrite fillf_one_alive by auto. rewrite <- app_assoc. reflexivity.
      * destruct (I q0 Hq0) as (t0 & k0 & H). exists t0, k0. rewrite Other by auto. exact H.
  - assert (KL : k < length (arr q)).
    { symmetry in P. apply (f_equal (@length _)) in P. rewrite skipn_length in P. cbn in P. lia. }
    specialize (K0 KL).
    assert (NE : nth_error (where_from q) k = Some (i, oip)).
    { destruct (nth_error (where_from q) k) as [e|] eqn:E; [rewrite (skipn_cons _ _ _ E) in P; congruence|]. apply nth_error_None in E. lia. }
    destruct (where_from_alive q (i, oip) Hq (nth_error_In _ _ NE)) as (ip & s & E1 & Hi & E2 & D). cbn [fst snd] in E1, Hi, E2. subst oip.
    destruct (I i Hi) as (ti & ki & _ & _ & _ & _ & _ & _ & _ & _ & Xi).
    assert (RD : nth_error (pth x i) ip = Some s) by (rewrite Xi; apply keeps_alive; auto).
    rewrite RD. eexists; eexists; split; [reflexivity|]. split; [auto|]. split; [now rewrite upd_length|].
    intros q0 Hq0. destruct (Nat.eq_dec q0 q) as [->|NEq].
    + exists (mkThread R rest (buf R t ++ [row s]) (ipart R t) (ibuff R t)), (S k). rewrite nth_error_upd_eq by lia. split; [reflexivity|].
      cbn [pending buf ipart ibuff]. split; [lia|]. rewrite (skipn_cons _ _ _ NE) in P.
      assert (P' : rest = skipn (S k) (where_from q)) by congruence.
      split; [exact P'|]. split.
      { rewrite (firstn_snoc (arr q) k (row s)); [now rewrite B|].
        pose proof (where_from_rows q s Hq) as WR. rewrite <- WR. rewrite nth_error_map, NE. cbn [option_map fst snd].
        now rewrite (nth_error_nth _ _ s E2). }
      repeat split; auto.
    + destruct (I q0 Hq0) as (t0 & k0 & H). exists t0, k0. rewrite Other by auto. exact H.
Qed.
Lemma init_inv w : (forall e, In e w <-> entry_ok e) -> Inv st1 (map (thread0 out w) (seq 0 n)).
Proof.
  intro W. split; [apply st1_length|]. split; [now rewrite map_length, seq_length|]. intros q Hq.
  exists (thread0 out w q), 0. split; [rewrite nth_error_map; rewrite (nth_error_nth' _ 0) by (rewrite seq_length; auto); rewrite seq_nth by auto; reflexivity|].
  cbn [pending buf ipart ibuff M_PartSync.thread0 skipn firstn countb filter length fillf app]. split; [lia|]. split; [apply loads_eq; auto|]. repeat split; auto; lia.
Qed.
Lemma run_inv sched x ts : Inv x ts -> exists x' ts', fold_left (step3 out) sched (Some (x, ts)) = Some (x', ts') /\ Inv x' ts'.
Proof.
  revert x ts; induction sched as [|q sched IH]; intros x ts I; [exists x, ts; auto|]. cbn [fold_left].
  destruct (step_inv x ts q I) as (x' & ts' & -> & I'). apply IH; auto.
Qed.
Lemma done_fill x ts q : Inv x ts -> q < n -> thread_done out x ts q = true -> pth x q = fillf (geo q) (pth st1 q) (arr q).
Proof.
  intros (Lx & Lt & I) Hq D. destruct (I q Hq) as (t & k & T & Hk & P & B & Ip & Ib & Ibn & K0 & X).
  unfold M_PartSync.thread_done in D. rewrite T in D. destruct (pending R t) as [|] eqn:PE; [|discriminate].
  rewrite X. fold (slots1 q). rewrite <- (firstn_skipn (ipart R t) (slots1 q)) at 3. rewrite fillf_app. f_equal.
  apply orb_true_iff in D. destruct D as [D|D]; apply Nat.leb_le in D.
  - rewrite skipn_all2 with (n := countb dead _); [now rewrite fillf_nil|]. rewrite arr_length by auto. unfold new. lia.
  - rewrite X, app_length, fillf_length, firstn_length, skipn_length in D. rewrite skipn_all2 by lia. reflexivity.
Qed.
(** enough turns finish a thread *)
Definition left_turns (x : patches) (t : thread) (q : nat) : nat := length (pending R t) + (length (pth x q) - ipart R t).
Lemma pth_upd_len (x : patches) q l : q < length x -> length l = length (pth x q) -> length (pth (upd q l x) q) = length (pth x q).
Proof. intros H E. unfold M_PartSync.pth at 1. rewrite nth_upd_eq by auto. exact E. Qed.
Lemma step_turns x ts q x' ts' : Inv x ts -> step3 out (Some (x, ts)) q = Some (x', ts') ->
  forall q0 t0, q0 < n -> nth_error ts q0 = Some t0 ->
  exists t1, nth_error ts' q0 = Some t1 /\ (thread_done out x ts q0 = true -> thread_done out x' ts' q0 = true) /\
    left_turns x' t1 q0 <= left_turns x t0 q0 /\
    (q0 = q -> thread_done out x' ts' q0 = true \/ left_turns x' t1 q0 < left_turns x t0 q0).
Proof.
  intros (Lx & Lt & I) E q0 t0 Hq0 T0. cbn [M_PartSync.step3] in E.
  destruct (nth_error ts q) as [t|] eqn:T; [|inversion E; subst; exists t0; repeat split; auto; intros ->; congruence].
  assert (Hq : q < n) by (rewrite <- Lt; eapply nth_error_lt; eauto).
  assert (Other : forall (t' : thread) y, q0 <> q -> (pth y q0 = pth x q0) -> exists t1, nth_error (upd q t' ts) q0 = Some t1 /\
     (thread_done out x ts q0 = true -> thread_done out y (upd q t' ts) q0 = true) /\ left_turns y t1 q0 <= left_turns x t0 q0 /\
     (q0 = q -> thread_done out y (upd q t' ts) q0 = true \/ left_turns y t1 q0 < left_turns x t0 q0)).
  { intros t' y NE Y. exists t0. rewrite nth_error_upd_neq by auto. split; auto. unfold M_PartSync.thread_done, left_turns. rewrite nth_error_upd_neq by auto. rewrite T0, Y.
    repeat split; auto; intro; congruence. }
  destruct (pending R t) as [|[i oip] rest] eqn:PE.
  - destruct (npart_new out q <=? ibuff R t) eqn:E1.
    { inversion E; subst. exists t0. repeat split; auto. intros ->. left. unfold M_PartSync.thread_done. rewrite T, PE, E1. reflexivity. }
    destruct (nth_error (pth x q) (ipart R t)) as [s|] eqn:E2.
    2:{ inversion E; subst. exists t0. repeat split; auto. intros ->. left. unfold M_PartSync.thread_done. rewrite T, PE, E1. cbn [orb].
        apply nth_error_None in E2. apply Nat.leb_le. auto. }
    pose proof (nth_error_lt _ _ _ E2) as IL.
    assert (ND : thread_done out x ts q = false) by (unfold M_PartSync.thread_done; rewrite T, PE, E1; cbn [orb]; apply Nat.leb_gt; auto).
    destruct (dead s).
    + destruct (nth_error (buf R t) (ibuff R t)) as [r|]; [|discriminate]. inversion E; subst; clear E. destruct (Nat.eq_dec q0 q) as [->|NE].
      * rewrite T in T0. inversion T0; subst t0. eexists. rewrite nth_error_upd_eq by lia. split; [reflexivity|]. split; [congruence|].
        unfold left_turns. cbn [pending ipart]. rewrite PE. rewrite pth_upd_len by (rewrite ?upd_length; lia). cbn [length].
        split; [lia|]. intros _. right. lia.
      * apply Other; auto. unfold M_PartSync.pth. apply nth_upd_neq; auto.
    + inversion E; subst; clear E. destruct (Nat.eq_dec q0 q) as [->|NE].
      * rewrite T in T0. inversion T0; subst t0. eexists. rewrite nth_error_upd_eq by lia. split; [reflexivity|]. split; [congruence|].
        unfold left_turns. cbn [pending ipart]. rewrite PE. cbn [length]. split; [lia|]. intros _. right. lia.
      * apply Other; auto.
  - destruct oip as [ip|]; [|discriminate]. destruct (nth_error (pth x i) ip) as [s|]; [|discriminate]. inversion E; subst; clear E.
    destruct (Nat.eq_dec q0 q) as [->|NE]; [|apply Other; auto].
    rewrite T in T0. inversion T0; subst t0. eexists. rewrite nth_error_upd_eq by lia. split; [reflexivity|].
    split. { unfold M_PartSync.thread_done at 1. rewrite T, PE. discriminate. }
    unfold left_turns. cbn [pending ipart]. rewrite PE. cbn [length]. split; [lia|]. intros _. right. lia.
Qed.
Lemma run_done sched x ts x' ts' q t : Inv x ts -> q < n -> nth_error ts q = Some t -> fold_left (step3 out) sched (Some (x, ts)) = Some (x', ts') ->
  (thread_done out x ts q = true \/ left_turns x t q < count_occ Nat.eq_dec sched q) -> thread_done out x' ts' q = true.
Proof.
  revert x ts t; induction sched as [|q1 sched IH]; intros x ts t I Hq T E H.
  - cbn in E. inversion E; subst. destruct H as [H|H]; auto. cbn in H. lia.
  - cbn [fold_left] in E. destruct (step_inv x ts q1 I) as (x1 & ts1 & E1 & I1). rewrite E1 in E.
    destruct (step_turns x ts q1 x1 ts1 I E1 q t Hq T) as (t1 & T1 & D1 & L1 & S1). apply (IH x1 ts1 t1); auto.
    destruct H as [H|H]; [left; auto|]. cbn [count_occ] in H. destruct (Nat.eq_dec q1 q) as [->|NE].
    + destruct (S1 eq_refl) as [D|L]; [left; auto|right; lia].
    + right. lia.
Qed.
Lemma room q : q < n -> length (arr q) <= countb dead (pth st1 q).
Proof.
  intro Hq. rewrite arr_length by auto. rewrite st1_app, countb_app by auto.
  assert (T : countb dead (tail q) = to_extend R (new q) (pth st q)).
  { rewrite countb_true by (intros; eapply tail_dead; eauto). unfold tail. now rewrite map_length, seq_length. }
  rewrite T. unfold to_extend. destruct (countb dead (pth st q) <? new q) eqn:E; [apply Nat.ltb_lt in E|apply Nat.ltb_ge in E]; lia.
Qed.
Lemma alive_mark g l : alive (map (mark1 g) l) = filter (fun r => negb (outside g r)) (alive l).
Proof using. clear - outside clear clear_dead.
  unfold alive. induction l as [|s l IH]; auto. cbn [map filter]. unfold M_PartSync.mark1 at 1 2. destruct (dead s) eqn:D.
  - destruct clear_dead; cbn [M_PartSync.dead negb]; [|rewrite D; cbn [negb]]; apply IH.
  - destruct (outside g (row s)) eqn:O; cbn [M_PartSync.dead negb]; cbn [map filter].
    + rewrite O. cbn [negb]. apply IH.
    + rewrite D, O. cbn [negb map]. now rewrite IH.
Qed.
Lemma mark_nth x q : q < length x -> pth (mark_all x) q = map (mark1 (geo q)) (pth x q).
Proof. intro H. unfold M_PartSync.mark_all, M_PartSync.pth at 1. now rewrite nth_map_seq. Qed.

Lemma perm_entries es : Permutation es (all_writes st1) -> forall e, In e es <-> entry_ok e.
Proof. intros P e. rewrite <- all_writes_in. split; apply Permutation_in; auto. now symmetry. Qed.

Theorem exchange_some es sched : Permutation es (all_writes st1) ->
  (forall q, q < n -> length (arr q) + length (pth st1 q) < count_occ Nat.eq_dec sched q) ->
  exists st', exchange st es sched = Some st'.
Proof.
  intros P S. unfold M_PartSync.exchange. fold out. fold st1. rewrite write_ok by (apply perm_entries; auto). rewrite app_nil_r.
  assert (W : forall e, In e (rev es) <-> entry_ok e) by (intro e; rewrite <- in_rev; now apply perm_entries).
  pose proof (init_inv (rev es) W) as I0. unfold M_PartSync.run3. rewrite st1_length.
  destruct (run_inv sched _ _ I0) as (x' & ts' & E & I'). rewrite E.
  assert (D : forallb (thread_done out x' ts') (seq 0 (length st)) = true).
  { apply forallb_forall. intros q Hq. apply in_seq in Hq. fold n in Hq.
    assert (T : nth_error (map (thread0 out (rev es)) (seq 0 n)) q = Some (thread0 out (rev es) q)).
    { rewrite nth_error_map. rewrite (nth_error_nth' _ 0) by (rewrite seq_length; lia). rewrite seq_nth by lia. reflexivity. }
    apply (run_done sched _ _ x' ts' q (thread0 out (rev es) q) I0); auto; [lia|]. right. unfold left_turns. cbn [pending ipart M_PartSync.thread0].
    rewrite loads_eq by (auto; lia). rewrite where_from_length by lia. specialize (S q ltac:(lia)). lia. }
  rewrite D. eauto.
Qed.
Theorem exchange_result es sched st' : Permutation es (all_writes st1) -> exchange st es sched = Some st' ->
  length st' = n /\ forall q, q < n ->
   Permutation (alive (pth st' q)) (stayed classify (geo q) (pth st q) ++ filter (fun r => negb (outside (geo q) r)) (map (shift (geo q)) (arr q))) /\
   (forall i s, nth_error (pth st q) i = Some s -> dead s = false -> classify (geo q) (row s) = None -> nth_error (pth st' q) i = Some s).
Proof.
  intros P E. unfold M_PartSync.exchange in E. fold out in E. fold st1 in E. rewrite write_ok in E by (apply perm_entries; auto). rewrite app_nil_r in E.
  assert (W : forall e, In e (rev es) <-> entry_ok e) by (intro e; rewrite <- in_rev; now apply perm_entries).
  pose proof (init_inv (rev es) W) as I0. unfold M_PartSync.run3 in E. rewrite st1_length in E.
  destruct (run_inv sched _ _ I0) as (x' & ts' & E' & I'). rewrite E' in E.
  destruct (forallb _ _) eqn:F in E; [|discriminate]. inversion E; subst st'; clear E.
  assert (Lx : length x' = n) by apply I'.
  split. { unfold M_PartSync.mark_all. now rewrite map_length, seq_length. }
  intros q Hq. rewrite mark_nth by lia.
  assert (X : pth x' q = fillf (geo q) (pth st1 q) (arr q)).
  { apply (done_fill x' ts'); auto. eapply forallb_forall in F; eauto. apply in_seq. fold n. lia. }
  rewrite X. split.
  - rewrite alive_mark. rewrite (Permutation_filter _ _ _ (fillf_perm (geo q) (pth st1 q) (arr q) (room q Hq))).
    rewrite filter_app, alive_st1 by auto. apply Permutation_app_tail. unfold stayed.
    erewrite filter_ext; [reflexivity|]. intro r. destruct Sides as [_ SO]. specialize (SO (geo q) r). destruct (classify (geo q) r), (outside (geo q) r); auto; [exfalso|exfalso];
    [destruct SO as [SO _]; specialize (SO eq_refl)|destruct SO as [_ SO]; specialize (SO eq_refl)]; discriminate.
  - intros i s Hi D C. rewrite nth_error_map. rewrite (fillf_alive _ _ _ i s); auto; [|rewrite st1_app by auto; rewrite nth_error_app1 by (eapply nth_error_lt; eauto); auto].
    cbn [option_map]. f_equal. unfold M_PartSync.mark1. rewrite D. destruct Sides as [_ SO]. apply SO in C. now rewrite C.
Qed.
End World.
End Proofs.
