(** Conservation over all patches; the exchange between processes. *)
From Verif Require Import Base M_Layout M_PartSync S_PartSync P_Sort2D P_Output P_Pairing P_PartSync.
From Coq Require Import QArith Permutation.
Local Open Scope list_scope.
Local Open Scope nat_scope.

Lemma perm_eq {A} (l l' : list A) : l = l' -> Permutation l l'.
Proof. intros ->. reflexivity. Qed.
Lemma flat_map_bump {B} (f f' : nat -> list B) l b a : NoDup l -> In b l -> f' b = a :: f b -> (forall c, In c l -> c <> b -> f' c = f c) ->
  Permutation (flat_map f' l) (a :: flat_map f l).
Proof.
  induction l as [|c l IH]; intros ND Hb E O; [contradiction|]. apply NoDup_cons_iff in ND. destruct ND as [NI ND]. cbn [flat_map].
  destruct Hb as [->|Hb].
  - rewrite E. cbn [app]. constructor. apply Permutation_app_head. apply perm_eq, flat_map_ext_in'. intros c Hc. apply O; [right; auto|]. intros ->. auto.
  - rewrite (O c); [|left; auto|intros ->; auto]. rewrite IH; auto; [|intros; apply O; auto; right; auto]. symmetry. apply Permutation_middle.
Qed.
Lemma bucket_perm {A} (key : A -> option nat) (P : nat -> bool) m l : (forall a b, key a = Some b -> b < m) ->
  Permutation (filter (fun a => match key a with Some b => P b | None => false end) l)
              (flat_map (fun b => if P b then filter (fun a => match key a with Some b' => b' =? b | None => false end) l else []) (seq 0 m)).
Proof.
  intro K. induction l as [|a l IH].
  - cbn [filter]. induction (seq 0 m) as [|b s IHs]; auto. cbn [flat_map]. destruct (P b); exact IHs.
  - cbn [filter]. destruct (key a) as [b|] eqn:E.
    + destruct (P b) eqn:Pb.
      * rewrite IH. symmetry. apply (flat_map_bump _ _ _ b); [apply seq_NoDup|apply in_seq; specialize (K _ _ E); lia| |].
        -- rewrite Pb, Nat.eqb_refl. reflexivity.
        -- intros c Hc N. destruct (P c); auto. destruct (Nat.eqb_spec b c); congruence.
      * rewrite IH. apply perm_eq, flat_map_ext_in'. intros c Hc. destruct (P c) eqn:Pc; [|rewrite ?Pc; reflexivity]. destruct (Nat.eqb_spec b c); [congruence|rewrite ?Pc; reflexivity].
    + exact IH.
Qed.
Lemma flat_map_prod {A B C} (f : A -> B -> list C) l m : flat_map (fun a => flat_map (f a) m) l = flat_map (fun e => f (fst e) (snd e)) (list_prod l m).
Proof.
  induction l as [|a l IH]; auto. cbn [flat_map list_prod]. rewrite flat_map_app, IH. f_equal. clear IH. induction m as [|b m IHm]; auto. cbn [flat_map map]. now rewrite IHm.
Qed.
Lemma flat_map_perm {A B} (f : A -> list B) l l' : Permutation l l' -> Permutation (flat_map f l) (flat_map f l').
Proof. intro H. now apply Permutation_flat_map. Qed.
Lemma flat_map_perm_ext {A B} (f g : A -> list B) l : (forall a, In a l -> Permutation (f a) (g a)) -> Permutation (flat_map f l) (flat_map g l).
Proof. induction l as [|a l IH]; intro H; auto. cbn [flat_map]. rewrite (H a) by (left; auto). rewrite IH by (intros; apply H; right; auto). reflexivity. Qed.
Lemma nodup_app' {A} (l m : list A) : NoDup l -> NoDup m -> (forall x, In x l -> ~ In x m) -> NoDup (l ++ m).
Proof.
  induction l as [|a l IH]; intros H1 H2 D; auto. apply NoDup_cons_iff in H1. destruct H1 as [N H1]. cbn [app]. constructor.
  - intro H. apply in_app_or in H. destruct H; auto. apply (D a); auto. left; auto.
  - apply IH; auto. intros x Hx. apply D. right; auto.
Qed.
Lemma nodup_map_inj' {A B} (f : A -> B) l : NoDup l -> (forall a a', In a l -> In a' l -> f a = f a' -> a = a') -> NoDup (map f l).
Proof.
  induction l as [|a l IH]; intros N I; [constructor|]. apply NoDup_cons_iff in N. destruct N as [N1 N]. cbn [map]. constructor.
  - intro H. apply in_map_iff in H. destruct H as (a' & E & H). assert (a' = a) by (apply I; [right; auto|left; auto|auto]). subst; auto.
  - apply IH; auto. intros; apply I; auto; right; auto.
Qed.
Lemma nodup_prod {A B} (l : list A) (m : list B) : NoDup l -> NoDup m -> NoDup (list_prod l m).
Proof.
  induction l as [|a l IH]; intros H1 H2; [constructor|]. apply NoDup_cons_iff in H1. destruct H1 as [N H1]. cbn [list_prod].
  apply nodup_app'; auto.
  - apply nodup_map_inj'; auto. intros x y _ _ E. congruence.
  - intros [x y] Hx Hy. apply in_map_iff in Hx. destruct Hx as (z & E & _). inversion E; subst. apply in_prod_iff in Hy. tauto.
Qed.

Section Conserve.
Context {R Geo : Type}.
Variable nb : nat.
Variable opp : nat -> nat.
Variable classify : Geo -> R -> option nat.
Variable outside : Geo -> R -> bool.
Variable geo : nat -> Geo.
Variable nbr : nat -> nat -> option nat.
Hypothesis Sides : sides_ok nb classify outside.
Variable st : list (list (slot R)).
Let n := length st.
Hypothesis Sym : nbr_symmetric n nb opp nbr.
Local Notation on_side := (on_side classify).

Definition has_nbr (e : nat * nat) : bool := match nbr (fst e) (snd e) with Some _ => true | None => false end.
Definition mate (e : nat * nat) : nat * nat := match nbr (fst e) (snd e) with Some q => (q, opp (snd e)) | None => e end.
Definition ends : list (nat * nat) := filter has_nbr (list_prod (seq 0 n) (seq 0 nb)).
Lemma ends_in e : In e ends <-> fst e < n /\ snd e < nb /\ nbr (fst e) (snd e) <> None.
Proof.
  unfold ends. rewrite filter_In. destruct e as [p b]. rewrite in_prod_iff, !in_seq. unfold has_nbr. cbn [fst snd].
  destruct (nbr p b); intuition (try lia; try congruence).
Qed.
Lemma mate_ok e : In e ends -> In (mate e) ends /\ mate (mate e) = e.
Proof.
  rewrite !ends_in. destruct e as [p b]. unfold mate. cbn [fst snd]. intros (Hp & Hb & N). destruct (nbr p b) as [q|] eqn:E; [|congruence]. cbn [fst snd].
  destruct (Sym p b q Hp Hb E) as (Hq & Ho & Hoo & Eq). rewrite Eq, Hoo. repeat split; auto. discriminate.
Qed.
Lemma ends_perm : Permutation (map mate ends) ends.
Proof.
  apply NoDup_Permutation.
  - apply nodup_map_inj'; [apply NoDup_filter, nodup_prod; apply seq_NoDup|].
    intros a a' H H' E. apply mate_ok in H. apply mate_ok in H'. destruct H as [_ H], H' as [_ H']. congruence.
  - apply NoDup_filter, nodup_prod; apply seq_NoDup.
  - intro e. rewrite in_map_iff. split.
    + intros (e' & <- & H). apply mate_ok; auto.
    + intro H. exists (mate e). apply mate_ok in H. tauto.
Qed.
Definition from_to (p b : nat) : list R := left_by classify (geo p) b (nth p st []).
Lemma flat_map_filter_nil {A B} (f : A -> list B) (P : A -> bool) l : (forall a, P a = false -> f a = []) -> flat_map f l = flat_map f (filter P l).
Proof. intro H. induction l as [|a l IH]; auto. cbn [flat_map filter]. destruct (P a) eqn:E; cbn [flat_map]; rewrite IH; auto. rewrite (H a E). reflexivity. Qed.
Lemma leavers_perm p : Permutation (leavers classify geo nbr st p) (flat_map (fun b => match nbr p b with Some _ => from_to p b | None => [] end) (seq 0 nb)).
Proof.
  unfold leavers. rewrite (bucket_perm (classify (geo p)) (fun b => match nbr p b with Some _ => true | None => false end) nb); [|intros; eapply Sides; eauto].
  apply perm_eq, flat_map_ext_in'. intros b _. destruct (nbr p b); reflexivity.
Qed.
Theorem arrivals_leavers : Permutation (flat_map (arrivals nb opp classify geo nbr st) (seq 0 n)) (flat_map (leavers classify geo nbr st) (seq 0 n)).
Proof.
  rewrite (flat_map_perm_ext (leavers classify geo nbr st) (fun p => flat_map (fun b => match nbr p b with Some _ => from_to p b | None => [] end) (seq 0 nb))) by (intros; apply leavers_perm).
  unfold arrivals. rewrite (flat_map_prod (fun q b => match nbr q b with Some p => left_by classify (geo p) (opp b) (nth p st []) | None => [] end)).
  rewrite (flat_map_prod (fun p b => match nbr p b with Some _ => from_to p b | None => [] end)).
  rewrite (flat_map_filter_nil _ has_nbr (list_prod _ _)) by (intros [p b]; unfold has_nbr; cbn [fst snd]; destruct (nbr p b); [discriminate|auto]).
  rewrite (flat_map_filter_nil (fun e => match nbr (fst e) (snd e) with Some _ => from_to (fst e) (snd e) | None => [] end) has_nbr (list_prod _ _))
    by (intros [p b]; unfold has_nbr; cbn [fst snd]; destruct (nbr p b); [discriminate|auto]).
  fold ends.
  transitivity (flat_map (fun e => from_to (fst e) (snd e)) (map mate ends)).
  - rewrite flat_map_map. apply perm_eq, flat_map_ext_in'. intros [q b] H. apply ends_in in H. cbn [fst snd] in *. unfold mate. cbn [fst snd].
    destruct (nbr q b); [reflexivity|tauto].
  - rewrite ends_perm. apply perm_eq, flat_map_ext_in'. intros [q b] H. apply ends_in in H. cbn [fst snd] in *. destruct (nbr q b); [reflexivity|tauto].
Qed.
(** each patch: stayed, left towards a neighbour, left without neighbour *)
Definition lost (p : nat) : list R :=
  filter (fun r => match classify (geo p) r with Some b => match nbr p b with Some _ => false | None => true end | None => false end) (alive (nth p st [])).
Theorem patch_split p : Permutation (alive (nth p st [])) (stayed classify (geo p) (nth p st []) ++ leavers classify geo nbr st p ++ lost p).
Proof.
  unfold stayed, leavers, lost. induction (alive (nth p st [])) as [|r l IH]; auto. cbn [filter].
  destruct (classify (geo p) r) as [b|]; [destruct (nbr p b)|]; cbn [app].
  - rewrite IH at 1. apply Permutation_middle.
  - rewrite IH at 1. rewrite app_assoc. rewrite app_assoc. apply Permutation_middle.
  - constructor. exact IH.
Qed.
End Conserve.

Section Mpi.
Context {R Geo : Type}.
Variable nb : nat.
Variable opp : nat -> nat.
Variable classify : Geo -> R -> option nat.
Variable shift : Geo -> R -> R.
Variable outside : Geo -> R -> bool.
Variable clear : R -> R.
Variable clear_dead : bool.
Variable geo : nat -> Geo.
Variable nbr : nat -> nat -> option nat.
Variable fresh : nat -> nat -> R.
Variable remote : nat -> nat -> bool.
Hypothesis Sides : sides_ok nb classify outside.
Local Notation slot := (slot R).
Local Notation dead := (dead R).
Local Notation row := (row R).
Local Notation pth := (pth R).
Local Notation on_side := (on_side classify).
Local Notation leaves := (leaves classify).
Local Notation fillf := (fillf shift).
Local Notation mpi_outgoing := (mpi_outgoing R Geo nb classify geo remote).
Local Notation mpi_incoming := (mpi_incoming opp nbr remote).
Local Notation mpi_to_extend := (mpi_to_extend R nb opp nbr remote).
Local Notation mpi_extend_all := (mpi_extend_all R nb opp nbr fresh remote).
Local Notation packed := (packed R Geo classify geo).
Local Notation mark_sent := (mark_sent R Geo classify geo remote).
Local Notation received := (received R nb opp nbr remote).
Local Notation mpi_exchange := (mpi_exchange R Geo nb opp classify shift geo nbr fresh remote).

Lemma place_fill g l rows : length rows <= countb dead l -> place R l (map (shift g) rows) = Some (fillf g l rows).
Proof.
  revert rows; induction l as [|s l IH]; intros [|r rows] H; auto; [cbn in H; lia|]. cbn [map place P_PartSync.fillf]. rewrite countb_cons in H.
  destruct (dead s); cbn [length] in H.
  - rewrite IH by lia. reflexivity.
  - specialize (IH (r :: rows)). cbn [map] in IH. rewrite IH by (cbn [length]; lia). reflexivity.
Qed.
Lemma sequence_map {A B} (f : A -> option B) (g : A -> B) l : (forall a, In a l -> f a = Some (g a)) -> sequence (map f l) = Some (map g l).
Proof. induction l as [|a l IH]; intro H; auto. cbn [map sequence]. rewrite (H a) by (left; auto). rewrite IH by (intros; apply H; right; auto). reflexivity. Qed.

Section World.
Variable st : list (list slot).
Let n := length st.
Hypothesis Sym : nbr_symmetric n nb opp nbr.
Hypothesis Rem : remote_ok n nb opp nbr remote.
Let out := mpi_outgoing st.
Let st1 := mpi_extend_all out st.
Definition not_sent (p : nat) (r : R) : bool := match classify (geo p) r with Some b => negb (remote p b) | None => true end.
Definition marr (q : nat) : list R := arrivals nb opp classify geo (over_mpi remote nbr) st q.

Definition mtail (q : nat) : list slot := map (fun i => mkSlot R (fresh q (length (pth st q) + i)) true) (seq 0 (mpi_to_extend out q (pth st q))).
Lemma mst1_app q : q < n -> pth st1 q = pth st q ++ mtail q.
Proof. intro H. unfold M_PartSync.pth at 1, st1, M_PartSync.mpi_extend_all. rewrite nth_map_seq by auto. reflexivity. Qed.
Lemma mst1_length : length st1 = n.
Proof. unfold st1, M_PartSync.mpi_extend_all. now rewrite map_length, seq_length. Qed.
Lemma mtail_dead q s : In s (mtail q) -> dead s = true.
Proof. unfold mtail. intro H. apply in_map_iff in H. destruct H as (i & <- & _). reflexivity. Qed.
Lemma filter_mst1 q f : q < n -> (forall s, dead s = true -> f s = false) -> filter f (pth st1 q) = filter f (pth st q).
Proof.
  intros Hq F. rewrite mst1_app, filter_app by auto. replace (filter f (mtail q)) with (@nil slot); [apply app_nil_r|].
  symmetry. pose proof (mtail_dead q) as T. induction (mtail q) as [|s l IH]; auto. cbn. rewrite F by (apply T; left; auto). apply IH. intros; apply T; right; auto.
Qed.
Lemma packed_eq p b : p < n -> packed st1 p b = left_by classify (geo p) b (nth p st []).
Proof.
  intro Hp. rewrite left_by_rows. unfold M_PartSync.packed. change (nth p st []) with (pth st p).
  rewrite filter_mst1; auto. intros s ->. reflexivity.
Qed.
Lemma received_eq q : q < n -> received (packed st1) q = marr q.
Proof.
  intro Hq. unfold M_PartSync.received, marr, arrivals, over_mpi. apply flat_map_ext_in'. intros b Hb. apply in_seq in Hb. destruct (remote q b); auto.
  destruct (nbr q b) as [p|] eqn:N; auto. apply packed_eq. destruct (Sym q b p Hq ltac:(lia) N); auto.
Qed.
Lemma marr_length q : q < n -> length (marr q) = sumn (map (mpi_incoming out q) (seq 0 nb)).
Proof.
  intro Hq. unfold marr, arrivals.
  assert (E : forall l, (forall b, In b l -> b < nb) -> length (flat_map (fun b => match over_mpi remote nbr q b with Some p => left_by classify (geo p) (opp b) (nth p st []) | None => [] end) l)
            = sumn (map (mpi_incoming out q) l)).
  { induction l as [|b l IH]; intro Hl; auto. cbn [flat_map map]. rewrite app_length, sumn_cons, IH by (intros; apply Hl; right; auto). f_equal.
    unfold M_PartSync.mpi_incoming, over_mpi. assert (Hb : b < nb) by (apply Hl; left; auto). destruct (remote q b) eqn:Rb; auto.
    destruct (nbr q b) as [p|] eqn:N; auto. destruct (Sym q b p Hq Hb N) as (Hp & Ho & _).
    destruct (Rem q b Hq Hb) as [_ Rs]. specialize (Rs p N). unfold out, M_PartSync.mpi_outgoing. rewrite nth_map_seq by auto. rewrite nth_map_seq by auto.
    rewrite Rs, Rb. rewrite count_outgoing_nth by auto. rewrite left_by_rows, map_length. reflexivity. }
  apply E. intros b Hb. apply in_seq in Hb. lia.
Qed.
Lemma mroom q : q < n -> length (marr q) <= countb dead (pth st1 q).
Proof.
  intro Hq. rewrite marr_length by auto. rewrite mst1_app, countb_app by auto.
  assert (T : countb dead (mtail q) = mpi_to_extend out q (pth st q)).
  { rewrite countb_true by (intros; eapply mtail_dead; eauto). unfold mtail. now rewrite map_length, seq_length. }
  rewrite T. unfold M_PartSync.mpi_to_extend. destruct (_ <? _) eqn:E; [apply Nat.ltb_lt in E|apply Nat.ltb_ge in E]; lia.
Qed.
Definition sent1 (p : nat) (s : slot) : slot :=
  if dead s then s else match classify (geo p) (row s) with Some b => if remote p b then mkSlot R (row s) true else s | None => s end.
Lemma mark_sent_nth q : q < n -> pth (mark_sent st1) q = map (sent1 q) (pth st1 q).
Proof. intro Hq. unfold M_PartSync.mark_sent, M_PartSync.pth at 1. rewrite nth_map_seq by (rewrite mst1_length; auto). reflexivity. Qed.
Lemma sent_count p l : countb dead l <= countb dead (map (sent1 p) l).
Proof.
  induction l as [|s l IH]; auto. cbn [map]. rewrite !countb_cons. unfold sent1 at 1. destruct (dead s) eqn:D; [rewrite D; lia|].
  destruct (match classify (geo p) (row s) with Some _ => _ | None => _ end); destruct dead; lia.
Qed.
Lemma sent_alive p l : alive (map (sent1 p) l) = filter (not_sent p) (alive l).
Proof.
  unfold alive. induction l as [|s l IH]; auto. cbn [map filter]. unfold sent1 at 1 2. destruct (dead s) eqn:D; cbn [negb].
  - rewrite D. cbn [negb]. apply IH.
  - cbn [map filter]. unfold not_sent at 1. destruct (classify (geo p) (row s)) as [b|]; [destruct (remote p b)|]; cbn [M_PartSync.dead negb]; auto.
    + rewrite D. cbn [negb map]. now rewrite IH.
    + rewrite D. cbn [negb map]. now rewrite IH.
Qed.
Theorem mpi_result : exists st', mpi_exchange st = Some st' /\ length st' = n /\ forall q, q < n ->
   Permutation (alive (nth q st' [])) (filter (not_sent q) (alive (nth q st [])) ++ map (shift (geo q)) (marr q)) /\
   (forall i s, nth_error (nth q st []) i = Some s -> dead s = false -> not_sent q (row s) = true -> nth_error (nth q st' []) i = Some s).
Proof.
  assert (E : mpi_exchange st = Some (map (fun q => fillf (geo q) (map (sent1 q) (pth st1 q)) (marr q)) (seq 0 n))).
  { unfold M_PartSync.mpi_exchange. fold out. fold st1. apply sequence_map. intros q Hq. apply in_seq in Hq. fold n in Hq. rewrite mark_sent_nth by lia.
    rewrite received_eq by lia. apply place_fill. eapply Nat.le_trans; [apply mroom; lia|apply sent_count]. }
  exists (map (fun q => fillf (geo q) (map (sent1 q) (pth st1 q)) (marr q)) (seq 0 n)). split; [exact E|]. split; [now rewrite map_length, seq_length|].
  intros q Hq. rewrite nth_map_seq by auto. split.
  - etransitivity; [apply fillf_perm; eapply Nat.le_trans; [apply mroom; lia|apply sent_count]|]. rewrite sent_alive.
    apply Permutation_app_tail. unfold alive. rewrite filter_mst1 by (auto; intros s ->; reflexivity). reflexivity.
  - intros i s Hi D NS. apply fillf_alive; auto. rewrite nth_error_map. rewrite mst1_app by auto.
    assert (L : i < length (nth q st [])) by (apply nth_error_Some; congruence).
    rewrite nth_error_app1 by exact L. unfold M_PartSync.pth. rewrite Hi. cbn [option_map]. f_equal. unfold sent1. rewrite D. unfold not_sent in NS.
    destruct (classify (geo q) (row s)) as [b|]; auto. destruct (remote q b); [discriminate|auto].
Qed.

(** *** messages first, then the exchange inside each process *)
Local Notation exchange := (exchange R Geo nb opp classify shift outside clear clear_dead geo (in_process remote nbr) fresh).
Local Notation all_writes := (all_writes R Geo nb opp classify geo (in_process remote nbr)).
Local Notation extend_all := (extend_all R nb opp (in_process remote nbr) fresh).
Local Notation outgoing := (outgoing R Geo nb classify geo).
Definition arrivals_settle : Prop := forall q b p r c, q < n -> b < nb -> nbr q b = Some p ->
  In r (left_by classify (geo p) (opp b) (nth p st [])) -> classify (geo q) (shift (geo q) r) = Some c -> nbr q c = None.
Lemma local_sym : nbr_symmetric n nb opp (in_process remote nbr).
Proof.
  intros p b q Hp Hb E. unfold in_process in E. destruct (remote p b) eqn:Rb; [discriminate|]. destruct (Sym p b q Hp Hb E) as (Hq & Ho & Hoo & E'). repeat split; auto.
  unfold in_process. destruct (Rem p b Hp Hb) as [_ Rs]. rewrite (Rs q E), Rb. exact E'.
Qed.
Lemma arrivals_ext nb' st' (Hst : forall p b, b < nb -> Permutation (left_by classify (geo p) (opp b) (nth p st' [])) (left_by classify (geo p) (opp b) (nth p st [])) \/ forall q, nb' q b <> Some p) q :
  Permutation (arrivals nb opp classify geo nb' st' q) (arrivals nb opp classify geo nb' st q).
Proof.
  unfold arrivals. apply flat_map_perm_ext. intros b Hb. apply in_seq in Hb. destruct (nb' q b) as [p|] eqn:N; auto.
  destruct (Hst p b ltac:(lia)) as [H|H]; auto. exfalso. apply (H q); auto.
Qed.
Lemma flat_map_split {A B} (f g h : A -> list B) l : (forall a, In a l -> Permutation (f a) (g a ++ h a)) -> Permutation (flat_map f l) (flat_map g l ++ flat_map h l).
Proof.
  induction l as [|a l IH]; intro H; auto. cbn [flat_map]. rewrite (H a) by (left; auto). rewrite IH by (intros; apply H; right; auto).
  rewrite <- !app_assoc. apply Permutation_app_head. rewrite !app_assoc. apply Permutation_app_tail. apply Permutation_app_comm.
Qed.
Lemma arrivals_split q : Permutation (arrivals nb opp classify geo nbr st q)
  (arrivals nb opp classify geo (over_mpi remote nbr) st q ++ arrivals nb opp classify geo (in_process remote nbr) st q).
Proof.
  unfold arrivals. apply flat_map_split. intros b _. unfold over_mpi, in_process. destruct (remote q b), (nbr q b); rewrite ?app_nil_r; auto.
Qed.
Lemma filter_all {A} (f : A -> bool) l : (forall x, In x l -> f x = false) -> filter f l = [].
Proof. induction l as [|a l IH]; intro H; auto. cbn. rewrite (H a) by (left; auto). apply IH. intros; apply H; right; auto. Qed.
Theorem world_result es sched st' st'' : arrivals_settle -> mpi_exchange st = Some st' ->
  Permutation es (all_writes (extend_all (outgoing st') st')) -> exchange st' es sched = Some st'' ->
  length st'' = n /\ forall q, q < n ->
   Permutation (alive (nth q st'' [])) (stayed classify (geo q) (nth q st []) ++
                                        filter (fun r => negb (outside (geo q) r)) (map (shift (geo q)) (arrivals nb opp classify geo nbr st q))).
Proof.
  intros Settle E1 P E2. destruct mpi_result as (x & E & Lx & X). rewrite E in E1. inversion E1; subst x; clear E1.
  pose proof local_sym as LS. unfold n in LS. fold n in Lx.
  assert (LS' : nbr_symmetric (length st') nb opp (in_process remote nbr)) by (rewrite Lx; exact local_sym).
  destruct (exchange_result nb opp classify shift outside clear clear_dead geo (in_process remote nbr) fresh Sides st' LS' es sched st'' P E2) as [L2 Y].
  split; [rewrite L2; exact Lx|]. intros q Hq. rewrite Lx in Y. destruct (Y q Hq) as [Y1 _]. change (M_PartSync.pth R st'' q) with (nth q st'' []) in Y1. rewrite Y1.
  assert (NO : forall g r, match classify g r with None => true | Some _ => false end = negb (outside g r)).
  { intros g r. destruct Sides as [_ SO]. specialize (SO g r). destruct (classify g r), (outside g r); auto; [destruct SO as [SO _]|destruct SO as [_ SO]]; specialize (SO eq_refl); discriminate. }
  assert (S1 : Permutation (stayed classify (geo q) (nth q st' [])) (stayed classify (geo q) (nth q st []) ++ filter (fun r => negb (outside (geo q) r)) (map (shift (geo q)) (marr q)))).
  { unfold stayed at 1. destruct (X q Hq) as [X1 _]. rewrite (Permutation_filter _ _ _ X1). rewrite filter_app. apply Permutation_app.
    - unfold stayed. rewrite filter_filter. erewrite filter_ext; [reflexivity|]. intro r. unfold not_sent. destruct (classify (geo q) r); cbn; auto. apply andb_false_r.
    - erewrite filter_ext; [reflexivity|]. intro r. apply NO. }
  change (M_PartSync.pth R st' q) with (nth q st' []). rewrite S1. rewrite <- app_assoc. apply Permutation_app_head.
  rewrite <- filter_app, <- map_app. apply Permutation_filter, Permutation_map. rewrite arrivals_split.
  apply Permutation_app; [reflexivity|]. unfold arr, arrivals. apply flat_map_perm_ext. intros b Hb. apply in_seq in Hb.
  unfold in_process. destruct (remote q b) eqn:Rb; auto. destruct (nbr q b) as [p|] eqn:N; auto.
  destruct (Sym q b p Hq ltac:(lia) N) as (Hp & Ho & Hoo & N'). destruct (Rem q b Hq ltac:(lia)) as [_ Rs]. specialize (Rs p N). rewrite Rb in Rs.
  unfold left_by at 1. destruct (X p Hp) as [X1 _]. rewrite (Permutation_filter _ _ _ X1). rewrite filter_app.
  rewrite (filter_all (on_side (geo p) (opp b)) (map _ _)).
  - rewrite app_nil_r. unfold left_by. rewrite filter_filter. erewrite filter_ext; [reflexivity|]. intro r. unfold not_sent, S_PartSync.on_side.
    destruct (classify (geo p) r) as [c|]; auto. destruct (Nat.eqb_spec c (opp b)) as [->|]; [now rewrite Rs|apply andb_false_r].
  - intros r Hr. apply in_map_iff in Hr. destruct Hr as (r0 & <- & Hr). unfold marr, arrivals in Hr. apply in_flat_map in Hr. destruct Hr as (b2 & Hb2 & Hr).
    apply in_seq in Hb2. unfold over_mpi in Hr. destruct (remote p b2); [|contradiction]. destruct (nbr p b2) as [p2|] eqn:N2; [|contradiction].
    unfold S_PartSync.on_side. destruct (classify (geo p) (shift (geo p) r0)) as [c|] eqn:C; auto. destruct (Nat.eqb_spec c (opp b)) as [->|]; auto.
    exfalso. assert (nbr p (opp b) = None); [|congruence]. apply (Settle p b2 p2 r0 (opp b)); auto. lia.
Qed.
End World.
End Mpi.
