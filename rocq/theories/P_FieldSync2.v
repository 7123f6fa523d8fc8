(** Messages between processes and the complete exchange. *)
From Verif Require Import Base M_Layout M_PartSync S_PartSync M_FieldSync S_FieldSync P_Layout P_PartSync P_PartSync2 P_PartSync3 P_Threads P_FieldGeo P_FieldPar P_FieldSync.
Local Open Scope Z_scope.

(** ** message matching *)
Section Match.
Variables n nb nitems : nat.
Variable opp : nat -> nat.
Variable nbr : nat -> nat -> option nat.
Variable rank : nat -> nat.
Variable tag : Z -> Z -> Z -> Z.
Hypothesis Sym : nbr_symmetric n nb opp nbr.
(** different (patch, side, item) have different tags *)
Definition tags_differ : Prop := forall p b i p' b' i', (b < nb)%nat -> (b' < nb)%nat -> (i < nitems)%nat -> (i' < nitems)%nat ->
  tagn tag p b i = tagn tag p' b' i' -> p = p' /\ b = b' /\ i = i'.
Hypothesis Tg : tags_differ.
Notation aw := (away nbr rank).
Lemma away_some p b q : aw p b = Some q <-> nbr p b = Some q /\ rank p <> rank q.
Proof.
  clear. unfold away, over_mpi, remote_of. destruct (nbr p b) as [q'|]; [|split; [discriminate|intros [H _]; discriminate]].
  destruct (Nat.eqb_spec (rank p) (rank q')) as [E|E]; cbn; split; intro H.
  - discriminate.
  - destruct H as [H N]. inversion H; subst. contradiction.
  - inversion H; subst. auto.
  - apply H.
Qed.
Lemma here_some p b q : here nbr rank p b = Some q <-> nbr p b = Some q /\ rank p = rank q.
Proof.
  clear. unfold here, in_process, remote_of. destruct (nbr p b) as [q'|]; [|split; [discriminate|intros [H _]; discriminate]].
  destruct (Nat.eqb_spec (rank p) (rank q')) as [E|E]; cbn; split; intro H.
  - inversion H; subst. auto.
  - apply H.
  - discriminate.
  - destruct H as [H N]. inversion H; subst. contradiction.
Qed.
Lemma away_sym : nbr_symmetric n nb opp aw.
Proof. intros p b q Hp Hb E. apply away_some in E as [E R]. destruct (Sym p b q Hp Hb E) as (A & B & C & D). repeat split; auto. apply away_some. auto. Qed.
Lemma here_sym : nbr_symmetric n nb opp (here nbr rank).
Proof. intros p b q Hp Hb E. apply here_some in E as [E R]. destruct (Sym p b q Hp Hb E) as (A & B & C & D). repeat split; auto. apply here_some. auto. Qed.

Lemma posts_in mk x : In x (posts n nb nitems nbr rank mk) <-> exists p b q i, (p < n)%nat /\ (b < nb)%nat /\ aw p b = Some q /\ (i < nitems)%nat /\ x = mk p b q i.
Proof.
  clear. unfold posts. rewrite in_flat_map. split.
  - intros (p & Hp & H). apply in_flat_map in H as (b & Hb & H). destruct (aw p b) as [q|] eqn:E; [|contradiction]. apply in_map_iff in H as (i & <- & Hi).
    apply in_seq in Hp, Hb, Hi. exists p, b, q, i. repeat split; auto; lia.
  - intros (p & b & q & i & Hp & Hb & E & Hi & ->). exists p. split; [apply in_seq; lia|]. apply in_flat_map. exists b. split; [apply in_seq; lia|]. rewrite E.
    apply in_map_iff. exists i. split; auto. apply in_seq. lia.
Qed.
Notation snds := (sends n nb nitems nbr rank tag).
Notation rcvs := (recvs n nb nitems opp nbr rank tag).
Definition send_of (p b q i : nat) : msg := mkMsg (rank p) (rank q) (tagn tag p b i) p b i.
Definition recv_of (p b q i : nat) : msg := mkMsg (rank q) (rank p) (tagn tag q (opp b) i) p b i.
Lemma sends_in s : In s snds <-> exists p b q i, (p < n)%nat /\ (b < nb)%nat /\ aw p b = Some q /\ (i < nitems)%nat /\ s = send_of p b q i.
Proof. apply posts_in. Qed.
Lemma recvs_in s : In s rcvs <-> exists p b q i, (p < n)%nat /\ (b < nb)%nat /\ aw p b = Some q /\ (i < nitems)%nat /\ s = recv_of p b q i.
Proof. apply posts_in. Qed.
Lemma envelope_eq r s : same_envelope r s = true <-> m_from r = m_from s /\ m_to r = m_to s /\ m_tag r = m_tag s.
Proof. clear. unfold same_envelope. rewrite !andb_true_iff, !Nat.eqb_eq, Z.eqb_eq. tauto. Qed.
(** a receive of (p, b, i) and a send have the same envelope exactly when the send is that of the neighbour's opposite side *)
Lemma match_iff p b q i s : (p < n)%nat -> (b < nb)%nat -> aw p b = Some q -> (i < nitems)%nat -> In s snds ->
  same_envelope (recv_of p b q i) s = true <-> s = send_of q (opp b) p i.
Proof.
  intros Hp Hb E Hi Hs. destruct (away_sym p b q Hp Hb E) as (Hq & Hob & Hoo & B). rewrite envelope_eq. split.
  - intros (_ & _ & Et). apply sends_in in Hs as (p' & b' & q' & i' & Hp' & Hb' & E' & Hi' & ->). cbn in Et.
    apply Tg in Et as (<- & <- & <-); auto. rewrite B in E'. inversion E'; subst. reflexivity.
  - intros ->. cbn. auto.
Qed.
Lemma send_posted p b q i : (p < n)%nat -> (b < nb)%nat -> aw p b = Some q -> (i < nitems)%nat -> In (send_of q (opp b) p i) snds.
Proof. intros Hp Hb E Hi. destruct (away_sym p b q Hp Hb E) as (Hq & Hob & Hoo & B). apply sends_in. exists q, (opp b), p, i. auto. Qed.
Lemma sender_is p b q i : (p < n)%nat -> (b < nb)%nat -> aw p b = Some q -> (i < nitems)%nat -> sender_of n nb nitems nbr rank tag (recv_of p b q i) = Some (send_of q (opp b) p i).
Proof.
  intros Hp Hb E Hi. unfold sender_of. destruct (find _ snds) as [s|] eqn:F.
  - apply find_some in F as [Hs F]. apply match_iff in F; auto. now subst.
  - assert (X := find_none _ _ F _ (send_posted p b q i Hp Hb E Hi)). cbn beta in X.
    rewrite (proj2 (match_iff p b q i _ Hp Hb E Hi (send_posted p b q i Hp Hb E Hi))) in X; [discriminate|reflexivity].
Qed.
Lemma nodup_posts mk : (forall p b q i p' b' q' i', mk p b q i = mk p' b' q' i' -> p = p' /\ b = b' /\ i = i') -> NoDup (posts n nb nitems nbr rank mk).
Proof.
  intro Hk. unfold posts. apply nodup_flat; [apply seq_NoDup| |].
  - intros p _. apply nodup_flat; [apply seq_NoDup| |].
    + intros b _. destruct (aw p b) as [q|]; [|constructor]. apply nodup_inj; [apply seq_NoDup|]. intros i i' _ _ H. apply Hk in H. tauto.
    + intros b b' x _ _ H H'. destruct (aw p b) as [q|], (aw p b') as [q'|]; try contradiction. apply in_map_iff in H as (i & <- & _). apply in_map_iff in H' as (i' & H' & _). apply Hk in H'. symmetry. tauto.
  - intros p p' x _ _ H H'. apply in_flat_map in H as (b & _ & H). apply in_flat_map in H' as (b' & _ & H'). destruct (aw p b) as [q|], (aw p' b') as [q'|]; try contradiction.
    apply in_map_iff in H as (i & <- & _). apply in_map_iff in H' as (i' & H' & _). apply Hk in H'. symmetry. tauto.
Qed.
Lemma sends_NoDup : NoDup snds. Proof. apply nodup_posts. intros. inversion H; auto. Qed.
Lemma recvs_NoDup : NoDup rcvs. Proof. apply nodup_posts. intros. inversion H; auto. Qed.

(** statements for the properties *)
Lemma intended_eq r s : In r rcvs -> In s snds -> (same_envelope r s = true <-> intended opp nbr rank r s).
Proof.
  intros Hr Hs. apply recvs_in in Hr as (p & b & q & i & Hp & Hb & E & Hi & ->). rewrite match_iff by auto. unfold intended. cbn. split.
  - intros ->. cbn. auto.
  - apply sends_in in Hs as (p' & b' & q' & i' & Hp' & Hb' & E' & Hi' & ->). cbn. intros (E1 & -> & ->). rewrite E in E1. inversion E1; subst p'.
    destruct (away_sym p b q Hp Hb E) as (_ & _ & _ & B). rewrite B in E'. inversion E'; subst. reflexivity.
Qed.
Theorem every_receive : forall r, In r rcvs -> exists s, In s snds /\ intended opp nbr rank r s /\ filter (same_envelope r) snds = [s].
Proof.
  intros r Hr. pose proof Hr as Hr'. apply recvs_in in Hr as (p & b & q & i & Hp & Hb & E & Hi & ->). exists (send_of q (opp b) p i).
  pose proof (send_posted p b q i Hp Hb E Hi) as Hs. split; auto. split; [cbn; unfold intended; cbn; auto|].
  assert (U : forall s, In s snds -> same_envelope (recv_of p b q i) s = true <-> s = send_of q (opp b) p i) by (intros; now apply match_iff).
  pose proof sends_NoDup as Hn. clear - Hs U Hn. induction snds as [|x l IH]; [contradiction|]. apply NoDup_cons_iff in Hn as [Hn1 Hn2]. cbn [filter].
  destruct (same_envelope (recv_of p b q i) x) eqn:Ex.
  - apply U in Ex; [|now left]. subst x. f_equal. apply filter_all. intros y Hy. destruct (same_envelope _ y) eqn:Ey; auto. apply U in Ey; [|now right]. subst. contradiction.
  - destruct Hs as [->|Hs]; [rewrite (proj2 (U _ (or_introl eq_refl))) in Ex; [discriminate|auto]|]. apply IH; auto. intros; apply U; now right.
Qed.
Theorem every_send : forall s, In s snds -> exists r, In r rcvs /\ intended opp nbr rank r s /\ filter (fun r => same_envelope r s) rcvs = [r].
Proof.
  intros s Hs. pose proof Hs as Hs'. apply sends_in in Hs as (p & b & q & i & Hp & Hb & E & Hi & ->). destruct (away_sym p b q Hp Hb E) as (Hq & Hob & Hoo & B).
  set (r := recv_of q (opp b) p i).
  assert (Hr : In r rcvs) by (apply recvs_in; exists q, (opp b), p, i; auto).
  assert (It : intended opp nbr rank r (send_of p b q i)) by (unfold intended, r; cbn; rewrite Hoo; auto).
  exists r. split; auto. split; auto.
  assert (U : forall r', In r' rcvs -> same_envelope r' (send_of p b q i) = true -> r' = r).
  { intros r' Hr' F. apply intended_eq in F; auto. apply recvs_in in Hr' as (p' & b' & q' & i' & Hp' & Hb' & E' & Hi' & ->). unfold intended in F. cbn in F. destruct F as (F1 & F2 & F3).
    rewrite E' in F1. inversion F1; subst q'. destruct (away_sym p' b' p Hp' Hb' E') as (_ & _ & F4 & F5). unfold r. rewrite <- F2 in F5. rewrite E in F5. inversion F5; subst.
    rewrite F4. reflexivity. }
  pose proof recvs_NoDup as Hn. assert (Er : same_envelope r (send_of p b q i) = true) by (apply intended_eq; auto). clear - Hr U Hn Er.
  induction rcvs as [|x l IH]; [contradiction|]. apply NoDup_cons_iff in Hn as [Hn1 Hn2]. cbn [filter].
  destruct (same_envelope x (send_of p b q i)) eqn:Ex.
  - apply U in Ex; [|now left]. subst x. f_equal. apply filter_all. intros y Hy. destruct (same_envelope y _) eqn:Ey; auto. apply U in Ey; [|now right]. subst. contradiction.
  - destruct Hr as [->|Hr]; [congruence|]. apply IH; auto. intros; apply U; auto; now right.
Qed.
End Match.
Lemma tags_currents n0 : tags_differ n0 1 (tag_currents (Z.of_nat n0)).
Proof. intros p b i p' b' i' Hb Hb' Hi Hi' E. unfold tagn, tag_currents in E. assert (p = p') by nia. subst. repeat split; lia. Qed.
Lemma tags_guard n0 k : tags_differ n0 k (tag_guard (Z.of_nat n0) (Z.of_nat k)).
Proof.
  intros p b i p' b' i' Hb Hb' Hi Hi' E. unfold tagn, tag_guard in E.
  assert (E1 : Z.of_nat i + (Z.of_nat p * Z.of_nat n0 + Z.of_nat b) * Z.of_nat k = Z.of_nat i' + (Z.of_nat p' * Z.of_nat n0 + Z.of_nat b') * Z.of_nat k) by lia.
  apply pair_inj in E1; [|lia|lia]. destruct E1 as [E1 E2]. assert (E3 : Z.of_nat b + Z.of_nat p * Z.of_nat n0 = Z.of_nat b' + Z.of_nat p' * Z.of_nat n0) by lia.
  apply pair_inj in E3; [|lia|lia]. lia.
Qed.
Lemma tags_particles n0 k : tags_differ n0 k (tag_particles (Z.of_nat n0) (Z.of_nat k)).
Proof.
  intros p b i p' b' i' Hb Hb' Hi Hi' E. unfold tagn, tag_particles in E.
  assert (E1 : Z.of_nat i + (Z.of_nat p * Z.of_nat n0 + Z.of_nat b) * Z.of_nat k = Z.of_nat i' + (Z.of_nat p' * Z.of_nat n0 + Z.of_nat b') * Z.of_nat k) by lia.
  apply pair_inj in E1; [|lia|lia]. destruct E1 as [E1 E2]. assert (E3 : Z.of_nat b + Z.of_nat p * Z.of_nat n0 = Z.of_nat b' + Z.of_nat p' * Z.of_nat n0) by lia.
  apply pair_inj in E3; [|lia|lia]. lia.
Qed.
