(** The three-dimensional loops add closed-form increments. *)
From Coq Require Import QArith Qround Qabs Lqa Setoid Morphisms.
From Verif Require Import Base M_Deposit S_Deposit P_Deposit P_Deposit2 P_Deposit3.
Local Open Scope nat_scope.
Local Open Scope Q_scope.

Section Loops3.
  Variables S1x S1y S1z : list Q.
  Variable cd : Q.
  Variable W : nat -> nat -> nat -> Q * Q * Q.
  Variable w : nat -> nat -> nat -> Q.
  Local Notation wx i j k := (fst (fst (W i j k))).
  Local Notation wy i j k := (snd (fst (W i j k))).
  Local Notation wz i j k := (snd (W i j k)).
  Local Notation line := (line3 S1x S1y S1z cd W).
  Local Notation plane := (plane3 S1x S1y S1z cd W).
  Local Notation cells := (cells3 S1x S1y S1z cd W).

  Lemma line3_cons i j k ks bx by_ bz :
    line i j (k :: ks) bx by_ bz =
    let bx' := fset k (fset j (bx k j - wx i j k) (bx k)) bx in
    let by' := fset k (by_ k - wy i j k) by_ in
    let r := line i j ks bx' by' (bz - wz i j k) in
    (fst r, {| e_i := i; e_j := j; e_k := k; e_jx := bx k j - wx i j k;
                     e_jy := by_ k - wy i j k; e_jz := bz - wz i j k;
                     e_rho := cd * at5 S1x i * at5 S1y j * at5 S1z k |} :: snd r).
  Proof using.
    cbn [line3]. destruct (W i j k) as [[x y] z]. cbn [fst snd].
    rewrite !fset_eq. destruct (line3 _ _ _ _ _ _ _ _ _ _ _) as [[bx' by'] es]. reflexivity.
  Qed.

  Definition inb (k : nat) (ks : list nat) : bool := existsb (Nat.eqb k) ks.
  Lemma inb_cons k a ks : inb k (a :: ks) = (k =? a)%nat || inb k ks.
  Proof using. reflexivity. Qed.
  Lemma inb_false k ks : ~ In k ks -> inb k ks = false.
  Proof using.
    clear. intro N. unfold inb. destruct (existsb (Nat.eqb k) ks) eqn:E; [|reflexivity].
    exfalso. apply existsb_exists in E. destruct E as (y & I & E). apply Nat.eqb_eq in E. now subst y.
  Qed.

  Lemma line3_bx i j ks bx by_ bz : NoDup ks -> forall k' j',
    fst (fst (line i j ks bx by_ bz)) k' j'
    == bx k' j' - (if (j' =? j)%nat && inb k' ks then wx i j k' else 0).
  Proof using.
    revert bx by_ bz. induction ks as [|k ks IH]; intros bx by_ bz ND k' j'.
    - cbn. destruct (j' =? j)%nat; cbn [andb]; ring.
    - inversion ND as [|? ? N1 N2]; subst. rewrite line3_cons. cbv zeta. cbn [fst].
      rewrite IH by exact N2. rewrite inb_cons.
      destruct (Nat.eqb_spec k' k) as [->|N]; cbn [orb].
      + rewrite fset_eq, (inb_false k ks N1), andb_false_r, andb_true_r.
        destruct (Nat.eqb_spec j' j) as [->|Nj]; [rewrite fset_eq|rewrite fset_neq by exact Nj]; ring.
      + rewrite fset_neq by exact N. reflexivity.
  Qed.

  Lemma line3_by i j ks bx by_ bz : NoDup ks -> forall k',
    snd (fst (line i j ks bx by_ bz)) k'
    == by_ k' - (if inb k' ks then wy i j k' else 0).
  Proof using.
    revert bx by_ bz. induction ks as [|k ks IH]; intros bx by_ bz ND k'.
    - cbn. ring.
    - inversion ND as [|? ? N1 N2]; subst. rewrite line3_cons. cbv zeta. cbn [fst snd].
      rewrite IH by exact N2. rewrite inb_cons.
      destruct (Nat.eqb_spec k' k) as [->|N]; cbn [orb].
      + rewrite fset_eq, (inb_false k ks N1). ring.
      + rewrite fset_neq by exact N. reflexivity.
  Qed.

  Lemma line3_rho i j ks bx by_ bz :
    wsum w e_rho (snd (line i j ks bx by_ bz))
    == qsum (fun k => w i j k * (cd * at5 S1x i * at5 S1y j * at5 S1z k)) ks.
  Proof using.
    revert bx by_ bz. induction ks as [|k ks IH]; intros bx by_ bz; [reflexivity|].
    rewrite line3_cons. cbv zeta. cbn [snd]. rewrite wsum_cons, qsum_cons.
    cbn [e_i e_j e_k e_rho]. rewrite IH. reflexivity.
  Qed.

  Lemma line3_jx i j s n bx by_ bz :
    wsum w e_jx (snd (line i j (seq s n) bx by_ bz))
    == qsum (fun k => w i j k * (bx k j - wx i j k)) (seq s n).
  Proof using.
    revert s bx by_ bz. induction n as [|n IH]; intros s bx by_ bz; [reflexivity|].
    cbn [seq]. rewrite line3_cons. cbv zeta. cbn [snd]. rewrite wsum_cons, qsum_cons.
    cbn [e_i e_j e_k e_jx]. rewrite IH. apply Qplus_comp; [reflexivity|].
    apply qsum_ext. intros k I. apply in_seq in I. rewrite fset_neq by lia. reflexivity.
  Qed.

  Lemma line3_jy i j s n bx by_ bz :
    wsum w e_jy (snd (line i j (seq s n) bx by_ bz))
    == qsum (fun k => w i j k * (by_ k - wy i j k)) (seq s n).
  Proof using.
    revert s bx by_ bz. induction n as [|n IH]; intros s bx by_ bz; [reflexivity|].
    cbn [seq]. rewrite line3_cons. cbv zeta. cbn [snd]. rewrite wsum_cons, qsum_cons.
    cbn [e_i e_j e_k e_jy]. rewrite IH. apply Qplus_comp; [reflexivity|].
    apply qsum_ext. intros k I. apply in_seq in I. rewrite fset_neq by lia. reflexivity.
  Qed.

  Lemma line3_jz i j s n bx by_ bz :
    wsum w e_jz (snd (line i j (seq s n) bx by_ bz))
    == qsum (fun k => w i j k * (bz - psum (fun k' => wz i j k') s k)) (seq s n).
  Proof using.
    revert s bx by_ bz. induction n as [|n IH]; intros s bx by_ bz; [reflexivity|].
    cbn [seq]. rewrite line3_cons. cbv zeta. cbn [snd]. rewrite wsum_cons, qsum_cons.
    cbn [e_i e_j e_k e_jz]. rewrite IH. rewrite psum_first.
    apply Qplus_comp; [reflexivity|]. apply qsum_ext. intros k I. apply in_seq in I.
    rewrite (psum_step _ s) by lia. ring.
  Qed.

  Lemma plane3_cons i j js ks bx by_ :
    plane i (j :: js) ks bx by_ =
    let r := line i j ks bx by_ 0 in
    let r' := plane i js ks (fst (fst r)) (snd (fst r)) in
    (fst r', snd r ++ snd r').
  Proof using.
    cbn [plane3]. destruct (line3 _ _ _ _ _ _ _ _ _ _ _) as [[bx' by'] es]. cbn [fst snd].
    destruct (plane3 _ _ _ _ _ _ _ _ _ _) as [bx'' es']. reflexivity.
  Qed.

  Lemma plane3_bx i js ks bx by_ : NoDup js -> NoDup ks -> forall k' j',
    fst (plane i js ks bx by_) k' j'
    == bx k' j' - (if inb j' js && inb k' ks then wx i j' k' else 0).
  Proof using.
    intros NJ NK. revert bx by_. induction js as [|j js IH]; intros bx by_ k' j'.
    - cbn. ring.
    - inversion NJ as [|? ? N1 N2]; subst. rewrite plane3_cons. cbv zeta. cbn [fst].
      rewrite IH by exact N2. rewrite line3_bx by exact NK. rewrite inb_cons.
      destruct (Nat.eqb_spec j' j) as [->|N]; cbn [orb andb].
      + rewrite (inb_false j js N1). cbn [andb]. ring.
      + ring.
  Qed.

  Lemma plane3_rho i js ks bx by_ :
    wsum w e_rho (snd (plane i js ks bx by_))
    == qsum (fun j => qsum (fun k => w i j k * (cd * at5 S1x i * at5 S1y j * at5 S1z k)) ks) js.
  Proof using.
    revert bx by_. induction js as [|j js IH]; intros bx by_; [reflexivity|].
    rewrite plane3_cons. cbv zeta. cbn [snd]. rewrite wsum_app, qsum_cons, line3_rho, IH. reflexivity.
  Qed.

  Lemma plane3_jx i sj nj s n bx by_ :
    wsum w e_jx (snd (plane i (seq sj nj) (seq s n) bx by_))
    == qsum (fun j => qsum (fun k => w i j k * (bx k j - wx i j k)) (seq s n)) (seq sj nj).
  Proof using.
    revert sj bx by_. induction nj as [|nj IH]; intros sj bx by_; [reflexivity|].
    cbn [seq]. rewrite plane3_cons. cbv zeta. cbn [snd]. rewrite wsum_app, qsum_cons, line3_jx, IH.
    apply Qplus_comp; [reflexivity|]. apply qsum_ext. intros j J. apply in_seq in J.
    apply qsum_ext. intros k _. rewrite line3_bx by apply seq_NoDup.
    rewrite (proj2 (Nat.eqb_neq j sj)) by lia. cbn [andb]. ring.
  Qed.

  Lemma inb_seq k s n : (s <= k < s + n)%nat -> inb k (seq s n) = true.
  Proof using. apply existsb_seq. Qed.

  Lemma plane3_jy i sj nj s n bx by_ :
    wsum w e_jy (snd (plane i (seq sj nj) (seq s n) bx by_))
    == qsum (fun j => qsum (fun k => w i j k * (by_ k - psum (fun j' => wy i j' k) sj j)) (seq s n)) (seq sj nj).
  Proof using.
    revert sj bx by_. induction nj as [|nj IH]; intros sj bx by_; [reflexivity|].
    cbn [seq]. rewrite plane3_cons. cbv zeta. cbn [snd]. rewrite wsum_app, qsum_cons, line3_jy, IH.
    apply Qplus_comp.
    - apply qsum_ext. intros k _. rewrite psum_first. reflexivity.
    - apply qsum_ext. intros j J. apply in_seq in J. apply qsum_ext. intros k K. apply in_seq in K.
      rewrite line3_by by apply seq_NoDup. rewrite inb_seq by lia.
      rewrite (psum_step _ sj) by lia. ring.
  Qed.

  Lemma plane3_jz i js s n bx by_ :
    wsum w e_jz (snd (plane i js (seq s n) bx by_))
    == qsum (fun j => qsum (fun k => w i j k * (- psum (fun k' => wz i j k') s k)) (seq s n)) js.
  Proof using.
    revert bx by_. induction js as [|j js IH]; intros bx by_; [reflexivity|].
    rewrite plane3_cons. cbv zeta. cbn [snd]. rewrite wsum_app, qsum_cons, line3_jz, IH.
    apply Qplus_comp; [|reflexivity]. apply qsum_ext. intros k _. ring.
  Qed.

  Lemma cells3_cons i is_ js ks bx :
    cells (i :: is_) js ks bx =
    let r := plane i js ks bx (fun _ => 0) in snd r ++ cells is_ js ks (fst r).
  Proof using.
    cbn [cells3]. destruct (plane3 _ _ _ _ _ _ _ _ _ _) as [bx' es]. reflexivity.
  Qed.

  Lemma cells3_rho is_ js ks bx :
    wsum w e_rho (cells is_ js ks bx)
    == qsum (fun i => qsum (fun j => qsum (fun k =>
         w i j k * (cd * at5 S1x i * at5 S1y j * at5 S1z k)) ks) js) is_.
  Proof using.
    revert bx. induction is_ as [|i is_ IH]; intros bx; [reflexivity|].
    rewrite cells3_cons. cbv zeta. rewrite wsum_app, qsum_cons, plane3_rho, IH. reflexivity.
  Qed.

  Lemma cells3_jx si ni sj nj s n bx :
    wsum w e_jx (cells (seq si ni) (seq sj nj) (seq s n) bx)
    == qsum (fun i => qsum (fun j => qsum (fun k =>
         w i j k * (bx k j - psum (fun i' => wx i' j k) si i)) (seq s n)) (seq sj nj)) (seq si ni).
  Proof using.
    revert si bx. induction ni as [|ni IH]; intros si bx; [reflexivity|].
    cbn [seq]. rewrite cells3_cons. cbv zeta. rewrite wsum_app, qsum_cons, plane3_jx, IH.
    apply Qplus_comp.
    - apply qsum_ext. intros j _. apply qsum_ext. intros k _. rewrite psum_first. reflexivity.
    - apply qsum_ext. intros i I. apply in_seq in I. apply qsum_ext. intros j J. apply in_seq in J.
      apply qsum_ext. intros k K. apply in_seq in K.
      rewrite plane3_bx by apply seq_NoDup. rewrite !inb_seq by lia. cbn [andb].
      rewrite (psum_step _ si) by lia. ring.
  Qed.

  Lemma cells3_jy is_ sj nj s n bx :
    wsum w e_jy (cells is_ (seq sj nj) (seq s n) bx)
    == qsum (fun i => qsum (fun j => qsum (fun k =>
         w i j k * (- psum (fun j' => wy i j' k) sj j)) (seq s n)) (seq sj nj)) is_.
  Proof using.
    revert bx. induction is_ as [|i is_ IH]; intros bx; [reflexivity|].
    rewrite cells3_cons. cbv zeta. rewrite wsum_app, qsum_cons, plane3_jy, IH.
    apply Qplus_comp; [|reflexivity]. apply qsum_ext. intros j _. apply qsum_ext. intros k _. ring.
  Qed.

  Lemma cells3_jz is_ js s n bx :
    wsum w e_jz (cells is_ js (seq s n) bx)
    == qsum (fun i => qsum (fun j => qsum (fun k =>
         w i j k * (- psum (fun k' => wz i j k') s k)) (seq s n)) js) is_.
  Proof using.
    revert bx. induction is_ as [|i is_ IH]; intros bx; [reflexivity|].
    rewrite cells3_cons. cbv zeta. rewrite wsum_app, qsum_cons, plane3_jz, IH. reflexivity.
  Qed.

  (** Positions of the increments. *)
  Lemma line3_pos i j ks bx by_ bz e :
    In e (snd (line i j ks bx by_ bz)) -> e_i e = i /\ e_j e = j /\ In (e_k e) ks.
  Proof using.
    clear w.
    revert bx by_ bz. induction ks as [|k ks IH]; intros bx by_ bz; [contradiction|].
    rewrite line3_cons. cbv zeta. cbn [snd]. intros [<-|I].
    - cbn. auto.
    - apply IH in I. cbn [In]. tauto.
  Qed.
  Lemma plane3_pos i js ks bx by_ e :
    In e (snd (plane i js ks bx by_)) -> e_i e = i /\ In (e_j e) js /\ In (e_k e) ks.
  Proof using.
    clear w.
    revert bx by_. induction js as [|j js IH]; intros bx by_; [contradiction|].
    rewrite plane3_cons. cbv zeta. cbn [snd]. intro I. apply in_app_iff in I. destruct I as [I|I].
    - apply line3_pos in I. destruct I as (H1 & H2 & H3). rewrite H2. cbn [In]. tauto.
    - apply IH in I. cbn [In]. tauto.
  Qed.
  Lemma cells3_pos is_ js ks bx e :
    In e (cells is_ js ks bx) -> In (e_i e) is_ /\ In (e_j e) js /\ In (e_k e) ks.
  Proof using.
    clear w.
    revert bx. induction is_ as [|i is_ IH]; intros bx; [contradiction|].
    rewrite cells3_cons. cbv zeta. intro I. apply in_app_iff in I. destruct I as [I|I].
    - apply plane3_pos in I. destruct I as (H1 & H2 & H3). rewrite H1. cbn [In]. tauto.
    - apply IH in I. cbn [In]. tauto.
  Qed.
End Loops3.
