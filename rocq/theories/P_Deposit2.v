(** The loops of the kernels add closed-form increments. *)
From Coq Require Import QArith Qround Qabs Lqa Setoid Morphisms.
From Verif Require Import Base M_Deposit S_Deposit P_Deposit.
Local Open Scope nat_scope.
Local Open Scope Q_scope.

(** ** Periodic share and window *)

Lemma zfrom_S lo n : zfrom lo (Datatypes.S n) = lo :: zfrom (lo + 1) n.
Proof.
  unfold zfrom. cbn [seq map]. f_equal; [lia|]. rewrite <- seq_shift, map_map.
  apply map_ext. intro k. lia.
Qed.
Lemma zfrom_snoc lo n : zfrom lo (Datatypes.S n) = zfrom lo n ++ [(lo + Z.of_nat n)%Z].
Proof. unfold zfrom. rewrite seq_snoc, map_app. reflexivity. Qed.

Section Stretch.
  Variable f : Z -> Q.
  Definition zero_out (lo : Z) (len : nat) : Prop :=
    forall i, (i < lo \/ lo + Z.of_nat len <= i)%Z -> f i == 0.

  Lemma ext_right lo len m : zero_out lo len ->
    qsum f (zfrom lo (len + m)) == qsum f (zfrom lo len).
  Proof using.
    intros Z0. induction m as [|m IH]; [now rewrite Nat.add_0_r|].
    rewrite Nat.add_succ_r, zfrom_snoc, qsum_app, IH. rewrite qsum_cons.
    change (qsum f []) with 0.
    assert (f (lo + Z.of_nat (len + m))%Z == 0) as E by (apply Z0; right; lia).
    rewrite E. ring.
  Qed.

  Lemma ext_left lo len m : zero_out lo len ->
    qsum f (zfrom (lo - Z.of_nat m) (len + m)) == qsum f (zfrom lo len).
  Proof using.
    intros Z0. induction m as [|m IH].
    - rewrite Nat.add_0_r. replace (lo - Z.of_nat 0)%Z with lo by lia. reflexivity.
    - rewrite Nat.add_succ_r, zfrom_S, qsum_cons.
      replace (lo - Z.of_nat (Datatypes.S m) + 1)%Z with (lo - Z.of_nat m)%Z by lia.
      assert (f (lo - Z.of_nat (Datatypes.S m))%Z == 0) as E by (apply Z0; left; lia).
      rewrite IH, E. ring.
  Qed.

  Lemma stretch_eq lo len lo' len' : zero_out lo len -> zero_out lo' len' ->
    qsum f (zfrom lo len) == qsum f (zfrom lo' len').
  Proof using.
    intros Z1 Z2.
    assert (forall lo len lo' len', zero_out lo len -> zero_out lo' len' -> (lo <= lo')%Z ->
              qsum f (zfrom lo len) == qsum f (zfrom lo' len')) as G.
    { clear. intros lo len lo' len' Z1 Z2 L.
      set (m := Z.to_nat (lo' - lo)).
      rewrite <- (ext_left lo' len' m Z2).
      replace (lo' - Z.of_nat m)%Z with lo by lia.
      assert (zero_out lo (len' + m)) as Z2'.
      { intros i H. apply Z2. lia. }
      destruct (Nat.le_ge_cases len (len' + m)) as [C|C].
      - replace (len' + m)%nat with (len + (len' + m - len))%nat by lia.
        symmetry. now apply ext_right.
      - replace len with (len' + m + (len - (len' + m)))%nat at 1 by lia.
        now apply ext_right. }
    destruct (Z.le_ge_cases lo lo') as [C|C]; [now apply G|symmetry; now apply G].
  Qed.
End Stretch.

Lemma share_fold (n a : Z) (S : nat -> Q) i0 X lo len :
  window_of S i0 X -> inject_Z i0 - (3#2) <= X -> X < inject_Z i0 + (3#2) ->
  covers lo len X ->
  foldp i0 n a S == share n a X lo len.
Proof.
  intros W L U [C1 C2]. unfold share.
  rewrite (stretch_eq _ lo len (i0 - 2) 5).
  - unfold foldp, sum5, zfrom. rewrite qsum_map. apply qsum_ext. intros k I. apply in_seq in I.
    unfold wrap_index.
    replace (i0 - 2 + Z.of_nat k)%Z with (i0 + (Z.of_nat k - 2))%Z by lia.
    destruct (_ =? a)%Z; [|reflexivity]. apply W. lia.
  - intros i H. destruct (i mod n =? a)%Z; [|reflexivity]. apply spline_out.
    destruct H as [H|H].
    + left. assert (i <= lo - 1)%Z as H' by lia. rewrite Zle_Qle in H'.
      unfold Z.sub in H'. rewrite inject_Z_plus in H'. unfold inject_Z in *. cbn [Z.opp] in H'. lra.
    + right. rewrite Zle_Qle in H. lra.
  - intros i H. destruct (i mod n =? a)%Z; [|reflexivity]. apply spline_out.
    destruct H as [H|H].
    + left. assert (i <= i0 + - 3)%Z as H' by lia. rewrite Zle_Qle in H'.
      rewrite inject_Z_plus in H'. unfold inject_Z in *. lra.
    + right. assert (i0 + 3 <= i)%Z as H' by lia. rewrite Zle_Qle in H'.
      rewrite inject_Z_plus in H'. unfold inject_Z in *. lra.
Qed.

(** ** Sum of a folded quantity over the whole axis *)

Lemma indicator_sum (n : nat) (x : Z) (v : Q) : (0 <= x < Z.of_nat n)%Z ->
  qsum (fun a => if (x =? a)%Z then v else 0) (zfrom 0 n) == v.
Proof.
  intro H. induction n as [|n IH]; [lia|].
  rewrite zfrom_snoc, qsum_app, qsum_cons. change (qsum _ []) with 0.
  destruct (Z.eqb_spec x (0 + Z.of_nat n)) as [E|N].
  - rewrite (qsum_zero _ (zfrom 0 n)); [ring|].
    intros a I. unfold zfrom in I. apply in_map_iff in I. destruct I as (k & <- & I).
    apply in_seq in I. rewrite (proj2 (Z.eqb_neq _ _)) by lia. reflexivity.
  - rewrite IH by lia. ring.
Qed.

Lemma foldp_total i0 n f : (0 < n)%Z ->
  qsum (fun a => foldp i0 n a f) (zfrom 0 (Z.to_nat n)) == sum5 f.
Proof.
  intros Hn. unfold foldp, sum5. rewrite qsum_swap. apply qsum_ext. intros k _.
  apply indicator_sum. unfold wrap_index. lia.
Qed.

(** ** Increments and arrays *)

Definition hit (idx : ev -> Z) (z : Z) (pr : ev -> Q) (es : list ev) : Q :=
  qsum (fun e => if (idx e =? z)%Z then pr e else 0) es.

Lemma fadd_hit k v f z : fadd k v f z == f z + (if (k =? z)%Z then v else 0).
Proof.
  unfold fadd. rewrite (Z.eqb_sym k z). destruct (z =? k)%Z; ring.
Qed.

Lemma add_evs idx es A z :
  a_jx (fold_left (add_ev idx) es A) z == a_jx A z + hit idx z e_jx es /\
  a_jy (fold_left (add_ev idx) es A) z == a_jy A z + hit idx z e_jy es /\
  a_jz (fold_left (add_ev idx) es A) z == a_jz A z + hit idx z e_jz es /\
  a_rho (fold_left (add_ev idx) es A) z == a_rho A z + hit idx z e_rho es.
Proof.
  revert A. induction es as [|e es IH]; intro A.
  - cbn [fold_left]. unfold hit. cbn. repeat split; ring.
  - cbn [fold_left]. destruct (IH (add_ev idx A e)) as (H1 & H2 & H3 & H4).
    rewrite H1, H2, H3, H4. unfold hit. rewrite !qsum_cons. unfold add_ev.
    cbn [a_jx a_jy a_jz a_rho]. rewrite !fadd_hit. repeat split; ring.
Qed.

(** Weighted sum of increments, the weight depending on the window position only. *)
Definition wsum (w : nat -> nat -> nat -> Q) (pr : ev -> Q) (es : list ev) : Q :=
  qsum (fun e => w (e_i e) (e_j e) (e_k e) * pr e) es.

Lemma wsum_app w pr es es' : wsum w pr (es ++ es') == wsum w pr es + wsum w pr es'.
Proof. apply qsum_app. Qed.
Lemma wsum_cons w pr e es :
  wsum w pr (e :: es) = w (e_i e) (e_j e) (e_k e) * pr e + wsum w pr es.
Proof. reflexivity. Qed.

Lemma hit_wsum idx z pr es w :
  (forall e, w (e_i e) (e_j e) (e_k e) = (if (idx e =? z)%Z then 1 else 0)) ->
  hit idx z pr es == wsum w pr es.
Proof.
  intros H. apply qsum_ext. intros e _. rewrite H. destruct (idx e =? z)%Z; ring.
Qed.

Lemma fset_eq {A} k (v : A) f : fset k v f k = v.
Proof. unfold fset. now rewrite Nat.eqb_refl. Qed.
Lemma fset_neq {A} k j (v : A) f : j <> k -> fset k v f j = f j.
Proof. intro N. unfold fset. now rewrite (proj2 (Nat.eqb_neq j k)). Qed.

Lemma psum_first f s : psum f s s == f s.
Proof.
  unfold psum. replace (Datatypes.S s - s)%nat with 1%nat by lia. cbn. ring.
Qed.
Lemma psum_step f s i : (s < i)%nat -> psum f s i == f s + psum f (Datatypes.S s) i.
Proof.
  intro H. unfold psum. replace (Datatypes.S i - s)%nat with (Datatypes.S (Datatypes.S i - Datatypes.S s)) by lia.
  cbn [seq]. rewrite qsum_cons. reflexivity.
Qed.

Lemma qsum_seq_cons f s n : qsum f (seq s (Datatypes.S n)) = f s + qsum f (seq (Datatypes.S s) n).
Proof. reflexivity. Qed.

Section Rows2.
  Variables S0x S0y S1x S1y DSx DSy : list Q.
  Variables cd fdx fdy fz : Q.
  Variable w : nat -> nat -> nat -> Q.
  Local Notation a i := (at5 S0x i + (1#2) * at5 DSx i).
  Local Notation b j := (at5 S0y j + (1#2) * at5 DSy j).
  Local Notation row := (row2 S0x S0y S1x S1y DSx DSy cd fdx fdy fz).

  Lemma row2_buff i js bx by_ j :
    NoDup js ->
    fst (row i js bx by_) j == bx j - (if existsb (Nat.eqb j) js then fdx * at5 DSx i * b j else 0).
  Proof using.
    revert bx by_. induction js as [|j0 js IH]; intros bx by_ ND; [cbn; ring|].
    inversion ND as [|? ? N1 N2]; subst. cbn [row2 fst existsb].
    rewrite IH by exact N2.
    destruct (Nat.eqb_spec j j0) as [->|N].
    - rewrite fset_eq. cbn [orb].
      assert (existsb (Nat.eqb j0) js = false) as ->.
      { destruct (existsb (Nat.eqb j0) js) eqn:E; [|reflexivity]. exfalso.
        apply existsb_exists in E. destruct E as (y & I & E). apply Nat.eqb_eq in E. subst y. auto. }
      ring.
    - rewrite fset_neq by exact N. cbn [orb]. reflexivity.
  Qed.

  Lemma row2_rho i js bx by_ :
    wsum w e_rho (snd (row i js bx by_))
    == qsum (fun j => w i j 0%nat * (cd * at5 S1x i * at5 S1y j)) js.
  Proof using.
    revert bx by_. induction js as [|j js IH]; intros bx by_; [reflexivity|].
    cbn [row2 snd]. rewrite wsum_cons, qsum_cons. cbn [e_i e_j e_k e_rho].
    setoid_rewrite IH. reflexivity.
  Qed.

  Lemma row2_jz i js bx by_ :
    wsum w e_jz (snd (row i js bx by_))
    == qsum (fun j => w i j 0%nat * (fz * (a i * b j + (1#12) * at5 DSx i * at5 DSy j))) js.
  Proof using.
    revert bx by_. induction js as [|j js IH]; intros bx by_; [reflexivity|].
    cbn [row2 snd]. rewrite wsum_cons, qsum_cons. cbn [e_i e_j e_k e_jz].
    setoid_rewrite IH. reflexivity.
  Qed.

  Lemma row2_jx i s n bx by_ :
    wsum w e_jx (snd (row i (seq s n) bx by_))
    == qsum (fun j => w i j 0%nat * (bx j - fdx * at5 DSx i * b j)) (seq s n).
  Proof using.
    revert s bx by_. induction n as [|n IH]; intros s bx by_; [reflexivity|].
    cbn [seq row2 snd]. rewrite wsum_cons, qsum_cons. cbn [e_i e_j e_k e_jx].
    rewrite IH. rewrite fset_eq.
    rewrite (qsum_ext _ (fun j => w i j 0%nat *
        (bx j - fdx * at5 DSx i * (at5 S0y j + (1#2) * at5 DSy j))) (seq (Datatypes.S s) n)).
    - reflexivity.
    - intros j I. apply in_seq in I. rewrite fset_neq by lia. reflexivity.
  Qed.

  Lemma row2_jy i s n bx by_ :
    wsum w e_jy (snd (row i (seq s n) bx by_))
    == qsum (fun j => w i j 0%nat * (by_ - fdy * a i * psum (at5 DSy) s j)) (seq s n).
  Proof using.
    revert s bx by_. induction n as [|n IH]; intros s bx by_; [reflexivity|].
    cbn [seq row2 snd]. rewrite wsum_cons, qsum_cons. cbn [e_i e_j e_k e_jy].
    rewrite IH. rewrite psum_first.
    apply Qplus_comp; [ring|]. apply qsum_ext. intros j I. apply in_seq in I.
    rewrite (psum_step _ s) by lia. ring.
  Qed.

  Local Notation rows := (rows2 S0x S0y S1x S1y DSx DSy cd fdx fdy fz).

  Lemma rows2_rho is_ js bx :
    wsum w e_rho (rows is_ js bx)
    == qsum (fun i => qsum (fun j => w i j 0%nat * (cd * at5 S1x i * at5 S1y j)) js) is_.
  Proof using.
    revert bx. induction is_ as [|i is_ IH]; intros bx; [reflexivity|].
    cbn [rows2]. rewrite wsum_app, qsum_cons.
    rewrite row2_rho. setoid_rewrite IH. reflexivity.
  Qed.

  Lemma rows2_jz is_ js bx :
    wsum w e_jz (rows is_ js bx)
    == qsum (fun i => qsum (fun j => w i j 0%nat *
              (fz * (a i * b j + (1#12) * at5 DSx i * at5 DSy j))) js) is_.
  Proof using.
    revert bx. induction is_ as [|i is_ IH]; intros bx; [reflexivity|].
    cbn [rows2]. rewrite wsum_app, qsum_cons.
    rewrite row2_jz. setoid_rewrite IH. reflexivity.
  Qed.

  Lemma rows2_jy is_ s n bx :
    wsum w e_jy (rows is_ (seq s n) bx)
    == qsum (fun i => qsum (fun j => w i j 0%nat * (- fdy * a i * psum (at5 DSy) s j)) (seq s n)) is_.
  Proof using.
    revert bx. induction is_ as [|i is_ IH]; intros bx; [reflexivity|].
    cbn [rows2]. rewrite wsum_app, qsum_cons.
    rewrite row2_jy. rewrite IH.
    apply Qplus_comp; [|reflexivity]. apply qsum_ext. intros j _. ring.
  Qed.

  Lemma existsb_seq j s n : (s <= j < s + n)%nat -> existsb (Nat.eqb j) (seq s n) = true.
  Proof using.
    clear. intros H. apply existsb_exists. exists j. split; [apply in_seq; lia|apply Nat.eqb_refl].
  Qed.

  Lemma rows2_jx si ni s n bx :
    wsum w e_jx (rows (seq si ni) (seq s n) bx)
    == qsum (fun i => qsum (fun j => w i j 0%nat *
          (bx j - fdx * psum (at5 DSx) si i * b j)) (seq s n)) (seq si ni).
  Proof using.
    revert si bx. induction ni as [|ni IH]; intros si bx; [reflexivity|].
    cbn [seq rows2]. rewrite wsum_app, qsum_cons.
    rewrite row2_jx. rewrite IH.
    apply Qplus_comp.
    - apply qsum_ext. intros j _. rewrite psum_first. ring.
    - apply qsum_ext. intros i I. apply in_seq in I. apply qsum_ext. intros j J. apply in_seq in J.
      rewrite row2_buff by apply seq_NoDup. rewrite existsb_seq by lia.
      rewrite (psum_step _ si) by lia. ring.
  Qed.
End Rows2.
