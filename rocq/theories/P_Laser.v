(** Loops of the laser injection. *)
From Coq Require Import QArith Field_theory.
From Verif Require Import Base M_Layout S_Layout M_PartSync S_PartSync M_FieldSync S_FieldSync M_Maxwell S_Maxwell M_Cpml S_Cpml M_Deposit M_Push M_Laser S_Laser.
From Verif Require Import P_Layout P_PartSync P_PartSync2 P_PartSync3 P_Threads P_FieldGeo P_FieldPar P_FieldSync P_FieldSync2 P_FieldSync3 P_FieldSync4 P_FieldSync5 P_AutoPatch P_Maxwell P_Maxwell2 P_Maxwell3 P_Cpml.
Local Open Scope list_scope.
Local Open Scope Z_scope.

Section Loop.
Context {V I : Type}.
(** a loop whose iterations write disjoint sets of addresses and read nothing that any iteration writes *)
Lemma fold_writes (body : memory V -> I -> memory V) (ws : I -> addr -> Prop) (l : list I) :
  NoDup l ->
  (forall m k a, In k l -> ~ ws k a -> body m k a = m a) ->
  (forall m m' k a, In k l -> ws k a -> (forall b, (forall k', In k' l -> ~ ws k' b) -> m b = m' b) -> body m k a = body m' k a) ->
  (forall k k' a, In k l -> In k' l -> ws k a -> ws k' a -> k = k') ->
  forall m0, (forall k a, In k l -> ws k a -> fold_left body l m0 a = body m0 k a) /\
             (forall a, (forall k, In k l -> ~ ws k a) -> fold_left body l m0 a = m0 a).
Proof.
  intros ND H1 H2 HD.
  assert (X : forall l1 l2 m0 m, l = l1 ++ l2 -> (forall b, (forall k', In k' l -> ~ ws k' b) -> m b = m0 b) ->
    (forall k a, In k l2 -> ws k a -> fold_left body l2 m a = body m0 k a) /\ (forall a, (forall k, In k l2 -> ~ ws k a) -> fold_left body l2 m a = m a)).
  { intros l1 l2. revert l1. induction l2 as [|k l2 IH]; intros l1 m0 m E Hm; [split; [contradiction|auto]|]. cbn [fold_left].
    assert (Hk : In k l) by (rewrite E; apply in_or_app; right; now left).
    destruct (IH (l1 ++ [k]) m0 (body m k)) as [R1 R2]; [now rewrite <- app_assoc|..].
    { intros b Hb. rewrite H1 by auto. now apply Hm. }
    split.
    - intros k' a [<-|I'] W; [|now apply R1]. rewrite R2.
      + apply H2; auto. 
      + intros k' I' W'. assert (k = k') as <- by (apply (HD k k' a); auto; rewrite E; apply in_or_app; right; now right).
        rewrite E in ND. apply NoDup_remove_2 in ND. apply ND. apply in_or_app. now right.
    - intros a Ha. rewrite R2 by (intros k' I'; apply Ha; now right). apply H1; auto. apply Ha. now left. }
  intros m0. exact (X [] l m0 m0 eq_refl (fun b _ => eq_refl)).
Qed.
End Loop.

Lemma zrange_in a b x : In x (zrange a b) <-> a <= x < b.
Proof. unfold zrange. rewrite in_map_iff. split; [intros (i & <- & Hi); apply zseq_in in Hi; lia|intro H; exists (x - a); split; [lia|apply zseq_in; lia]]. Qed.
Lemma zrange_NoDup a b : NoDup (zrange a b).
Proof. unfold zrange. apply nodup_inj; [apply zseq_NoDup|]. intros; lia. Qed.

Section Inject.
Context {V : Type} (A : arith V) (K : layer V) (cl : V).
Local Notation "x +. y" := (plus_ A x y) (at level 50, left associativity).
Local Notation "x -. y" := (minus_ A x y) (at level 50, left associativity).
Local Notation "x *. y" := (times_ A x y) (at level 40, left associativity).
Local Notation "x /. y" := (over_ A x y) (at level 40, left associativity).
Local Notation two := (ofZ_ K 2).
Local Notation four := (ofZ_ K 4).

Definition bz2 (dx dt es ey0 bz0 bzm eyl jyl bzl : V) : V :=
  one_ K /. ((cl *. dt /. dx +. one_ K) *. cl) *.
        (four *. es +. two *. (ey0 +. cl *. half_ K *. (bz0 +. bzm)) -. two *. eyl +. dt /. eps0 A *. jyl +. (cl *. dt /. dx -. one_ K) *. cl *. bzl).
Definition by_at (dx dy dt es ez0 by0 bym ezl bxl bxm jzl byl : V) : V :=
  one_ K /. ((cl *. dt /. dx +. one_ K) *. cl) *.
        (minus1_ A four *. es -. two *. (ez0 -. cl *. half_ K *. (by0 +. bym)) +. two *. ezl -. (dt *. csq A) *. (bxl -. bxm) /. dy -. dt /. eps0 A *. jzl
         +. (cl *. dt /. dx -. one_ K) *. cl *. byl).
Definition bz3 (dx dz dt es ey0 bz0 bzm eyl bxl bxm jyl bzl : V) : V :=
  one_ K /. ((cl *. dt /. dx +. one_ K) *. cl) *.
        (four *. es +. two *. (ey0 +. cl *. half_ K *. (bz0 +. bzm)) -. two *. eyl -. (dt *. csq A) *. (bxl -. bxm) /. dz +. dt /. eps0 A *. jyl
         +. (cl *. dt /. dx -. one_ K) *. cl *. bzl).

Ltac cells p := repeat match goal with |- context [Fld ?f p (index [?nx + 2 * ?ng; ?ny + 2 * ?ng] ?c)] => change (Fld f p (index [nx + 2 * ng; ny + 2 * ng] c)) with (cell [nx; ny] ng f p c) end.
Ltac cells3 p := repeat match goal with |- context [Fld ?f p (index [?nx + 2 * ?ng; ?ny + 2 * ?ng; ?nz + 2 * ?ng] ?c)] => change (Fld f p (index [nx + 2 * ng; ny + 2 * ng; nz + 2 * ng] c)) with (cell [nx; ny; nz] ng f p c) end.
Section Two.
Variables (nx ny ng : Z) (dx dy : V).
Hypothesis Hg : 0 < ng.
Hypothesis Hx : ng <= nx.
Hypothesis Hy : ng <= ny.
Local Notation ce f p i j := (cell [nx; ny] ng f p [i; j]).
Lemma in2 i j : - ng <= i < nx + ng -> - ng <= j < ny + ng -> within ng [nx; ny] [i; j].
Proof. intros; repeat constructor; lia. Qed.
Lemma ce_inj f p i j f' p' i' j' : - ng <= i < nx + ng -> - ng <= j < ny + ng -> - ng <= i' < nx + ng -> - ng <= j' < ny + ng ->
  ce f p i j = ce f' p' i' j' -> f = f' /\ p = p' /\ i = i' /\ j = j'.
Proof using Hg Hx Hy.
  intros H1 H2 H3 H4 E. apply (cell_inj [nx; ny] ng bounds2 opp2 (geometry2 nx ny ng Hg Hx Hy)) in E; [|apply in2; lia|apply in2; lia].
  destruct E as (E1 & E2 & E3). injection E3 as E3 E4. auto.
Qed.
Variables (lp j0 j1 : Z).
Hypothesis Hlp : 2 <= lp < nx + ng.
Hypothesis Hj0 : 0 <= j0.
Hypothesis Hj1 : j1 <= ny.
Lemma inject_2d_at es ez dt mE mJ mB p :
  let R := inject_2d A K cl nx ny ng dx dy lp j0 j1 es ez dt mE mJ mB p in
  (forall j, j0 <= j < j1 -> R (ce 0 p (lp - 1) j) = mB (ce 0 p 0 j)) /\
  (forall j, j0 <= j < j1 -> R (ce 2 p (lp - 1) j) =
     bz2 dx dt (es j) (mE (ce 1 p 0 j)) (mB (ce 2 p 0 j)) (mB (ce 2 p (-1) j)) (mE (ce 1 p lp j)) (mJ (ce 1 p lp j)) (mB (ce 2 p lp j))) /\
  (forall j, j0 <= j < j1 -> R (ce 1 p (lp - 1) j) =
     by_at dx dy dt (ez j) (mE (ce 2 p 0 j)) (mB (ce 1 p 0 j)) (mB (ce 1 p (-1) j)) (mE (ce 2 p lp j)) (mB (ce 0 p lp j)) (mB (ce 0 p lp (j - 1))) (mJ (ce 2 p lp j)) (mB (ce 1 p lp j))) /\
  (forall a, (forall f j, (f < 3)%nat -> j0 <= j < j1 -> a <> ce f p (lp - 1) j) -> R a = mB a).
Proof using Hg Hx Hy Hlp Hj0 Hj1.
  cbv zeta. unfold inject_2d. cbv zeta. unfold at2d.
  set (body1 := fun (m : memory V) iy => put (ce 0 p (lp - 1) iy) (m (ce 0 p 0 iy)) m).
  set (ws1 := fun iy a => a = ce 0 p (lp - 1) iy).
  destruct (fold_writes body1 ws1 (zrange j0 j1) (zrange_NoDup _ _)) with (m0 := mB) as [F1 F2].
  { intros m k a _ W. unfold body1. now apply put_neq. }
  { intros m m' k a I W Hm. unfold ws1 in W. subst a. unfold body1. rewrite !put_eq. apply Hm. apply zrange_in in I. intros k' I' W. apply zrange_in in I'. apply ce_inj in W; lia. }
  { intros k k' a I I' W W'. unfold ws1 in * . subst a. apply zrange_in in I. apply zrange_in in I'. apply ce_inj in W'; lia. }
  match goal with |- context [fold_left ?b (zrange j0 j1) (fold_left ?a (zrange j0 j1) mB)] => change a with body1; set (body2 := b) end.
  set (m1 := fold_left body1 (zrange j0 j1) mB) in * .
  set (ws2 := fun iy a => a = ce 2 p (lp - 1) iy \/ a = ce 1 p (lp - 1) iy).
  assert (M1 : forall i j, - ng <= i < nx + ng -> - ng <= j < ny + ng -> i <> lp - 1 -> m1 (ce 0 p i j) = mB (ce 0 p i j)).
  { intros i j Hi Hj N. apply F2. intros k I W. unfold ws1 in W. apply zrange_in in I. apply ce_inj in W; lia. }
  assert (M2 : forall f i j, f <> 0%nat -> - ng <= i < nx + ng -> - ng <= j < ny + ng -> m1 (ce f p i j) = mB (ce f p i j)).
  { intros f i j N Hi Hj. apply F2. intros k I W. unfold ws1 in W. apply zrange_in in I. apply ce_inj in W; lia. }
  destruct (fold_writes body2 ws2 (zrange j0 j1) (zrange_NoDup _ _)) with (m0 := m1) as [G1 G2].
  { intros m k a _ W. unfold body2; cells p. rewrite put_neq by (intro; apply W; now right). apply put_neq. intro; apply W; now left. }
  { intros m m' k a I W Hm. apply zrange_in in I.
    assert (Y : forall f i j, - ng <= i < nx + ng -> - ng <= j < ny + ng -> i <> lp - 1 \/ f = 0%nat -> m (ce f p i j) = m' (ce f p i j)).
    { intros f i j Hi Hj N. apply Hm. intros k' I' [W'|W']; apply zrange_in in I'; apply ce_inj in W'; lia. }
    unfold body2; cells p. destruct W as [-> | ->].
    - rewrite !(put_neq (ce 1 p (lp - 1) k) (ce 2 p (lp - 1) k)) by (intro W; apply ce_inj in W; lia). rewrite !put_eq.
      rewrite !(Y 2%nat) by lia. reflexivity.
    - rewrite !put_eq. rewrite !(put_neq (ce 2 p (lp - 1) k)) by (intro W; apply ce_inj in W; lia). rewrite !(Y 1%nat), !(Y 0%nat) by lia. reflexivity. }
  { intros k k' a I I' W W'. apply zrange_in in I. apply zrange_in in I'. destruct W as [W|W]; destruct W' as [W'|W']; subst a; apply ce_inj in W'; lia. }
  split; [|split; [|split]].
  - intros j Hj. rewrite G2; [|intros k I [W|W]; apply zrange_in in I; apply ce_inj in W; lia].
    rewrite (F1 j) by (reflexivity || (apply zrange_in; lia)). unfold body1. apply put_eq.
  - intros j Hj. rewrite (G1 j) by ((now left) || (apply zrange_in; lia)). unfold body2; cells p.
    rewrite (put_neq (ce 1 p (lp - 1) j) (ce 2 p (lp - 1) j)) by (intro W; apply ce_inj in W; lia). rewrite put_eq. rewrite !M2 by lia. reflexivity.
  - intros j Hj. rewrite (G1 j) by ((now right) || (apply zrange_in; lia)). unfold body2; cells p.
    rewrite put_eq. rewrite !(put_neq (ce 2 p (lp - 1) j)) by (intro W; apply ce_inj in W; lia). rewrite !(M2 1%nat), !M1 by lia. reflexivity.
  - intros a Ha. rewrite G2; [apply F2|].
    + intros k I W. apply zrange_in in I. apply (Ha 0%nat k); auto; lia.
    + intros k I [W|W]; apply zrange_in in I; [apply (Ha 2%nat k)|apply (Ha 1%nat k)]; auto; lia.
Qed.
End Two.

Definition pairs (a b : list Z) : list (Z * Z) := flat_map (fun i => map (pair i) b) a.
Lemma pairs_NoDup (a b : list Z) : NoDup a -> NoDup b -> NoDup (pairs a b).
Proof.
  intros Ha Hb. apply nodup_flat; auto.
  - intros i _. apply nodup_inj; auto. intros x y _ _ E. congruence.
  - intros i i' x Hi Hi' I I'. apply in_map_iff in I as (u & <- & _). apply in_map_iff in I' as (v & E & _). congruence.
Qed.
Lemma pairs_in a b i j : In (i, j) (pairs a b) <-> In i a /\ In j b.
Proof.
  unfold pairs. rewrite in_flat_map. split.
  - intros (x & I & H). apply in_map_iff in H as (y & E & I'). injection E as -> ->. auto.
  - intros [I J]. exists i. split; auto. now apply in_map.
Qed.
Lemma fold_pairs {C} (body : C -> Z -> Z -> C) a b c : fold_left (fun m i => fold_left (fun m j => body m i j) b m) a c = fold_left (fun m ij => body m (fst ij) (snd ij)) (pairs a b) c.
Proof. unfold pairs. rewrite fold_flat_map. apply fold_ext_in. intros m i _. rewrite fold_map. reflexivity. Qed.

Section Three.
Variables (nx ny nz ng : Z) (dx dy dz : V).
Hypothesis Hg : 0 < ng.
Hypothesis Hx : ng <= nx.
Hypothesis Hy : ng <= ny.
Hypothesis Hz : ng <= nz.
Local Notation ce f p i j k := (cell [nx; ny; nz] ng f p [i; j; k]).
Local Notation okx i := (- ng <= i < nx + ng).
Local Notation oky i := (- ng <= i < ny + ng).
Local Notation okz i := (- ng <= i < nz + ng).
Lemma ce3_inj f p i j k f' p' i' j' k' : okx i -> oky j -> okz k -> okx i' -> oky j' -> okz k' ->
  ce f p i j k = ce f' p' i' j' k' -> f = f' /\ p = p' /\ i = i' /\ j = j' /\ k = k'.
Proof using Hg Hx Hy Hz.
  intros H1 H2 H3 H4 H5 H6 E. apply (cell_inj [nx; ny; nz] ng bounds3 opp3 (geometry3 nx ny nz ng Hg Hx Hy Hz)) in E; [|repeat constructor; lia|repeat constructor; lia].
  destruct E as (E1 & E2 & E3). injection E3 as E3 E4 E5. auto.
Qed.
(** position of the element k of the last axis of an array: the guard cells below come last *)
Definition unwrap (k : Z) : Z := if k <? nz + ng then k else k - (nz + 2 * ng).
Lemma unwrap_ok k : 0 <= k < nz + 2 * ng -> okz (unwrap k).
Proof using Hg Hz. unfold unwrap. destruct (Z.ltb_spec k (nz + ng)); lia. Qed.
Lemma unwrap_onto k : okz k -> exists k', 0 <= k' < nz + 2 * ng /\ unwrap k' = k.
Proof using Hg Hz. intro H. exists (widx (nz + 2 * ng) k). unfold unwrap, widx. destruct (Z.leb_spec 0 k); match goal with |- context [?a <? ?b] => destruct (Z.ltb_spec a b) end; lia. Qed.
Lemma unwrap_at f p i j k : 0 <= k < nz + 2 * ng -> ce f p i j k = ce f p i j (unwrap k).
Proof using Hg Hz.
  intro H. unfold cell, extents. cbn [map index].
  assert (widx (nz + 2 * ng) k = widx (nz + 2 * ng) (unwrap k)) as ->; [|reflexivity].
  unfold unwrap, widx. destruct (Z.ltb_spec k (nz + ng)) as [L|L]; [reflexivity|]. destruct (Z.leb_spec 0 k); destruct (Z.leb_spec 0 (k - (nz + 2 * ng))); lia.
Qed.
Variables (lp j0 j1 k0 k1 : Z).
Hypothesis Hlp : 2 <= lp < nx + ng.
Hypothesis Hj0 : 0 <= j0.
Hypothesis Hj1 : j1 <= ny.
Hypothesis Hk0 : 0 <= k0.
Hypothesis Hk1 : k1 <= nz.
Lemma inject_3d_at es ez dt mE mJ mB p :
  let R := inject_3d A K cl nx ny nz ng dx dy dz lp j0 j1 k0 k1 es ez dt mE mJ mB p in
  (forall j k, j0 <= j < j1 -> okz k -> R (ce 0 p (lp - 1) j k) = mB (ce 0 p 0 j k)) /\
  (forall j k, j0 <= j < j1 -> k0 <= k < k1 -> R (ce 2 p (lp - 1) j k) =
     bz3 dx dz dt (es j k) (mE (ce 1 p 0 j k)) (mB (ce 2 p 0 j k)) (mB (ce 2 p (-1) j k)) (mE (ce 1 p lp j k)) (mB (ce 0 p lp j k)) (mB (ce 0 p lp j (k - 1))) (mJ (ce 1 p lp j k)) (mB (ce 2 p lp j k))) /\
  (forall j k, j0 <= j < j1 -> k0 <= k < k1 -> R (ce 1 p (lp - 1) j k) =
     by_at dx dy dt (ez j k) (mE (ce 2 p 0 j k)) (mB (ce 1 p 0 j k)) (mB (ce 1 p (-1) j k)) (mE (ce 2 p lp j k)) (mB (ce 0 p lp j k)) (mB (ce 0 p lp (j - 1) k)) (mJ (ce 2 p lp j k)) (mB (ce 1 p lp j k))) /\
  (forall a, (forall f j k, (f < 3)%nat -> j0 <= j < j1 -> okz k -> f = 0%nat \/ k0 <= k < k1 -> a <> ce f p (lp - 1) j k) -> R a = mB a).
Proof using Hg Hx Hy Hz Hlp Hj0 Hj1 Hk0 Hk1.
  cbv zeta. unfold inject_3d. cbv zeta. unfold at3d. rewrite !fold_pairs.
  set (body1 := fun (m : memory V) (jk : Z * Z) => put (ce 0 p (lp - 1) (fst jk) (snd jk)) (m (ce 0 p 0 (fst jk) (snd jk))) m).
  set (ws1 := fun (jk : Z * Z) a => a = ce 0 p (lp - 1) (fst jk) (unwrap (snd jk))).
  set (l1 := pairs (zrange j0 j1) (zseq (nz + 2 * ng))).
  assert (I1 : forall jk, In jk l1 <-> j0 <= fst jk < j1 /\ 0 <= snd jk < nz + 2 * ng).
  { intros [j k]. unfold l1. rewrite pairs_in, zrange_in, zseq_in. reflexivity. }
  assert (E1 : forall jk, In jk l1 -> ce 0 p (lp - 1) (fst jk) (snd jk) = ce 0 p (lp - 1) (fst jk) (unwrap (snd jk)) /\ ce 0 p 0 (fst jk) (snd jk) = ce 0 p 0 (fst jk) (unwrap (snd jk)) /\ okz (unwrap (snd jk))).
  { intros jk I. apply I1 in I. split; [apply unwrap_at; lia|split; [apply unwrap_at; lia|apply unwrap_ok; lia]]. }
  destruct (fold_writes body1 ws1 l1 (pairs_NoDup _ _ (zrange_NoDup _ _) (zseq_NoDup _))) with (m0 := mB) as [F1 F2].
  { intros m jk a I W. unfold body1. apply put_neq. intro H. apply W. unfold ws1. rewrite H. now apply E1. }
  { intros m m' jk a I W Hm. unfold ws1 in W. subst a. destruct (E1 jk I) as (Ea & Eb & Eo). unfold body1. rewrite <- Ea, !put_eq, Eb. apply Hm. intros k' I' W. destruct (E1 _ I') as (_ & _ & Eo').
    apply I1 in I. apply I1 in I'. unfold ws1 in W. apply ce3_inj in W; lia. }
  { intros jk jk' a I I' W W'. unfold ws1 in W, W'. subst a. destruct (E1 _ I) as (_ & _ & Eo). destruct (E1 _ I') as (_ & _ & Eo'). apply I1 in I. apply I1 in I'. apply ce3_inj in W'; try lia.
    destruct W' as (_ & _ & _ & Wj & Wk). destruct jk as [j k]; destruct jk' as [j' k']. cbn [fst snd] in * . f_equal; [exact Wj|]. revert Wk. unfold unwrap. destruct (Z.ltb_spec k (nz + ng)); destruct (Z.ltb_spec k' (nz + ng)); lia. }
  set (l2 := pairs (zrange j0 j1) (zrange k0 k1)).
  assert (I2 : forall jk, In jk l2 <-> j0 <= fst jk < j1 /\ k0 <= snd jk < k1).
  { intros [j k]. unfold l2. rewrite pairs_in, !zrange_in. reflexivity. }
  match goal with |- context [fold_left ?b l2 (fold_left ?a l1 mB)] => change a with body1; set (body2 := b) end.
  set (m1 := fold_left body1 l1 mB) in * .
  assert (M1 : forall i j k, okx i -> oky j -> okz k -> i <> lp - 1 -> m1 (ce 0 p i j k) = mB (ce 0 p i j k)).
  { intros i j k Hi Hj Hk N. apply F2. intros jk I W. unfold ws1 in W. destruct (E1 _ I) as (_ & _ & Eo). apply I1 in I. apply ce3_inj in W; lia. }
  assert (M2 : forall f i j k, f <> 0%nat -> okx i -> oky j -> okz k -> m1 (ce f p i j k) = mB (ce f p i j k)).
  { intros f i j k N Hi Hj Hk. apply F2. intros jk I W. unfold ws1 in W. destruct (E1 _ I) as (_ & _ & Eo). apply I1 in I. apply ce3_inj in W; lia. }
  set (ws2 := fun (jk : Z * Z) a => a = ce 2 p (lp - 1) (fst jk) (snd jk) \/ a = ce 1 p (lp - 1) (fst jk) (snd jk)).
  destruct (fold_writes body2 ws2 l2 (pairs_NoDup _ _ (zrange_NoDup _ _) (zrange_NoDup _ _))) with (m0 := m1) as [G1 G2].
  { intros m jk a _ W. unfold body2. rewrite put_neq by (intro; apply W; now right). apply put_neq. intro; apply W; now left. }
  { intros m m' [j k] a I W Hm. apply I2 in I. cbn [fst snd] in I.
    assert (Y : forall f i j k, okx i -> oky j -> okz k -> i <> lp - 1 \/ f = 0%nat -> m (ce f p i j k) = m' (ce f p i j k)).
    { intros f i j' k' Hi Hj Hk N. apply Hm. intros jk I' [W'|W']; apply I2 in I'; apply ce3_inj in W'; lia. }
    unfold body2; cells3 p. unfold ws2 in W. cbn [fst snd] in * . destruct W as [-> | ->].
    - rewrite !(put_neq (ce 1 p (lp - 1) j k) (ce 2 p (lp - 1) j k)) by (intro W; apply ce3_inj in W; lia). rewrite !put_eq.
      rewrite !(Y 2%nat), !(Y 0%nat) by lia. reflexivity.
    - rewrite !put_eq. rewrite !(put_neq (ce 2 p (lp - 1) j k)) by (intro W; apply ce3_inj in W; lia). rewrite !(Y 1%nat), !(Y 0%nat) by lia. reflexivity. }
  { intros [j k] [j' k'] a I I' W W'. apply I2 in I. apply I2 in I'. unfold ws2 in W, W'. cbn [fst snd] in * . destruct W as [W|W]; destruct W' as [W'|W']; subst a; apply ce3_inj in W'; try lia; f_equal; lia. }
  split; [|split; [|split]].
  - intros j k Hj Hk. rewrite G2; [|intros jk I [W|W]; apply I2 in I; apply ce3_inj in W; lia].
    destruct (unwrap_onto k Hk) as (k' & Hk' & <-). assert (In (j, k') l1) as I by (apply I1; cbn [fst snd]; lia).
    rewrite (F1 (j, k') _ I) by reflexivity. unfold body1. cbn [fst snd]. destruct (E1 _ I) as (Ea & Eb & _). cbn [fst snd] in Ea, Eb. rewrite <- Ea, <- Eb. apply put_eq.
  - intros j k Hj Hk. assert (In (j, k) l2) as I by (apply I2; cbn [fst snd]; lia). rewrite (G1 (j, k) _ I) by now left. unfold body2; cells3 p. cbn [fst snd].
    rewrite (put_neq (ce 1 p (lp - 1) j k) (ce 2 p (lp - 1) j k)) by (intro W; apply ce3_inj in W; lia). rewrite put_eq. rewrite !(M2 2%nat), !M1 by lia. reflexivity.
  - intros j k Hj Hk. assert (In (j, k) l2) as I by (apply I2; cbn [fst snd]; lia). rewrite (G1 (j, k) _ I) by now right. unfold body2; cells3 p. cbn [fst snd].
    rewrite put_eq. rewrite !(put_neq (ce 2 p (lp - 1) j k)) by (intro W; apply ce3_inj in W; lia). rewrite !(M2 1%nat), !M1 by lia. reflexivity.
  - intros a Ha. rewrite G2; [apply F2|].
    + intros jk I W. destruct (E1 _ I) as (_ & _ & Eo). apply I1 in I. apply (Ha 0%nat (fst jk) (unwrap (snd jk))); auto; lia.
    + intros jk I [W|W]; apply I2 in I; [apply (Ha 2%nat (fst jk) (snd jk))|apply (Ha 1%nat (fst jk) (snd jk))]; auto; lia.
Qed.
End Three.
End Inject.
