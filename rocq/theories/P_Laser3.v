(** The injection condition: the formula of the injected magnetic field. *)
From Coq Require Import QArith Field_theory Field.
From Verif Require Import Base M_Layout S_Layout M_PartSync S_PartSync M_FieldSync S_FieldSync M_Maxwell S_Maxwell M_Cpml S_Cpml M_Deposit M_Push M_Laser S_Laser.
From Verif Require Import P_Layout P_PartSync P_PartSync2 P_PartSync3 P_Threads P_FieldGeo P_FieldPar P_FieldSync P_FieldSync2 P_FieldSync3 P_FieldSync4 P_FieldSync5 P_AutoPatch P_Maxwell P_Maxwell2 P_Maxwell3 P_Cpml P_Cpml2 P_Cpml3 P_Cpml4 P_Laser P_Laser2.
Local Open Scope list_scope.
Local Open Scope Z_scope.

Section Formula.
Context {V : Type} (A : arith V) (K : layer V) (cl zero : V) (inv : V -> V).
Local Notation "x +. y" := (plus_ A x y) (at level 50, left associativity).
Local Notation "x -. y" := (minus_ A x y) (at level 50, left associativity).
Local Notation "x *. y" := (times_ A x y) (at level 40, left associativity).
Local Notation "x /. y" := (over_ A x y) (at level 40, left associativity).
Local Notation two := (ofZ_ K 2).
Local Notation four := (ofZ_ K 4).
Local Notation one := (one_ K).
Local Notation half := (half_ K).
Hypothesis Fth : field_theory zero one (plus_ A) (times_ A) (minus_ A) (minus1_ A) (over_ A) inv (@eq V).
Add Field VF : Fth.
Hypothesis Hhalf : half +. half = one.
Hypothesis Htwo : two = one +. one.
Hypothesis Hfour : four = two +. two.
Hypothesis Hcsq : csq A = cl *. cl.
Hypothesis Heps : eps0 A <> zero.
Variables (dx dt : V).
Hypothesis Hdx : dx <> zero.
Hypothesis Hcl : cl <> zero.
Hypothesis Hcfl : cl *. dt /. dx +. one <> zero.
Lemma two_nz : one +. one <> zero.
Proof using Fth Hhalf.
  intro E. apply (F_1_neq_0 Fth). rewrite <- Hhalf. transitivity (half *. (one +. one)); [ring|]. rewrite E. ring.
Qed.
Lemma half_is : half = one /. (one +. one).
Proof using Fth Hhalf. pose proof two_nz as N. transitivity ((half +. half) /. (one +. one)); [field; exact N|]. now rewrite Hhalf. Qed.
Lemma D_nz : cl *. dt +. dx <> zero.
Proof using Fth Hdx Hcfl. intro E. apply Hcfl. transitivity ((cl *. dt +. dx) /. dx); [field; exact Hdx|]. rewrite E. field. exact Hdx. Qed.
Lemma cancel_twice x y : (one +. one) *. x = (one +. one) *. y -> x = y.
Proof using Fth Hhalf. intro E. transitivity (((one +. one) *. x) /. (one +. one)); [field; apply two_nz|]. rewrite E. field. apply two_nz. Qed.
Lemma wave_bz2 es ey0 bz0 bzm eyl jyl bzl :
  let b := bz2 A K cl dx dt es ey0 bz0 bzm eyl jyl bzl in
  eyl +. (half *. dt *. csq A *. (minus1_ A (bzl -. b) /. dx) -. half *. dt /. eps0 A *. jyl) +. cl *. (half *. (b +. bzl)) =
  two *. es +. (ey0 +. cl *. (half *. (bzm +. bz0))).
Proof using Fth Hhalf Htwo Hfour Hcsq Heps Hdx Hcl Hcfl.
  cbv zeta. unfold bz2. rewrite half_is, Hfour, Htwo, Hcsq. pose proof two_nz. pose proof D_nz. field. repeat split; auto.
Qed.
Lemma wave_by dy es ez0 by0 bym ezl bxl bxm jzl byl : dy <> zero ->
  let b := by_at A K cl dx dy dt es ez0 by0 bym ezl bxl bxm jzl byl in
  ezl +. (half *. dt *. csq A *. ((byl -. b) /. dx -. (bxl -. bxm) /. dy) -. half *. dt /. eps0 A *. jzl) -. cl *. (half *. (b +. byl)) =
  two *. es +. (ez0 -. cl *. (half *. (bym +. by0))).
Proof using Fth Hhalf Htwo Hfour Hcsq Heps Hdx Hcl Hcfl.
  intro Hdy. cbv zeta. unfold by_at. rewrite half_is, Hfour, Htwo, Hcsq. pose proof two_nz. pose proof D_nz. field. repeat split; auto.
Qed.
Lemma wave_bz3 dz es ey0 bz0 bzm eyl bxl bxm jyl bzl : dz <> zero ->
  let b := bz3 A K cl dx dz dt es ey0 bz0 bzm eyl bxl bxm jyl bzl in
  eyl +. (half *. dt *. csq A *. ((bxl -. bxm) /. dz -. (bzl -. b) /. dx) -. half *. dt /. eps0 A *. jyl) +. cl *. (half *. (b +. bzl)) =
  two *. es +. (ey0 +. cl *. (half *. (bzm +. bz0))).
Proof using Fth Hhalf Htwo Hfour Hcsq Heps Hdx Hcl Hcfl.
  intro Hdz. cbv zeta. unfold bz3. rewrite half_is, Hfour, Htwo, Hcsq. pose proof two_nz. pose proof D_nz. field. repeat split; auto.
Qed.
End Formula.

Section Local.
Context {V : Type} (A : arith V) (K : layer V) (cl : V).
Lemma inject_2d_in nx ny ng dx dy lp j0 j1 es ez dt mE mJ m m' p : agree p m m' ->
  agree p (inject_2d A K cl nx ny ng dx dy lp j0 j1 es ez dt mE mJ m p) (inject_2d A K cl nx ny ng dx dy lp j0 j1 es ez dt mE mJ m' p).
Proof.
  intro H. unfold inject_2d. cbv zeta. apply agree_fold; [|apply agree_fold; [|exact H]]; clear m m' H; intros m m' i H.
  - match goal with |- agree p (put ?a ?v (put ?b ?w m)) (put ?a ?v' (put ?b ?w' m')) => assert (H2 : agree p (put b w m) (put b w' m')) by (apply agree_put; [exact H|rewrite !(H _ _); reflexivity]) end.
    apply agree_put; [exact H2|]. rewrite !(H2 _ _), !(H _ _). reflexivity.
  - apply agree_put; [exact H|apply H].
Qed.
Lemma inject_2d_out nx ny ng dx dy lp j0 j1 es ez dt mE mJ m p a : elsewhere p a -> inject_2d A K cl nx ny ng dx dy lp j0 j1 es ez dt mE mJ m p a = m a.
Proof.
  intro H. unfold inject_2d. cbv zeta.
  assert (X : forall I (l : list I) (body : memory V -> I -> memory V), (forall m i, body m i a = m a) -> forall m, fold_left body l m a = m a).
  { intros I l body Hb m0. apply (elsewhere_fold p a body l Hb m0 H). }
  rewrite X; [rewrite X; [reflexivity|]|]; intros; rewrite !elsewhere_put by exact H; reflexivity.
Qed.
Lemma inject_3d_in nx ny nz ng dx dy dz lp j0 j1 k0 k1 es ez dt mE mJ m m' p : agree p m m' ->
  agree p (inject_3d A K cl nx ny nz ng dx dy dz lp j0 j1 k0 k1 es ez dt mE mJ m p) (inject_3d A K cl nx ny nz ng dx dy dz lp j0 j1 k0 k1 es ez dt mE mJ m' p).
Proof.
  intro H. unfold inject_3d. cbv zeta. apply agree_fold; [|apply agree_fold; [|exact H]]; clear m m' H; intros m m' j H; apply agree_fold; try exact H; clear m m' H; intros m m' i H.
  - match goal with |- agree p (put ?a ?v (put ?b ?w m)) (put ?a ?v' (put ?b ?w' m')) => assert (H2 : agree p (put b w m) (put b w' m')) by (apply agree_put; [exact H|rewrite !(H _ _); reflexivity]) end.
    apply agree_put; [exact H2|]. rewrite !(H2 _ _), !(H _ _). reflexivity.
  - apply agree_put; [exact H|apply H].
Qed.
Lemma inject_3d_out nx ny nz ng dx dy dz lp j0 j1 k0 k1 es ez dt mE mJ m p a : elsewhere p a -> inject_3d A K cl nx ny nz ng dx dy dz lp j0 j1 k0 k1 es ez dt mE mJ m p a = m a.
Proof.
  intro H. unfold inject_3d. cbv zeta.
  assert (X : forall I (l : list I) (body : memory V -> I -> memory V), (forall m i, body m i a = m a) -> forall m, fold_left body l m a = m a).
  { intros I l body Hb m0. apply (elsewhere_fold p a body l Hb m0 H). }
  rewrite X; [rewrite X; [reflexivity|]|]; intros; apply X; intros; rewrite !elsewhere_put by exact H; reflexivity.
Qed.
End Local.
