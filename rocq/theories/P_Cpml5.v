(** Outside the layers. *)
From Coq Require Import Field_theory.
From Verif Require Import Base M_Layout S_Layout M_PartSync S_PartSync M_FieldSync S_FieldSync M_Maxwell S_Maxwell M_Cpml S_Cpml.
From Verif Require Import P_Layout P_PartSync P_PartSync2 P_PartSync3 P_Threads P_FieldGeo P_FieldPar P_FieldSync P_FieldSync2 P_FieldSync3 P_FieldSync4 P_FieldSync5 P_Maxwell P_Maxwell2 P_Maxwell3 P_Cpml P_Cpml2 P_Cpml3 P_Cpml4.
Local Open Scope Z_scope.

Lemma outside_range {V} (K : layer V) e s n x : 0 <= thick K -> outside_layer e (thick K) s n x -> in_range K e s n x = false.
Proof. unfold outside_layer, in_range, l_start, l_stop. destruct (is_min s), e; lia. Qed.
Lemma fit_opens th axes ns : layers_fit th axes ns -> length ns = length axes -> forall a, (a < length axes)%nat -> opens axes a = true -> 0 < th < nth a ns 0.
Proof.
  unfold layers_fit, opens. revert ns. induction axes as [|x axes IH]; intros [|m ns] H L a Ha Ho; cbn in L, Ha; try discriminate; [lia|].
  cbn [combine] in H. inversion H as [|? ? H1 H2]; subst. cbn [fst snd] in H1. destruct a as [|a]; cbn [map nth] in * .
  - apply H1. unfold open_ in Ho. destruct (ax_lo x); cbn in Ho; first [reflexivity|discriminate].
  - apply IH; auto; lia.
Qed.
Lemma split_opens axes : split_open axes -> forall a, (a < length axes)%nat -> opens axes a = true -> 2 <= ax_n (nth a axes (mkAxis 0 Pml Pml)).
Proof.
  unfold split_open, opens. induction 1 as [|x axes H1 H IH]; intros a Ha Ho; cbn in Ha; [lia|]. destruct a as [|a]; cbn [map nth] in * .
  - apply H1. unfold open_ in Ho. destruct (ax_lo x); cbn in Ho; first [reflexivity|discriminate].
  - apply IH; auto; lia.
Qed.
Section Out.
Context {V : Type} (A : arith V) (K : layer V).
Lemma kappa_off e l a n i : (forall s, In s l -> axis_of s = a -> in_range K e s n i = false) -> kappa_list A K e l a n i = one_ K.
Proof.
  assert (One : forall s, (axis_of s = a -> in_range K e s n i = false) -> kappa_arr A K e s a n i = one_ K).
  { intros s H. unfold kappa_arr. destruct (Nat.eqb_spec (axis_of s) a) as [E|E]; [rewrite (H E)|]; reflexivity. }
  intro H. destruct l as [|s0 l]; [reflexivity|]. unfold kappa_list.
  assert (G : forall l' k, (forall s, In s l' -> In s (s0 :: l)) -> k i = one_ K -> fold_left (fun k s => if (axis_of s =? a)%nat then kappa_arr A K e s a n else k) l' k i = one_ K).
  { induction l' as [|s l' IH]; intros k Hsub Hk; [exact Hk|]. cbn [fold_left]. apply IH; [intros; apply Hsub; now right|]. destruct (axis_of s =? a)%nat; [|exact Hk]. apply One. apply H. apply Hsub. now left. }
  apply G; [auto|]. apply One. apply H. now left.
Qed.
Lemma layered_off ns ng ds n pmls e dt mO h st st' p f c : layered A K ns ng ds n pmls e dt mO h st st' -> 0 <= thick K ->
  (p < n)%nat -> (f < 3)%nat -> interior ns c -> outside_layers e (thick K) (pmls p) ns c -> fst st' (cell ns ng f p c) = h p f c (fst st (cell ns ng f p c)).
Proof.
  intros (L & _) Ht Hp Hf Hc Ho. rewrite (L f p c Hf Hp Hc). generalize (h p f c (fst st (cell ns ng f p c))). 
  assert (Ho' : forall s, In s (pmls p) -> in_layer_ K ns e s c = false) by (intros s I; unfold in_layer_; apply outside_range; [exact Ht|exact (Ho s I)]).
  clear Ho L. intro v. revert v. induction (pmls p) as [|s l IH]; intro v; [reflexivity|]. cbn [fold_left]. rewrite IH by (intros; apply Ho'; now right). unfold gain. rewrite Ho' by now left. reflexivity.
Qed.
Lemma kappa_outside e l ns c : 0 <= thick K -> outside_layers e (thick K) l ns c -> forall a, kappa_list A K e l a (size_ ns a) (coord a c) = one_ K.
Proof. intros Ht Ho a. apply kappa_off. intros s I <-. apply outside_range; [exact Ht|exact (Ho s I)]. Qed.
End Out.
