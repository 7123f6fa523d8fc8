(** Gauss' law with open sides, part 4: a particle that enters a layer. *)
From Coq Require Import QArith Qabs Qround Qcanon Permutation Lqa.
From Verif Require Import Base M_Layout S_Layout M_PartSync S_PartSync M_FieldSync S_FieldSync M_Maxwell S_Maxwell M_Cpml S_Cpml M_Deposit S_Deposit M_Push S_Push P_Push P_Deposit M_Step S_Step M_StepO S_StepO P_Step1 P_Step2 P_Step3 P_Step6 S_Gauss S_GaussO P_Gauss1 P_StepO1 P_StepO3 P_StepO4.
Local Open Scope list_scope.
Local Open Scope Z_scope.

Lemma momentum_half rsqrt q m dt s : (forall u s, (1 + u * u <= s -> Qabs (u * rsqrt s) <= (1#2))%Q) -> let p := l_p (push_momentum rsqrt q m dt s) in
  p_x p = p_x (l_p s) /\ p_y p = p_y (l_p s) /\ p_w p = p_w (l_p s) /\ (Qabs (p_ux p * p_ig p) <= (1#2))%Q /\ (Qabs (p_uy p * p_ig p) <= (1#2))%Q.
Proof.
  intro SUB. cbv zeta. unfold push_momentum, boris_inline. cbv zeta.
  match goal with |- context [boris_core ?N ?e ?b ?u ?E ?B] => pose proof (boris_gamma rsqrt e b u E B) as G; destruct (boris_core N e b u E B) as [[[x y] z] g] end.
  cbn [l_p p_x p_y p_z p_w p_ux p_uy p_ig]. subst g. repeat (split; [reflexivity|]).
  pose proof (sq_nonneg x). pose proof (sq_nonneg y). pose proof (sq_nonneg z). split; apply SUB; lra.
Qed.
(** where a particle is after the push if the new speed is at most half the speed of light *)
Lemma orow_half rsqrt pl dx dy dt sp FE FB r x y : (forall u s, (1 + u * u <= s -> Qabs (u * rsqrt s) <= (1#2))%Q) -> px _ r = Some x -> py _ r = Some y ->
  let b := other _ r in let h := (LIGHT_SPEED * (1 # 2) * dt)%Q in
  exists x' y' ux uy, let r' := orow rsqrt pl dx dy dt sp FE FB r in
    px _ r' = Some x' /\ py _ r' = Some y' /\ b_w (other _ r') = b_w b /\
    (b_ux (other _ r') * b_ig (other _ r') == ux)%Q /\ (b_uy (other _ r') * b_ig (other _ r') == uy)%Q /\ (Qabs ux <= (1#2))%Q /\ (Qabs uy <= (1#2))%Q /\
    (x' == x + h * (b_ig b * b_ux b) + h * ux)%Q /\ (y' == y + h * (b_ig b * b_uy b) + h * uy)%Q.
Proof.
  intros SUB Ex Ey b h. unfold orow, oslot. set (s := load (live r)). assert (skipped s = false) as Sk by (unfold s, load, skipped; cbn [M_PartSync.row M_PartSync.dead l_p p_dead p_nan]; rewrite Ex, Ey; reflexivity).
  unfold P_Push.one. rewrite Sk. cbv zeta. match goal with |- context [ointerp ?a ?b ?c ?d ?e ?p] => assert (exists f, ointerp a b c d e p = Some f) as [f Hf] by (unfold ointerp; eauto) end. rewrite Hf. cbn [obind]. unfold rowof, store. cbn [M_PartSync.row px py other]. rewrite Ex, Ey. cbn [isnan l_p].
  match goal with |- context [push_momentum rsqrt ?q ?m ?dt ?a] => destruct (momentum_half rsqrt q m dt a SUB) as (M1 & M2 & M0 & M3 & M4); set (u := l_p (push_momentum rsqrt q m dt a)) in * end.
  cbn [l_p push_position_2d p_x p_y p_w b_w b_ux b_uy b_ig p_ux p_uy p_ig] in *. assert (p_x (l_p s) = x /\ p_y (l_p s) = y) as [Sx Sy] by (unfold s, load; cbn [M_PartSync.row l_p p_x p_y]; rewrite Ex, Ey; auto).
  eexists. eexists. exists (p_ux u * p_ig u)%Q, (p_uy u * p_ig u)%Q. split; [reflexivity|]. split; [reflexivity|].
  split; [reflexivity|]. split; [reflexivity|]. split; [reflexivity|]. split; [exact M3|]. split; [exact M4|].
  rewrite M1, M2, Sx, Sy. unfold s, load. cbn [M_PartSync.row l_p p_ig p_ux p_uy]. fold b. fold h. split; ring.
Qed.
