(** C78: Gauss' law, div B and the total charge over whole runs of a simulation (2D, periodic). *)
From Coq Require Import QArith Qabs Qcanon Permutation Lqa.
From Verif Require Import Base M_Layout M_PartSync S_PartSync M_FieldSync S_FieldSync M_Maxwell S_Maxwell M_Deposit S_Deposit M_Push M_Step S_Step S_Gauss P_Deposit P_Step3 P_Gauss2 P_Gauss3 Properties_Step.
Local Open Scope list_scope.
Local Open Scope Z_scope.

Section S.
Variable rsqrt : Q -> Q.
Hypothesis SUB : subluminal rsqrt.
Variable eps : Qc.

(** ** after any number of whole steps the violation of Gauss' law is, cell by cell, what it was at the start *)
Theorem C78_gauss : forall D sps k s s' i j, domain_ok D -> ready D sps s -> consistent D s ->
  steps2 rsqrt eps D sps k s s' -> defect eps D sps s' i j = defect eps D sps s i j.
Proof. intros D sps k s s' i j OK R C T. exact (proj1 (defect_steps rsqrt SUB eps D OK sps k s s' i j R C T)). Qed.

(** ** the charge density a step leaves in the arrays is that of the particles half a time step ahead *)
Theorem C78_stored_charge : forall D sps k s s' i j, domain_ok D -> ready D sps s -> consistent D s -> (0 < k)%nat ->
  steps2 rsqrt eps D sps k s s' -> on_domain D (t_J s') 3 [i; j] = charge D sps (t_parts s') i j.
Proof. intros D sps k s s' i j OK R C K T. exact (proj1 (proj2 (proj2 (defect_steps rsqrt SUB eps D OK sps k s s' i j R C T))) K). Qed.

(** ** the electric field the particles feel in the next step and the stored charge density: div E - rho/eps0 never changes *)
Theorem C78_field_felt : forall D sps k s s' rank mE i j, domain_ok D -> ready D sps s -> consistent D s -> (0 < k)%nat ->
  steps2 rsqrt eps D sps k s s' -> sync_guards D rank (up_E eps D (t_B s') (t_J s') (t_E s')) mE ->
  gauss eps D mE (fun i j => on_domain D (t_J s') 3 [i; j]) i j = defect eps D sps s i j.
Proof.
  intros D sps k s s' rank mE i j OK R C K T A. destruct (defect_steps rsqrt SUB eps D OK sps k s s' i j R C T) as (E1 & _ & E2 & _ & C').
  rewrite <- E1, <- (pushing_field eps D OK sps rank s' mE i j C' A). unfold gauss. rewrite (E2 K). reflexivity.
Qed.

(** ** the magnetic field keeps its divergence *)
Theorem C78_div_b : forall D sps k s s' i j, domain_ok D -> ready D sps s -> consistent D s -> steps2 rsqrt eps D sps k s s' ->
  divB2 (qc_arith eps) (on_domain D (t_B s')) (Q2Qc (d_dx D)) (Q2Qc (d_dy D)) i j = divB2 (qc_arith eps) (on_domain D (t_B s)) (Q2Qc (d_dx D)) (Q2Qc (d_dy D)) i j.
Proof. intros D sps k s s' i j OK R C T. exact (proj1 (proj2 (defect_steps rsqrt SUB eps D OK sps k s s' i j R C T))). Qed.

(** ** the stored charge density always adds up to the charge of the particles the run started with *)
Theorem C78_total_charge : forall D sps k s s', domain_ok D -> ready D sps s -> consistent D s -> (0 < k)%nat ->
  steps2 rsqrt eps D sps k s s' ->
  (qsum (fun i => qsum (fun j => this (on_domain D (t_J s') 3 [i; j])) (points (cells_y D))) (points (cells_x D)) ==
   qsum (fun ss => qsum (fun r => sp_q (fst ss) * b_w (other _ r) / (d_dx D * d_dy D)) (particles (snd ss))) (combine sps (t_parts s)))%Q.
Proof. intros D sps k s s' OK R C K T. exact (total_stored D OK rsqrt SUB eps sps k s s' R C K T). Qed.

(** ** a start without charges, currents and electric field obeys Gauss' law for ever *)
Theorem C78_neutral_start : forall D sps k s s' rank mE i j, domain_ok D -> ready D sps s -> consistent D s -> (0 < k)%nat ->
  (forall i j, charge D sps (t_parts s) i j = Q2Qc 0) -> (forall a, t_E s a = Q2Qc 0) -> (forall a, t_J s a = Q2Qc 0) ->
  steps2 rsqrt eps D sps k s s' -> sync_guards D rank (up_E eps D (t_B s') (t_J s') (t_E s')) mE ->
  divE2 (qc_arith eps) (on_domain D mE) (Q2Qc (d_dx D)) (Q2Qc (d_dy D)) i j = (on_domain D (t_J s') 3 [i; j] / eps)%Qc.
Proof.
  intros D sps k s s' rank mE i j OK R C K H0 HE HJ T A. pose proof (C78_field_felt D sps k s s' rank mE i j OK R C K T A) as E.
  assert (defect eps D sps s i j = 0)%Qc as Z.
  { unfold defect, gauss. rewrite H0. unfold divE2, on_domain. rewrite !HE, !HJ. cbn [plus_ minus_ over_ qc_arith]. unfold Qcdiv. ring. }
  rewrite Z in E. unfold gauss in E. apply (f_equal (fun v => v + on_domain D (t_J s') 3 [i; j] / eps)%Qc) in E. rewrite Qcplus_0_l in E. rewrite <- E. ring.
Qed.
End S.

(** ** a case: pairs of opposite charges created at one place with one velocity in a uniform magnetic field, which separates
    them; two patches *)
Definition pair_parts : list (list prt) := [[ex_part true 1 1 1 9; ex_part false (24#10) 3 1 7]; [ex_part false (26#5) (4#2) (5#4) 8]].
Definition pair_species := [mkSpecies (-1) 1 true; mkSpecies 1 1 false].
Definition pair_state : state2 := mkState2 (fun _ => Q2Qc 0) (fun a => match a with Fld 2 _ _ => Q2Qc 5 | _ => Q2Qc 0 end) (fun _ => Q2Qc 0) [pair_parts; pair_parts].
Example C78_case : forall eps k, exists s', steps2 ex_rsqrt eps (ex_dom 2) pair_species (S k) pair_state s' /\
  forall rank mE i j, sync_guards (ex_dom 2) rank (up_E eps (ex_dom 2) (t_B s') (t_J s') (t_E s')) mE ->
    divE2 (qc_arith eps) (on_domain (ex_dom 2) mE) (Q2Qc 1) (Q2Qc 1) i j = (on_domain (ex_dom 2) (t_J s') 3 [i; j] / eps)%Qc.
Proof.
  intros eps k. pose proof (ex_ok 2 (or_intror eq_refl)) as O2.
  assert (R : ready (ex_dom 2) pair_species pair_state).
  { split; [reflexivity|]. cbn [t_parts pair_state]. assert (settled (ex_dom 2) pair_parts) as P; [|constructor; [exact P|constructor; [exact P|constructor]]].
    split; [reflexivity|]. intros p r Hp I. change (npatches2 (ex_dom 2)) with 2%nat in Hp. destruct p as [|[|p]]; [| |lia]; ex_in I. }
  assert (C : consistent (ex_dom 2) pair_state).
  { split; [exists (fun _ _ => Q2Qc 0); apply ex_field|]. split; [|exists (fun _ _ => Q2Qc 0); apply ex_cur].
    exists (fun f _ => match f with 2%nat => Q2Qc 5 | _ => Q2Qc 0 end). intros f p c _ _ Hc. inversion Hc as [|? a ? ? _ Hb]; subst. inversion Hb as [|? b ? ? _ Hn]; subst. inversion Hn; subst.
    unfold shown. rewrite P_Step2.place_wrap by exact O2. destruct f as [|[|[|f]]]; reflexivity. }
  destruct (C76_runs_exist ex_rsqrt ex_sub eps _ _ (S k) pair_state O2 R C) as (s' & T & _). exists s'. split; [exact T|]. intros rank mE i j A.
  apply (C78_neutral_start ex_rsqrt ex_sub eps (ex_dom 2) pair_species (S k) pair_state s' rank mE i j O2 R C ltac:(lia)); auto.
  intros a b. unfold charge. apply q2qc_eq. cbn [t_parts pair_state combine pair_species]. rewrite !qsum_cons. cbn [fst snd qsum fold_right sp_q].
  assert (forall l, qsum (charge_of (ex_dom 2) (-1) (1#2) a b) l + qsum (charge_of (ex_dom 2) 1 (1#2) a b) l == 0)%Q as K.
  { induction l as [|r l IH]; [reflexivity|]. rewrite !qsum_cons. unfold charge_of at 1 3. cbv zeta. unfold Qdiv in *. lra. }
  rewrite Qplus_0_r. apply K.
Qed.

Print Assumptions C78_gauss.
Print Assumptions C78_stored_charge.
Print Assumptions C78_field_felt.
Print Assumptions C78_div_b.
Print Assumptions C78_total_charge.
Print Assumptions C78_neutral_start.
Print Assumptions C78_case.
