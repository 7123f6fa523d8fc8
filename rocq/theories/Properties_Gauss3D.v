(** C99: Gauss' law, div B and the total charge over whole runs of a simulation (3D, periodic, species pushed by the fused
    kernel). *)
From Coq Require Import QArith Qabs Qcanon Permutation Lqa.
From Verif Require Import Base M_Layout M_PartSync S_PartSync M_FieldSync S_FieldSync M_Maxwell S_Maxwell M_Deposit S_Deposit M_Push M_Step S_Step M_Step3D S_Step3D S_Gauss S_Gauss3D P_Deposit P_Step3 P_GaussD2 P_GaussD3 Properties_Step3D.
Local Open Scope list_scope.
Local Open Scope Z_scope.

Section S.
Variable rsqrt : Q -> Q.
Hypothesis SUB : subluminal rsqrt.
Variable eps : Qc.

(** ** after any number of whole steps the violation of Gauss' law is, cell by cell, what it was at the start *)
Theorem C99_gauss : forall D sps m s s' i j k, domain3_ok D -> all_fused sps -> ready3 D sps s -> consistent3 D s ->
  steps3d rsqrt eps D sps m s s' -> defect3 eps D sps s' i j k = defect3 eps D sps s i j k.
Proof. intros D sps m s s' i j k OK U R C T. exact (proj1 (defect3_steps rsqrt SUB eps D OK sps U m s s' i j k R C T)). Qed.

(** ** the charge density a step leaves in the arrays is that of the particles half a time step ahead *)
Theorem C99_stored_charge : forall D sps m s s' i j k, domain3_ok D -> all_fused sps -> ready3 D sps s -> consistent3 D s -> (0 < m)%nat ->
  steps3d rsqrt eps D sps m s s' -> on_domain3 D (t_J s') 3 [i; j; k] = charge3 D sps (t_parts s') i j k.
Proof. intros D sps m s s' i j k OK U R C K T. exact (proj1 (proj2 (proj2 (defect3_steps rsqrt SUB eps D OK sps U m s s' i j k R C T))) K). Qed.

(** ** the electric field the particles feel in the next step and the stored charge density: div E - rho/eps0 never changes *)
Theorem C99_field_felt : forall D sps m s s' rank mE i j k, domain3_ok D -> all_fused sps -> ready3 D sps s -> consistent3 D s -> (0 < m)%nat ->
  steps3d rsqrt eps D sps m s s' -> sync_guards3 D rank (up_E3 eps D (t_B s') (t_J s') (t_E s')) mE ->
  gauss3 eps D mE (fun i j k => on_domain3 D (t_J s') 3 [i; j; k]) i j k = defect3 eps D sps s i j k.
Proof.
  intros D sps m s s' rank mE i j k OK U R C K T A. destruct (defect3_steps rsqrt SUB eps D OK sps U m s s' i j k R C T) as (E1 & _ & E2 & _ & C').
  rewrite <- E1, <- (pushing_field3 eps D OK sps rank s' mE i j k C' A). unfold gauss3. rewrite (E2 K). reflexivity.
Qed.

(** ** the magnetic field keeps its divergence *)
Theorem C99_div_b : forall D sps m s s' i j k, domain3_ok D -> all_fused sps -> ready3 D sps s -> consistent3 D s -> steps3d rsqrt eps D sps m s s' ->
  divB3 (qc_arith eps) (on_domain3 D (t_B s')) (Q2Qc (e_dx D)) (Q2Qc (e_dy D)) (Q2Qc (e_dz D)) i j k
  = divB3 (qc_arith eps) (on_domain3 D (t_B s)) (Q2Qc (e_dx D)) (Q2Qc (e_dy D)) (Q2Qc (e_dz D)) i j k.
Proof. intros D sps m s s' i j k OK U R C T. exact (proj1 (proj2 (defect3_steps rsqrt SUB eps D OK sps U m s s' i j k R C T))). Qed.

(** ** the stored charge density always adds up to the charge of the particles the run started with *)
Theorem C99_total_charge : forall D sps m s s', domain3_ok D -> all_fused sps -> ready3 D sps s -> consistent3 D s -> (0 < m)%nat ->
  steps3d rsqrt eps D sps m s s' ->
  (qsum (fun i => qsum (fun j => qsum (fun k => this (on_domain3 D (t_J s') 3 [i; j; k])) (points (cells3_z D))) (points (cells3_y D))) (points (cells3_x D)) ==
   qsum (fun ss => qsum (fun r => sp_q (fst ss) * b_w (other _ r) / (e_dx D * e_dy D * e_dz D)) (particles (snd ss))) (combine sps (t_parts s)))%Q.
Proof. intros D sps m s s' OK U R C K T. exact (total_stored3 D OK rsqrt SUB eps sps U m s s' R C K T). Qed.

(** ** a start without charges, currents and electric field obeys Gauss' law for ever *)
Theorem C99_neutral_start : forall D sps m s s' rank mE i j k, domain3_ok D -> all_fused sps -> ready3 D sps s -> consistent3 D s -> (0 < m)%nat ->
  (forall i j k, charge3 D sps (t_parts s) i j k = Q2Qc 0) -> (forall a, t_E s a = Q2Qc 0) -> (forall a, t_J s a = Q2Qc 0) ->
  steps3d rsqrt eps D sps m s s' -> sync_guards3 D rank (up_E3 eps D (t_B s') (t_J s') (t_E s')) mE ->
  divE3 (qc_arith eps) (on_domain3 D mE) (Q2Qc (e_dx D)) (Q2Qc (e_dy D)) (Q2Qc (e_dz D)) i j k = (on_domain3 D (t_J s') 3 [i; j; k] / eps)%Qc.
Proof.
  intros D sps m s s' rank mE i j k OK U R C K H0 HE HJ T A. pose proof (C99_field_felt D sps m s s' rank mE i j k OK U R C K T A) as E.
  assert (defect3 eps D sps s i j k = 0)%Qc as Z.
  { unfold defect3, gauss3. rewrite H0. unfold divE3, on_domain3. rewrite !HE, !HJ. cbn [plus_ minus_ over_ qc_arith]. unfold Qcdiv. ring. }
  rewrite Z in E. unfold gauss3 in E. apply (f_equal (fun v => v + on_domain3 D (t_J s') 3 [i; j; k] / eps)%Qc) in E. rewrite Qcplus_0_l in E. rewrite <- E. ring.
Qed.
End S.

(** ** a case: pairs of opposite charges created at one place with one velocity in a uniform magnetic field, which separates
    them; two patches *)
Definition pair3_parts : list (list prt) := [[ey_part true 1 1 1 1 0 9; ey_part false (24#10) 3 1 1 0 7]; [ey_part false (26#5) (4#2) (11#5) (5#4) (1#2) 8]].
Definition pair3_species := [mkSpecies (-1) 1 true; mkSpecies 1 1 true].
Definition pair3_state : state2 := mkState2 (fun _ => Q2Qc 0) (fun a => match a with Fld 2 _ _ => Q2Qc 5 | _ => Q2Qc 0 end) (fun _ => Q2Qc 0) [pair3_parts; pair3_parts].
Example C99_case : forall eps m, exists s', steps3d ey_rsqrt eps (ey_dom 2) pair3_species (S m) pair3_state s' /\
  forall rank mE i j k, sync_guards3 (ey_dom 2) rank (up_E3 eps (ey_dom 2) (t_B s') (t_J s') (t_E s')) mE ->
    divE3 (qc_arith eps) (on_domain3 (ey_dom 2) mE) (Q2Qc 1) (Q2Qc 1) (Q2Qc 1) i j k = (on_domain3 (ey_dom 2) (t_J s') 3 [i; j; k] / eps)%Qc.
Proof.
  intros eps m. pose proof (ey_ok 2 (or_intror eq_refl)) as O2.
  assert (AF : all_fused pair3_species) by (repeat constructor).
  assert (R : ready3 (ey_dom 2) pair3_species pair3_state).
  { split; [reflexivity|]. cbn [t_parts pair3_state]. assert (settled3 (ey_dom 2) pair3_parts) as P; [|constructor; [exact P|constructor; [exact P|constructor]]].
    split; [reflexivity|]. intros p r Hp I. change (npatches3 (ey_dom 2)) with 2%nat in Hp. destruct p as [|[|p]]; [| |lia]; ey_in I. }
  assert (C : consistent3 (ey_dom 2) pair3_state).
  { split; [exists (fun _ _ => Q2Qc 0); apply ey_field|]. split; [|exists (fun _ _ => Q2Qc 0); apply ey_cur].
    exists (fun f _ => match f with 2%nat => Q2Qc 5 | _ => Q2Qc 0 end). intros f p c _ _ Hc.
    inversion Hc as [|? a ? ? _ Hb]; subst. inversion Hb as [|? b ? ? _ Hn]; subst. inversion Hn as [|? d ? ? _ Hm]; subst. inversion Hm; subst.
    unfold shown. rewrite P_StepD2.place3_wrap by exact O2. destruct f as [|[|[|f]]]; reflexivity. }
  destruct (C98_runs_exist ey_rsqrt ey_sub eps _ _ (S m) pair3_state O2 AF R C) as (s' & T & _). exists s'. split; [exact T|]. intros rank mE i j k A.
  apply (C99_neutral_start ey_rsqrt ey_sub eps (ey_dom 2) pair3_species (S m) pair3_state s' rank mE i j k O2 AF R C ltac:(lia)); auto.
  intros a b c. unfold charge3. apply q2qc_eq. cbn [t_parts pair3_state combine pair3_species]. rewrite !qsum_cons. cbn [fst snd qsum fold_right sp_q].
  assert (forall l, qsum (charge_of3 (ey_dom 2) (-1) (1#2) a b c) l + qsum (charge_of3 (ey_dom 2) 1 (1#2) a b c) l == 0)%Q as K.
  { induction l as [|r l IH]; [reflexivity|]. rewrite !qsum_cons. unfold charge_of3 at 1 3. cbv zeta. unfold Qdiv in *. lra. }
  rewrite Qplus_0_r. apply K.
Qed.

Print Assumptions C99_gauss.
Print Assumptions C99_stored_charge.
Print Assumptions C99_field_felt.
Print Assumptions C99_div_b.
Print Assumptions C99_total_charge.
Print Assumptions C99_neutral_start.
Print Assumptions C99_case.
