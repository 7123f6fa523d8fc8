(** C112: Gauss' law and div B over whole runs of a three-dimensional simulation with open sides. *)
From Coq Require Import QArith Qabs Qround Qcanon Permutation Lqa.
From Verif Require Import Base M_Layout M_PartSync S_PartSync M_FieldSync S_FieldSync M_Maxwell S_Maxwell M_Cpml M_Deposit S_Deposit M_Push M_Step S_Step M_Step3D S_Step3D M_StepO S_StepO M_StepO3D S_StepO3D S_Gauss S_GaussO S_Gauss3D S_GaussO3D P_Deposit P_Step1 P_Step2 P_Step3 P_Step4 P_Step5 P_Gauss1 P_Gauss2 P_GaussQ1 P_GaussQ2 P_GaussQ3 Properties_Cpml Properties_Step Properties_Step3D Properties_StepO3D.
Local Open Scope list_scope.
Local Open Scope Z_scope.

Section S.
Variable rsqrt : Q -> Q.
Hypothesis SUB : subluminal rsqrt.
Variable eps : Qc.
Variable K : layer Qc.

(** ** two cells or more away from the layers the violation of Gauss' law is, after any number of whole steps, what it was at
    the start, whatever left the domain *)
Theorem C112_gauss : forall D pmls sps n s s' i j k, open3_ok K D pmls -> all_fused sps -> open_ready3 D sps s -> open_consistent3 D pmls s -> off_layers3 (thick K) D i j k ->
  stepso3 rsqrt eps K D pmls sps n s s' -> defect_o3 eps D sps s' i j k = defect_o3 eps D sps s i j k.
Proof. intros D pmls sps n s s' i j k OK U0 R C O T. exact (proj1 (odefect3_steps rsqrt SUB eps K D pmls OK sps U0 n s s' R C T) i j k O). Qed.

(** ** the charge density a step leaves in the arrays is that of the particles half a time step ahead *)
Theorem C112_stored_charge : forall D pmls sps n s s' i j k, open3_ok K D pmls -> all_fused sps -> open_ready3 D sps s -> open_consistent3 D pmls s -> off_layers3 (thick K) D i j k -> (0 < n)%nat ->
  stepso3 rsqrt eps K D pmls sps n s s' -> on_domain3 D (o_J s') 3 [i; j; k] = charge_o3 D sps (o_parts s') i j k.
Proof. intros D pmls sps n s s' i j k OK U0 R C O P T. exact (proj1 (proj2 (proj2 (odefect3_steps rsqrt SUB eps K D pmls OK sps U0 n s s' R C T))) P i j k O). Qed.

(** ** the electric field the particles feel in the next step and the stored charge density: div E - rho/eps0 never changes *)
Theorem C112_field_felt : forall D pmls sps n s s' rank m psi mE i j k, open3_ok K D pmls -> all_fused sps -> open_ready3 D sps s -> open_consistent3 D pmls s -> off_layers3 (thick K) D i j k -> (0 < n)%nat ->
  stepso3 rsqrt eps K D pmls sps n s s' -> up_Eo3 eps K D pmls (o_B s') (o_J s') (o_E s') (o_pE s') = (m, psi) -> sync_guards3 D rank m mE ->
  gauss3 eps D mE (fun i j k => on_domain3 D (o_J s') 3 [i; j; k]) i j k = defect_o3 eps D sps s i j k.
Proof.
  intros D pmls sps n s s' rank m psi mE i j k OK U0 R C O P T U A. destruct (odefect3_steps rsqrt SUB eps K D pmls OK sps U0 n s s' R C T) as (E1 & _ & E2 & _ & C').
  rewrite <- (E1 i j k O), <- (opushing_field3 eps K D pmls OK sps rank s' m psi mE i j k C' (proj1 (off_beside3 K D pmls OK i j k O)) U A). unfold gauss3. rewrite (E2 P i j k O). reflexivity.
Qed.

(** ** the magnetic field keeps its divergence outside the layers *)
Theorem C112_div_b : forall D pmls sps n s s' i j k, open3_ok K D pmls -> all_fused sps -> open_ready3 D sps s -> open_consistent3 D pmls s ->
  (ax_lo (e_ax D) = Pml -> thick K <= i < cells3_x D - thick K - 2) -> (ax_lo (e_ay D) = Pml -> thick K <= j < cells3_y D - thick K - 2) ->
  (ax_lo (e_az D) = Pml -> thick K <= k < cells3_z D - thick K - 2) ->
  stepso3 rsqrt eps K D pmls sps n s s' ->
  divB3 (qc_arith eps) (on_domain3 D (o_B s')) (Q2Qc (e_dx D)) (Q2Qc (e_dy D)) (Q2Qc (e_dz D)) i j k = divB3 (qc_arith eps) (on_domain3 D (o_B s)) (Q2Qc (e_dx D)) (Q2Qc (e_dy D)) (Q2Qc (e_dz D)) i j k.
Proof. intros D pmls sps n s s' i j k OK U0 R C H1 H2 H3 T. exact (proj1 (proj2 (odefect3_steps rsqrt SUB eps K D pmls OK sps U0 n s s' R C T)) i j k (conj H1 (conj H2 H3))). Qed.

(** ** a start without charges, currents and electric field obeys Gauss' law for ever, two cells away from the layers *)
Theorem C112_neutral_start : forall D pmls sps n s s' rank m psi mE i j k, open3_ok K D pmls -> all_fused sps -> open_ready3 D sps s -> open_consistent3 D pmls s -> off_layers3 (thick K) D i j k -> (0 < n)%nat ->
  charge_o3 D sps (o_parts s) i j k = Q2Qc 0 -> (forall a, o_E s a = Q2Qc 0) -> (forall a, o_J s a = Q2Qc 0) ->
  stepso3 rsqrt eps K D pmls sps n s s' -> up_Eo3 eps K D pmls (o_B s') (o_J s') (o_E s') (o_pE s') = (m, psi) -> sync_guards3 D rank m mE ->
  divE3 (qc_arith eps) (on_domain3 D mE) (Q2Qc (e_dx D)) (Q2Qc (e_dy D)) (Q2Qc (e_dz D)) i j k = (on_domain3 D (o_J s') 3 [i; j; k] / eps)%Qc.
Proof.
  intros D pmls sps n s s' rank m psi mE i j k OK U0 R C O P H0 HE HJ T U A. pose proof (C112_field_felt D pmls sps n s s' rank m psi mE i j k OK U0 R C O P T U A) as E.
  assert (defect_o3 eps D sps s i j k = 0)%Qc as Z.
  { unfold defect_o3, gauss3. rewrite H0. unfold divE3, on_domain3. rewrite !HE, !HJ. cbn [plus_ minus_ over_ qc_arith]. unfold Qcdiv. change (Q2Qc 0) with 0%Qc. ring. }
  rewrite Z in E. unfold gauss3 in E. apply (f_equal (fun v => v + on_domain3 D (o_J s') 3 [i; j; k] / eps)%Qc) in E. rewrite Qcplus_0_l in E. rewrite <- E. ring.
Qed.

(** ** nearer to the layers: what a step adds to the violation is exactly the charge of the particles it takes out *)
Theorem C112_absorbed_charge : forall D pmls sps rank s s', open3_ok K D pmls -> all_fused sps -> open_ready3 D sps s -> open_consistent3 D pmls s ->
  stepo3 rsqrt eps K D pmls sps rank s s' -> exists gone, absorbed3 (thick K) D s s' gone /\
  (forall i j k, beside_layers3 (thick K) D i j k -> defect_o3 eps D sps s' i j k = (defect_o3 eps D sps s i j k + charge_rows3 D sps gone i j k / eps)%Qc) /\
  (forall i j k, 0 <= i < cells3_x D -> 0 <= j < cells3_y D -> 0 <= k < cells3_z D -> on_domain3 D (o_J s') 3 [i; j; k] = (charge_o3 D sps (o_parts s') i j k + charge_rows3 D sps gone i j k)%Qc).
Proof.
  intros D pmls sps rank s s' OK U0 R C T. destruct (odefect3_step rsqrt SUB eps K D pmls OK sps U0 rank s s' R C T) as (gone & A & E1 & _ & _ & E2 & _). exists gone. split; [exact A|]. split; [exact E1|].
  intros i j k Hi Hj Hk. apply E2; intro; assumption.
Qed.
End S.

(** ** a case: two pairs of opposite charges created at one place, open along x; the pairs fly apart and one of them is absorbed
    in the upper layer *)
Definition eyo_species := [mkSpecies (-1) 1 true; mkSpecies 1 1 true].
Definition eyo_pairs : stateo :=
  mkStateO (fun _ => Q2Qc 0) (fun _ => Q2Qc 0) (fun _ => Q2Qc 0) (fun _ _ => Q2Qc 0) (fun _ _ => Q2Qc 0)
    [[[ey_part false (37#5) 3 1 1 0 7; ey_part true 0 0 0 0 0 0]; [ey_part false (67#5) 2 (5#2) (5#4) (1#2) 8]];
     [[]; [ey_part false (311#40) 3 1 (-1) 0 7; ey_part true 1 1 1 1 0 9; ey_part false (4303#320) 2 (5#2) 1 (1#2) 8]]].
Lemma eyo_ready : open_ready3 (eyo_dom 2) eyo_species eyo_pairs.
Proof.
  split; [reflexivity|]. cbn [o_parts eyo_pairs]. constructor; [|constructor; [|constructor]]; (split; [reflexivity|]; intros p r Hp I; change (npatches3 (eyo_dom 2)) with 2%nat in Hp; destruct p as [|[|p]]; [| |lia]; ey_in I).
Qed.
Lemma eyo_consistent D pmls l : open_consistent3 D pmls (mkStateO (fun _ => Q2Qc 0) (fun _ => Q2Qc 0) (fun _ => Q2Qc 0) (fun _ _ => Q2Qc 0) (fun _ _ => Q2Qc 0) l).
Proof.
  assert (X : aux3_are D pmls (fun _ _ _ => Q2Qc 0) (fun _ _ => Q2Qc 0)) by (intros s f p i j k _ _ _ _ _ _; reflexivity).
  split; [eexists; apply ey_field|]. split; [eexists; apply ey_field|]. split; [eexists; apply ey_cur|]. split; eexists; apply X.
Qed.
Example C112_case : forall eps n, exists s', stepso3 ey_rsqrt eps (QK 2) (eyo_dom 2) (eyo_pml 2) eyo_species (S n) eyo_pairs s' /\
  forall rank m psi mE i j k, 4 <= i < 12 -> up_Eo3 eps (QK 2) (eyo_dom 2) (eyo_pml 2) (o_B s') (o_J s') (o_E s') (o_pE s') = (m, psi) -> sync_guards3 (eyo_dom 2) rank m mE ->
    divE3 (qc_arith eps) (on_domain3 (eyo_dom 2) mE) (Q2Qc 1) (Q2Qc 1) (Q2Qc 1) i j k = (on_domain3 (eyo_dom 2) (o_J s') 3 [i; j; k] / eps)%Qc.
Proof.
  intros e n. assert (AF : all_fused eyo_species) by (constructor; [reflexivity|constructor; [reflexivity|constructor]]). pose proof (eyo_ok 2 (or_introl eq_refl)) as O1. pose proof eyo_ready as R1. pose proof (eyo_consistent (eyo_dom 2) (eyo_pml 2) (o_parts eyo_pairs)) as C1.
  destruct (C109_runs_exist ey_rsqrt ey_sub e (QK 2) _ _ _ (S n) eyo_pairs O1 AF R1 C1) as (s' & T & _). exists s'. split; [exact T|]. intros rank m psi mE i j k Hi U A.
  assert (off_layers3 (thick (QK 2)) (eyo_dom 2) i j k) as O by (split; [intros _; cbn; lia|split; discriminate]).
  refine (C112_neutral_start ey_rsqrt ey_sub e (QK 2) (eyo_dom 2) (eyo_pml 2) eyo_species (S n) eyo_pairs s' rank m psi mE i j k O1 AF R1 C1 O ltac:(lia) _ (fun _ => eq_refl) (fun _ => eq_refl) T U A).
  unfold charge_o3, charge_rows3. apply q2qc_eq. change (map particles (o_parts eyo_pairs)) with
    [[M_PartSync.row _ (ey_part false (37#5) 3 1 1 0 7); M_PartSync.row _ (ey_part false (67#5) 2 (5#2) (5#4) (1#2) 8)]; [M_PartSync.row _ (ey_part false (311#40) 3 1 (-1) 0 7); M_PartSync.row _ (ey_part false (4303#320) 2 (5#2) 1 (1#2) 8)]].
  unfold eyo_species. cbn [combine]. rewrite !qsum_cons. cbn [fst snd sp_q]. rewrite !qsum_cons. cbn [qsum fold_right].
  assert (forall r r' : prow body, charge_of_o3 (eyo_dom 2) 1 (1#2) i j k r == charge_of_o3 (eyo_dom 2) 1 (1#2) i j k r' -> charge_of_o3 (eyo_dom 2) (-1) (1#2) i j k r + charge_of_o3 (eyo_dom 2) 1 (1#2) i j k r' == 0)%Q as K.
  { intros r r' H. rewrite <- H. unfold charge_of_o3. cbv zeta. field. cbn. repeat split; lra. }
  pose proof (K (M_PartSync.row _ (ey_part false (37#5) 3 1 1 0 7)) (M_PartSync.row _ (ey_part false (311#40) 3 1 (-1) 0 7))) as K1.
  pose proof (K (M_PartSync.row _ (ey_part false (67#5) 2 (5#2) (5#4) (1#2) 8)) (M_PartSync.row _ (ey_part false (4303#320) 2 (5#2) 1 (1#2) 8))) as K2. clear K.
  assert (forall r r' : prow body, _ -> _ -> _ -> _ -> charge_of_o3 (eyo_dom 2) 1 (1#2) i j k r == charge_of_o3 (eyo_dom 2) 1 (1#2) i j k r')%Q as L by (intros r r'; exact (CO3_rw (QK 2) (eyo_dom 2) (eyo_pml 2) O1 1 (1#2) i j k r r' (1#2))).
  match type of K1 with ?a -> _ => assert a as L1 by (apply L; vm_compute; reflexivity) end. match type of K2 with ?a -> _ => assert a as L2 by (apply L; vm_compute; reflexivity) end.
  specialize (K1 L1). specialize (K2 L2). clear L L1 L2. lra.
Qed.

Print Assumptions C112_gauss.
Print Assumptions C112_stored_charge.
Print Assumptions C112_field_felt.
Print Assumptions C112_div_b.
Print Assumptions C112_neutral_start.
Print Assumptions C112_absorbed_charge.
Print Assumptions C112_case.
