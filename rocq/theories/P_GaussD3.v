(** Gauss' law over whole runs in 3D, part 3: the total charge3. *)
From Coq Require Import QArith Qabs Qround Qcanon Permutation Lqa.
From Verif Require Import Base M_Layout S_Layout M_PartSync S_PartSync M_FieldSync S_FieldSync M_Maxwell S_Maxwell M_Deposit S_Deposit M_Push P_Layout P_Deposit P_Deposit2 P_Deposit5 P_Deposit9 P_FieldGeo P_Push M_Step S_Step P_Step1 P_Step2 P_Step3 P_Step4 P_Step5 P_Step6 P_Step7 S_Gauss P_Gauss1 P_Gauss2 P_Gauss3 M_Step3D S_Step3D P_StepD1 P_StepD2 P_StepD3 P_StepD4 P_StepD5 P_StepD6 P_StepD7 P_StepD8 S_Gauss3D P_GaussD1 P_GaussD2.
Local Open Scope list_scope.
Local Open Scope Z_scope.

Section Total.
Variable D : domain3.
Hypothesis OK : domain3_ok D.
Local Notation Nx := (cells3_x D). Local Notation Ny := (cells3_y D). Local Notation Nz := (cells3_z D).
Lemma charge_of3_total q h r : (qsum (fun i => qsum (fun j => qsum (fun k => charge_of3 D q h i j k r) (points Nz)) (points Ny)) (points Nx) == q * b_w (other _ r) / (e_dx D * e_dy D * e_dz D))%Q.
Proof.
  destruct (cells3_pos D OK) as (P1 & P2 & P3). unfold charge_of3. cbv zeta. rewrite qsum_mult_sep3, !share_all by assumption. ring.
Qed.
Definition wtotal3 (sps : list species) (pss : list (list (list prt))) : Q :=
  qsum (fun ss => qsum (fun r => sp_q (fst ss) * b_w (other _ r) / (e_dx D * e_dy D * e_dz D))%Q (particles (snd ss))) (combine sps pss).
Lemma csum3_total sps h pss : (qsum (fun i => qsum (fun j => qsum (fun k => csum3 D sps h i j k pss) (points Nz)) (points Ny)) (points Nx) == wtotal3 sps pss)%Q.
Proof.
  unfold csum3, wtotal3.
  rewrite (qsum_ext _ (fun i => qsum (fun ss => qsum (fun r => qsum (fun j => qsum (fun k => charge_of3 D (sp_q (fst ss)) h i j k r) (points Nz)) (points Ny)) (particles (snd ss))) (combine sps pss))).
  - rewrite qsum_swap. apply qsum_ext. intros ss _. rewrite qsum_swap. apply qsum_ext. intros r _. apply charge_of3_total.
  - intros i _. rewrite (qsum_ext _ (fun j => qsum (fun ss => qsum (fun r => qsum (fun k => charge_of3 D (sp_q (fst ss)) h i j k r) (points Nz)) (particles (snd ss))) (combine sps pss))).
    + rewrite qsum_swap. apply qsum_ext. intros ss _. apply qsum_swap.
    + intros j _. rewrite qsum_swap. apply qsum_ext. intros ss _. apply qsum_swap.
Qed.
(** weights are kept *)
Lemma w_grow3 rsqrt sp FE FB r : b_w (other _ (grow3 rsqrt Nx Ny Nz (e_dx D) (e_dy D) (e_dz D) (e_dt D) sp FE FB r)) = b_w (other _ r).
Proof. reflexivity. Qed.
Definition wq3 (q : Q) (r : prow body) : Q := (q * b_w (other _ r) / (e_dx D * e_dy D * e_dz D))%Q.
Lemma wq3_canon q r r' : canon r = canon r' -> (wq3 q r == wq3 q r')%Q.
Proof. intro E. unfold wq3. rewrite (w_canon _ _ E). reflexivity. Qed.
Lemma wsum3_canon q l : (qsum (wq3 q) l == qsum (wq3 q) (map canon l))%Q.
Proof. rewrite qsum_map. apply qsum_ext. intros r _. apply wq3_canon. symmetry. apply canon_idem. Qed.
Lemma wtotal3_sorted sps pss pss' : Forall2 (fun st st' => Permutation (particles st) (particles st')) pss pss' -> (wtotal3 sps pss == wtotal3 sps pss')%Q.
Proof.
  intro F. unfold wtotal3. revert sps. induction F as [|st st' pss pss' H F IH]; intros [|sp sps]; try reflexivity. cbn [combine]. rewrite !qsum_cons, IH. cbn [fst snd].
  apply Qplus_comp; [|reflexivity]. apply qsum_perm. exact H.
Qed.
Lemma wtotal3_wrapped sps pss pss' :
  Forall2 (fun st2 st3 => Permutation (map canon (particles st3)) (map (fun r => canon (gwrap3 Nx Ny Nz (e_dx D) (e_dy D) (e_dz D) r)) (particles st2))) pss pss' -> (wtotal3 sps pss == wtotal3 sps pss')%Q.
Proof.
  intro F. unfold wtotal3. revert sps. induction F as [|st st' pss pss' H F IH]; intros [|sp sps]; try reflexivity. cbn [combine]. rewrite !qsum_cons, IH. cbn [fst snd].
  apply Qplus_comp; [|reflexivity]. fold (wq3 (sp_q sp)). change (qsum (wq3 (sp_q sp)) (particles st) == qsum (wq3 (sp_q sp)) (particles st'))%Q.
  rewrite (wsum3_canon _ (particles st')), (qsum_perm _ _ _ H), qsum_map. apply qsum_ext. intros r _.
  rewrite (wq3_canon _ (canon (gwrap3 Nx Ny Nz (e_dx D) (e_dy D) (e_dz D) r)) (gwrap3 Nx Ny Nz (e_dx D) (e_dy D) (e_dz D) r)) by apply canon_idem. reflexivity.
Qed.
Lemma wtotal3_grown rsqrt FE FB sps pss pss' : length pss = length sps ->
  Forall2 (fun ss st2 => map canon (particles st2) = map (fun r => canon (grow3 rsqrt Nx Ny Nz (e_dx D) (e_dy D) (e_dz D) (e_dt D) (fst ss) FE FB r)) (particles (snd ss))) (combine sps pss) pss' ->
  (wtotal3 sps pss' == wtotal3 sps pss)%Q.
Proof.
  unfold wtotal3. revert pss pss'. induction sps as [|sp sps IH]; intros [|st pss] pss' L F; cbn [length] in L; try lia; cbn [combine] in F; inversion F as [|? st2 ? pss2 H1 H2]; subst; cbn [combine].
  { reflexivity. }
  rewrite !qsum_cons. cbn [fst snd] in *. rewrite (IH pss pss2) by (auto; lia). apply Qplus_comp; [|reflexivity].
  change (qsum (wq3 (sp_q sp)) (particles st2) == qsum (wq3 (sp_q sp)) (particles st))%Q. rewrite wsum3_canon, H1, qsum_map. apply qsum_ext. intros r _.
  rewrite (wq3_canon _ (canon (grow3 rsqrt Nx Ny Nz (e_dx D) (e_dy D) (e_dz D) (e_dt D) sp FE FB r)) (grow3 rsqrt Nx Ny Nz (e_dx D) (e_dy D) (e_dz D) (e_dt D) sp FE FB r)) by apply canon_idem. reflexivity.
Qed.
Variable rsqrt : Q -> Q.
Hypothesis SUB : subluminal rsqrt.
Variable eps : Qc.
Variable sps : list species.
Hypothesis U : all_fused sps.
Lemma wtotal3_step rank s s' : ready3 D sps s -> consistent3 D s -> step3d rsqrt eps D sps rank s s' -> (wtotal3 sps (t_parts s') == wtotal3 sps (t_parts s))%Q.
Proof.
  intros [L F] ((FE & HE) & (FB & HB) & FJ & HJ) S.
  destruct S as [mE mB mJ ps mE1 mB1 ps1 mJ1 ps2 mJ2 ps3 mB2 mE2 A1 A2 A3 A4 A5 A6 A7 A8]. cbn [t_E t_B t_J t_parts] in *.
  pose proof (up_E3_ok eps D OK rank FB FJ FE mB mJ mE mE1 HE HB HJ A1) as HE1.
  pose proof (up_B3_ok eps D OK rank _ FB mE1 mB mB1 HB HE1 A2) as HB1.
  destruct (forall2_sorted3 D ps ps1 A3 F) as (F1 & L1 & Q1).
  destruct (half_step3 rsqrt SUB D OK sps U rank _ _ mE1 mB1 mJ ps1 mJ1 ps2 mJ2 ps3 HE1 HB1 ltac:(lia) F1 A4 A5 A6) as (C & L3 & F3 & G & W).
  rewrite <- (wtotal3_wrapped sps ps2 ps3 W), (wtotal3_grown rsqrt _ _ sps ps1 ps2 ltac:(lia) G). symmetry. apply wtotal3_sorted. exact Q1.
Qed.
Lemma wtotal3_steps k : forall s s', ready3 D sps s -> consistent3 D s -> steps3d rsqrt eps D sps k s s' -> (wtotal3 sps (t_parts s') == wtotal3 sps (t_parts s))%Q.
Proof.
  induction k as [|k IH]; intros s s' R C T; inversion T as [|k' rank s0 s1 s2 T1 T2]; subst; [reflexivity|].
  destruct (defect3_step rsqrt SUB eps D OK sps U rank s s1 0 0 0 R C T1) as (_ & _ & _ & R1 & C1). rewrite (IH s1 s' R1 C1 T2). apply (wtotal3_step rank); assumption.
Qed.
Lemma total_stored3 m s s' : ready3 D sps s -> consistent3 D s -> (0 < m)%nat -> steps3d rsqrt eps D sps m s s' ->
  (qsum (fun i => qsum (fun j => qsum (fun k => this (on_domain3 D (t_J s') 3 [i; j; k])) (points Nz)) (points Ny)) (points Nx) == wtotal3 sps (t_parts s))%Q.
Proof.
  intros R C K T. rewrite <- (wtotal3_steps m s s' R C T), <- (csum3_total sps (1#2)). apply qsum_ext. intros i _. apply qsum_ext. intros j _. apply qsum_ext. intros k _.
  destruct (defect3_steps rsqrt SUB eps D OK sps U m s s' i j k R C T) as (_ & _ & E & _). rewrite (E K). unfold charge3. apply this_q2qc.
Qed.
End Total.
