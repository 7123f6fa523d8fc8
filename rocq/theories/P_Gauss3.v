(** Gauss' law over whole runs, part 3: the total charge. *)
From Coq Require Import QArith Qabs Qround Qcanon Permutation Lqa.
From Verif Require Import Base M_Layout S_Layout M_PartSync S_PartSync M_FieldSync S_FieldSync M_Maxwell S_Maxwell M_Deposit S_Deposit M_Push P_Layout P_Deposit P_Deposit2 P_Deposit5 P_Deposit9 P_FieldGeo P_Push M_Step S_Step P_Step1 P_Step2 P_Step3 P_Step4 P_Step5 P_Step6 P_Step7 S_Gauss P_Gauss1 P_Gauss2.
Local Open Scope list_scope.
Local Open Scope Z_scope.

Section Total.
Variable D : domain2.
Hypothesis OK : domain_ok D.
Local Notation Nx := (cells_x D). Local Notation Ny := (cells_y D).
Lemma share_all n X : 0 < n -> (qsum (fun a => periodic_share n a X) (points n) == 1)%Q.
Proof.
  intro H. rewrite <- (share_total n X (Qfloor X - 2) 6 H (covers_here X)). apply qsum_ext. intros a I. apply points_in in I. unfold periodic_share. rewrite Z.mod_small by lia. reflexivity.
Qed.
Lemma charge_of_total q h r : (qsum (fun i => qsum (fun j => charge_of D q h i j r) (points Ny)) (points Nx) == q * b_w (other _ r) / (d_dx D * d_dy D))%Q.
Proof.
  destruct (cells_pos D OK) as [P1 P2]. unfold charge_of. cbv zeta. rewrite qsum_mult_sep, !share_all by assumption. ring.
Qed.
Definition wtotal (sps : list species) (pss : list (list (list prt))) : Q :=
  qsum (fun ss => qsum (fun r => sp_q (fst ss) * b_w (other _ r) / (d_dx D * d_dy D))%Q (particles (snd ss))) (combine sps pss).
Lemma csum_total sps h pss : (qsum (fun i => qsum (fun j => csum D sps h i j pss) (points Ny)) (points Nx) == wtotal sps pss)%Q.
Proof.
  unfold csum, wtotal.
  rewrite (qsum_ext _ (fun i => qsum (fun ss => qsum (fun r => qsum (fun j => charge_of D (sp_q (fst ss)) h i j r) (points Ny)) (particles (snd ss))) (combine sps pss))).
  - rewrite qsum_swap. apply qsum_ext. intros ss _. rewrite qsum_swap. apply qsum_ext. intros r _. apply charge_of_total.
  - intros i _. rewrite qsum_swap. apply qsum_ext. intros ss _. apply qsum_swap.
Qed.
(** weights are kept *)
Lemma w_canon r r' : canon r = canon r' -> (b_w (other _ r) == b_w (other _ r'))%Q.
Proof. intro E. destruct (canon_load r r' E) as [P _]. destruct P as (_ & _ & _ & _ & _ & _ & _ & E8 & _). exact E8. Qed.
Lemma w_grow rsqrt sp FE FB r : b_w (other _ (grow rsqrt Nx Ny (d_dx D) (d_dy D) (d_dt D) sp FE FB r)) = b_w (other _ r).
Proof. reflexivity. Qed.
Definition wq (q : Q) (r : prow body) : Q := (q * b_w (other _ r) / (d_dx D * d_dy D))%Q.
Lemma wq_canon q r r' : canon r = canon r' -> (wq q r == wq q r')%Q.
Proof. intro E. unfold wq. rewrite (w_canon _ _ E). reflexivity. Qed.
Lemma wsum_canon q l : (qsum (wq q) l == qsum (wq q) (map canon l))%Q.
Proof. rewrite qsum_map. apply qsum_ext. intros r _. apply wq_canon. symmetry. apply canon_idem. Qed.
Lemma wtotal_sorted sps pss pss' : Forall2 (fun st st' => Permutation (particles st) (particles st')) pss pss' -> (wtotal sps pss == wtotal sps pss')%Q.
Proof.
  intro F. unfold wtotal. revert sps. induction F as [|st st' pss pss' H F IH]; intros [|sp sps]; try reflexivity. cbn [combine]. rewrite !qsum_cons, IH. cbn [fst snd].
  apply Qplus_comp; [|reflexivity]. apply qsum_perm. exact H.
Qed.
Lemma wtotal_wrapped sps pss pss' :
  Forall2 (fun st2 st3 => Permutation (map canon (particles st3)) (map (fun r => canon (gwrap Nx Ny (d_dx D) (d_dy D) r)) (particles st2))) pss pss' -> (wtotal sps pss == wtotal sps pss')%Q.
Proof.
  intro F. unfold wtotal. revert sps. induction F as [|st st' pss pss' H F IH]; intros [|sp sps]; try reflexivity. cbn [combine]. rewrite !qsum_cons, IH. cbn [fst snd].
  apply Qplus_comp; [|reflexivity]. fold (wq (sp_q sp)). change (qsum (wq (sp_q sp)) (particles st) == qsum (wq (sp_q sp)) (particles st'))%Q.
  rewrite (wsum_canon _ (particles st')), (qsum_perm _ _ _ H), qsum_map. apply qsum_ext. intros r _.
  rewrite (wq_canon _ (canon (gwrap Nx Ny (d_dx D) (d_dy D) r)) (gwrap Nx Ny (d_dx D) (d_dy D) r)) by apply canon_idem. reflexivity.
Qed.
Lemma wtotal_grown rsqrt FE FB sps pss pss' : length pss = length sps ->
  Forall2 (fun ss st2 => map canon (particles st2) = map (fun r => canon (grow rsqrt Nx Ny (d_dx D) (d_dy D) (d_dt D) (fst ss) FE FB r)) (particles (snd ss))) (combine sps pss) pss' ->
  (wtotal sps pss' == wtotal sps pss)%Q.
Proof.
  unfold wtotal. revert pss pss'. induction sps as [|sp sps IH]; intros [|st pss] pss' L F; cbn [length] in L; try lia; cbn [combine] in F; inversion F as [|? st2 ? pss2 H1 H2]; subst; cbn [combine].
  { reflexivity. }
  rewrite !qsum_cons. cbn [fst snd] in *. rewrite (IH pss pss2) by (auto; lia). apply Qplus_comp; [|reflexivity].
  change (qsum (wq (sp_q sp)) (particles st2) == qsum (wq (sp_q sp)) (particles st))%Q. rewrite wsum_canon, H1, qsum_map. apply qsum_ext. intros r _.
  rewrite (wq_canon _ (canon (grow rsqrt Nx Ny (d_dx D) (d_dy D) (d_dt D) sp FE FB r)) (grow rsqrt Nx Ny (d_dx D) (d_dy D) (d_dt D) sp FE FB r)) by apply canon_idem. reflexivity.
Qed.
Variable rsqrt : Q -> Q.
Hypothesis SUB : subluminal rsqrt.
Variable eps : Qc.
Variable sps : list species.
Lemma wtotal_step rank s s' : ready D sps s -> consistent D s -> step2 rsqrt eps D sps rank s s' -> (wtotal sps (t_parts s') == wtotal sps (t_parts s))%Q.
Proof.
  intros [L F] ((FE & HE) & (FB & HB) & FJ & HJ) S.
  destruct S as [mE mB mJ ps mE1 mB1 ps1 mJ1 ps2 mJ2 ps3 mB2 mE2 A1 A2 A3 A4 A5 A6 A7 A8]. cbn [t_E t_B t_J t_parts] in *.
  pose proof (up_E_ok eps D OK rank FB FJ FE mB mJ mE mE1 HE HB HJ A1) as HE1.
  pose proof (up_B_ok eps D OK rank _ FB mE1 mB mB1 HB HE1 A2) as HB1.
  destruct (forall2_sorted D ps ps1 A3 F) as (F1 & L1 & Q1).
  destruct (half_step rsqrt SUB D OK sps rank _ _ mE1 mB1 mJ ps1 mJ1 ps2 mJ2 ps3 HE1 HB1 ltac:(lia) F1 A4 A5 A6) as (C & L3 & F3 & G & W).
  rewrite <- (wtotal_wrapped sps ps2 ps3 W), (wtotal_grown rsqrt _ _ sps ps1 ps2 ltac:(lia) G). symmetry. apply wtotal_sorted. exact Q1.
Qed.
Lemma wtotal_steps k : forall s s', ready D sps s -> consistent D s -> steps2 rsqrt eps D sps k s s' -> (wtotal sps (t_parts s') == wtotal sps (t_parts s))%Q.
Proof.
  induction k as [|k IH]; intros s s' R C T; inversion T as [|k' rank s0 s1 s2 T1 T2]; subst; [reflexivity|].
  destruct (defect_step rsqrt SUB eps D OK sps rank s s1 0 0 R C T1) as (_ & _ & _ & R1 & C1). rewrite (IH s1 s' R1 C1 T2). apply (wtotal_step rank); assumption.
Qed.
Lemma total_stored k s s' : ready D sps s -> consistent D s -> (0 < k)%nat -> steps2 rsqrt eps D sps k s s' ->
  (qsum (fun i => qsum (fun j => this (on_domain D (t_J s') 3 [i; j])) (points Ny)) (points Nx) == wtotal sps (t_parts s))%Q.
Proof.
  intros R C K T. rewrite <- (wtotal_steps k s s' R C T), <- (csum_total sps (1#2)). apply qsum_ext. intros i _. apply qsum_ext. intros j _.
  destruct (defect_steps rsqrt SUB eps D OK sps k s s' i j R C T) as (_ & _ & E & _). rewrite (E K). unfold charge. apply this_q2qc.
Qed.
End Total.
