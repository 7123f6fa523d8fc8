(** Whole time steps in 3D, part 8: every step can be carried out. *)
From Coq Require Import QArith Qcanon Permutation.
From Verif Require Import Base M_Layout S_Layout M_PartSync S_PartSync M_FieldSync S_FieldSync M_Maxwell S_Maxwell M_Deposit M_Push P_Layout P_PartSync P_PartSync2 P_PartSync3 Properties_FieldSync Properties_PartSync Properties_Maxwell M_Step S_Step P_Step1 P_Step2 P_Step4 P_Step5 P_Step6 P_Step7 P_Step8 M_Step3D S_Step3D P_StepD2 P_StepD4 P_StepD6 P_StepD7.
Local Open Scope list_scope.
Local Open Scope nat_scope.

Section Exists.
Variable D : domain3.
Hypothesis OK : domain3_ok D.
Local Notation n := (npatches3 D).
Lemma guards3_exist rank m : exists m', sync_guards3 D rank m m'.
Proof.
  destruct (ok3_g D OK) as (G1 & G2 & G3 & G4).
  set (NB := nbr3 (e_ax D) (e_ay D) (e_az D)).
  assert (forall sched, exists ts, guard_transfers [e_nx D; e_ny D; e_nz D] (e_ng D) n 26 opp3 NB rank 3 (mpi_types3 (e_nx D + 2 * e_ng D) (e_ny D + 2 * e_ng D) (e_nz D + 2 * e_ng D) (e_ng D)) = Some ts /\
    let threads := guard_tasks (extents [e_nx D; e_ny D; e_nz D] (e_ng D)) (local_guard3 (e_nx D) (e_ny D) (e_nz D) (e_ng D)) (here NB rank) n 3 ++ ts in
    ((forall t, (t < length threads)%nat -> (length (nth t threads []) <= count_occ Nat.eq_dec sched t)%nat) -> exists m', guard_exchange [e_nx D; e_ny D; e_nz D] (e_ng D) n 26 opp3 NB rank (Q2Qc 0) Qcplus 3 (local_guard3 (e_nx D) (e_ny D) (e_nz D) (e_ng D)) (mpi_types3 (e_nx D + 2 * e_ng D) (e_ny D + 2 * e_ng D) (e_nz D + 2 * e_ng D) (e_ng D)) sched m = Some m')) as H.
  { intro sched. exact (C11_guard_completes_3d (Q2Qc 0) Qcplus (e_nx D) (e_ny D) (e_nz D) (e_ng D) n NB rank 3 sched m ltac:(lia) G2 G3 G4 (nbr3_sym D OK)). }
  destruct (H []) as (ts & E & _). cbv zeta in H.
  set (T := guard_tasks (extents [e_nx D; e_ny D; e_nz D] (e_ng D)) (local_guard3 (e_nx D) (e_ny D) (e_nz D) (e_ng D)) (here NB rank) n 3) in *.
  destruct (H (flat_map (fun t => repeat t (length (nth t (T ++ ts) []))) (seq 0 (length (T ++ ts))))) as (ts' & E' & X).
  rewrite E in E'. apply some_eq in E'. subst ts'. destruct X as [m' X]; [intros t Ht; apply (turns (fun t => length (nth t (T ++ ts) []))); exact Ht|].
  exists m'. eexists. exact X.
Qed.
Lemma currents3_exist rank m : exists m', sync_currents3 D rank m m'.
Proof.
  destruct (ok3_g D OK) as (G1 & G2 & G3 & G4). set (NB := nbr3 (e_ax D) (e_ay D) (e_az D)).
  pose proof (fun s1 s2 => C11_current_completes_3d (Q2Qc 0) Qcplus (e_nx D) (e_ny D) (e_nz D) (e_ng D) n NB rank s1 s2 m ltac:(lia) G2 G3 G4 (nbr3_sym D OK)) as H. cbv zeta in H.
  destruct (H [] []) as (ts & E & _).
  set (T := current_tasks (extents [e_nx D; e_ny D; e_nz D] (e_ng D)) (local_currents3 (e_nx D) (e_ny D) (e_nz D) (e_ng D)) (here NB rank) n) in *.
  destruct (H (flat_map (fun t => repeat t (length (nth t T []))) (seq 0 (length T))) (flat_map (fun t => repeat t (length (nth t ts []))) (seq 0 (length ts)))) as (ts' & E' & X).
  rewrite E in E'. apply some_eq in E'. subst ts'.
  destruct X as [m' X]; [intros t Ht; apply (turns (fun t => length (nth t T []))); exact Ht|intros t Ht; apply (turns (fun t => length (nth t ts []))); exact Ht|].
  exists m'. eexists. eexists. exact X.
Qed.
Lemma particles3_exist rank st : length st = n -> exists st', sync_particles3 D rank st st'.
Proof.
  intro L. set (NB := nbr3 (e_ax D) (e_ay D) (e_az D)).
  assert (Sy : nbr_symmetric (length st) 26 opp3 NB) by (rewrite L; exact (nbr3_sym D OK)).
  assert (Rm : remote_ok (length st) 26 opp3 NB (remote_of rank NB)) by (apply remote_of_ok; auto).
  set (fresh := fun (_ _ : nat) => mkRow body None None None (mkBody 0 0 0 0 0 (mkSix 0 0 0 0 0 0)%Q 0)).
  destruct (C50_messages _ _ 26 opp3 (cl3 body) (sh3 body) (clear3 body) (geo_of3 D) NB fresh (remote_of rank NB) st Sy Rm) as (st1 & E1 & L1 & _).
  set (loc := in_process (remote_of rank NB) NB).
  assert (Sy' : nbr_symmetric (length st1) 26 opp3 loc) by (rewrite L1; apply local_sym; assumption).
  set (K := fun q => length (arrivals 26 opp3 (cl3 body) (geo_of3 D) loc st1 q) + length (nth q (extend_all (prow body) 26 opp3 loc fresh (outgoing (prow body) _ 26 (cl3 body) (geo_of3 D) st1) st1) []) + 1).
  destruct (C04_completes _ _ 26 opp3 (cl3 body) (sh3 body) (out3 body) (clear3 body) false (geo_of3 D) loc fresh st1 _ (flat_map (fun t => repeat t (K t)) (seq 0 (length st1))) (sides3 body) Sy' (Permutation_refl _)) as [st2 E2].
  { intros q Hq. pose proof (turns K (length st1) q Hq) as X. unfold K in X at 1. lia. }
  exists st2. exists fresh, st1. eexists. eexists. split; [exact E1|]. split; [apply Permutation_refl|exact E2].
Qed.
End Exists.

Lemma step3_exists rsqrt eps D sps rank s : subluminal rsqrt -> domain3_ok D -> all_fused sps -> ready3 D sps s -> consistent3 D s ->
  forall ps1, Forall2 sorted2 (t_parts s) ps1 -> exists s', step3d rsqrt eps D sps rank s s' /\ ready3 D sps s' /\ consistent3 D s'.
Proof.
  intros SUB OK U [L F] ((FE & HE) & (FB & HB) & (FJ & HJ)) ps1 S. destruct s as [mE mB mJ ps]. cbn [t_E t_B t_J t_parts] in *.
  destruct (guards3_exist D OK rank (up_E3 eps D mB mJ mE)) as [mE1 A1]. pose proof (up_E3_ok eps D OK rank FB FJ FE mB mJ mE mE1 HE HB HJ A1) as HE1.
  destruct (guards3_exist D OK rank (up_B3 eps D mE1 mB)) as [mB1 A2]. pose proof (up_B3_ok eps D OK rank _ FB mE1 mB mB1 HB HE1 A2) as HB1.
  destruct (forall2_sorted3 D ps ps1 S F) as (F1 & L1 & _).
  destruct (push_species3_ok rsqrt SUB D OK _ _ mE1 mB1 HE1 HB1 sps ps1 (reset_currents3 D mJ) U ltac:(lia) F1) as (mJ1 & ps2 & A4 & P & _).
  destruct (currents3_exist D OK rank mJ1) as [mJ2 A5].
  assert (forall st, In st ps2 -> length st = npatches3 D) as M.
  { intros st I. clear - P I. induction P as [|ss st' l l' [H _] P IH]; [destruct I|]. destruct I as [<-|I]; [exact H|exact (IH I)]. }
  destruct (forall2_exists _ (sync_particles3 D rank) ps2) as [ps3 A6]; [intros st I; apply particles3_exist; auto|].
  destruct (half_step3 rsqrt SUB D OK sps U rank _ _ mE1 mB1 mJ ps1 mJ1 ps2 mJ2 ps3 HE1 HB1 ltac:(lia) F1 A4 A5 A6) as (C & L3 & F3 & _).
  destruct (guards3_exist D OK rank (up_B3 eps D mE1 mB1)) as [mB2 A7]. pose proof (up_B3_ok eps D OK rank _ _ mE1 mB1 mB2 HB1 HE1 A7) as HB2.
  destruct (guards3_exist D OK rank (up_E3 eps D mB2 mJ2 mE1)) as [mE2 A8]. pose proof (up_E3_ok eps D OK rank _ _ _ mB2 mJ2 mE1 mE2 HE1 HB2 C A8) as HE2.
  exists (mkState2 mE2 mB2 mJ2 ps3). split; [econstructor; eassumption|]. split; [split; assumption|].
  split; [eexists; exact HE2|]. split; eexists; eassumption.
Qed.
Lemma steps3_exist rsqrt eps D sps k : subluminal rsqrt -> domain3_ok D -> all_fused sps -> forall s, ready3 D sps s -> consistent3 D s ->
  exists s', steps3d rsqrt eps D sps k s s' /\ ready3 D sps s' /\ consistent3 D s'.
Proof.
  intros SUB OK U. induction k as [|k IH]; intros s R C; [exists s; split; [constructor|auto]|].
  destruct (step3_exists rsqrt eps D sps (fun _ => 0) s SUB OK U R C _ (sorted_refl _)) as (s1 & S1 & R1 & C1).
  destruct (IH s1 R1 C1) as (s2 & S2 & R2 & C2). exists s2. split; [econstructor; eassumption|auto].
Qed.
