(** Whole time steps, part 8: every step can be carried out. *)
From Coq Require Import QArith Qcanon Permutation.
From Verif Require Import Base M_Layout S_Layout M_PartSync S_PartSync M_FieldSync S_FieldSync M_Maxwell S_Maxwell M_Deposit M_Push P_Layout P_PartSync P_PartSync2 P_PartSync3 Properties_FieldSync Properties_PartSync Properties_Maxwell M_Step S_Step P_Step1 P_Step2 P_Step4 P_Step5 P_Step6 P_Step7.
Local Open Scope list_scope.
Local Open Scope nat_scope.

Section Exists.
Variable D : domain2.
Hypothesis OK : domain_ok D.
Local Notation n := (npatches2 D).
Lemma guards_exist rank m : exists m', sync_guards D rank m m'.
Proof.
  destruct (ok_g D OK) as (G1 & G2 & G3).
  set (NB := nbr2 (d_ax D) (d_ay D)).
  assert (forall sched, exists ts, guard_transfers [d_nx D; d_ny D] (d_ng D) n 8 opp2 NB rank 3 (mpi_types2 (d_nx D + 2 * d_ng D) (d_ny D + 2 * d_ng D) (d_ng D)) = Some ts /\
    let threads := guard_tasks (extents [d_nx D; d_ny D] (d_ng D)) (local_guard2 (d_nx D) (d_ny D) (d_ng D)) (here NB rank) n 3 ++ ts in
    ((forall t, (t < length threads)%nat -> (length (nth t threads []) <= count_occ Nat.eq_dec sched t)%nat) -> exists m', guard_exchange [d_nx D; d_ny D] (d_ng D) n 8 opp2 NB rank (Q2Qc 0) Qcplus 3 (local_guard2 (d_nx D) (d_ny D) (d_ng D)) (mpi_types2 (d_nx D + 2 * d_ng D) (d_ny D + 2 * d_ng D) (d_ng D)) sched m = Some m')) as H.
  { intro sched. exact (C11_guard_completes_2d (Q2Qc 0) Qcplus (d_nx D) (d_ny D) (d_ng D) n NB rank 3 sched m ltac:(lia) G2 G3 (nbr_sym D OK)). }
  destruct (H []) as (ts & E & _). cbv zeta in H.
  set (T := guard_tasks (extents [d_nx D; d_ny D] (d_ng D)) (local_guard2 (d_nx D) (d_ny D) (d_ng D)) (here NB rank) n 3) in *.
  destruct (H (flat_map (fun t => repeat t (length (nth t (T ++ ts) []))) (seq 0 (length (T ++ ts))))) as (ts' & E' & X).
  rewrite E in E'. apply some_eq in E'. subst ts'. destruct X as [m' X]; [intros t Ht; apply (turns (fun t => length (nth t (T ++ ts) []))); exact Ht|].
  exists m'. eexists. exact X.
Qed.
Lemma currents_exist rank m : exists m', sync_currents2 D rank m m'.
Proof.
  destruct (ok_g D OK) as (G1 & G2 & G3). set (NB := nbr2 (d_ax D) (d_ay D)).
  pose proof (fun s1 s2 => C11_current_completes_2d (Q2Qc 0) Qcplus (d_nx D) (d_ny D) (d_ng D) n NB rank s1 s2 m ltac:(lia) G2 G3 (nbr_sym D OK)) as H. cbv zeta in H.
  destruct (H [] []) as (ts & E & _).
  set (T := current_tasks (extents [d_nx D; d_ny D] (d_ng D)) (local_currents2 (d_nx D) (d_ny D) (d_ng D)) (here NB rank) n) in *.
  destruct (H (flat_map (fun t => repeat t (length (nth t T []))) (seq 0 (length T))) (flat_map (fun t => repeat t (length (nth t ts []))) (seq 0 (length ts)))) as (ts' & E' & X).
  rewrite E in E'. apply some_eq in E'. subst ts'.
  destruct X as [m' X]; [intros t Ht; apply (turns (fun t => length (nth t T []))); exact Ht|intros t Ht; apply (turns (fun t => length (nth t ts []))); exact Ht|].
  exists m'. eexists. eexists. exact X.
Qed.
Lemma particles_exist rank st : length st = n -> exists st', sync_particles2 D rank st st'.
Proof.
  intro L. set (NB := nbr2 (d_ax D) (d_ay D)).
  assert (Sy : nbr_symmetric (length st) 8 opp2 NB) by (rewrite L; exact (nbr_sym D OK)).
  assert (Rm : remote_ok (length st) 8 opp2 NB (remote_of rank NB)) by (apply remote_of_ok; auto).
  set (fresh := fun (_ _ : nat) => mkRow body None None None (mkBody 0 0 0 0 0 (mkSix 0 0 0 0 0 0)%Q 0)).
  destruct (C50_messages _ _ 8 opp2 (cl2 body) (sh2 body) (clear2 body) (geo_of D) NB fresh (remote_of rank NB) st Sy Rm) as (st1 & E1 & L1 & _).
  set (loc := in_process (remote_of rank NB) NB).
  assert (Sy' : nbr_symmetric (length st1) 8 opp2 loc) by (rewrite L1; apply local_sym; assumption).
  set (K := fun q => length (arrivals 8 opp2 (cl2 body) (geo_of D) loc st1 q) + length (nth q (extend_all (prow body) 8 opp2 loc fresh (outgoing (prow body) _ 8 (cl2 body) (geo_of D) st1) st1) []) + 1).
  destruct (C04_completes _ _ 8 opp2 (cl2 body) (sh2 body) (out2 body) (clear2 body) false (geo_of D) loc fresh st1 _ (flat_map (fun t => repeat t (K t)) (seq 0 (length st1))) (sides2 body) Sy' (Permutation_refl _)) as [st2 E2].
  { intros q Hq. pose proof (turns K (length st1) q Hq) as X. unfold K in X at 1. lia. }
  exists st2. exists fresh, st1. eexists. eexists. split; [exact E1|]. split; [apply Permutation_refl|exact E2].
Qed.
End Exists.

Lemma forall2_exists (A : Type) (P : A -> A -> Prop) l : (forall x, In x l -> exists y, P x y) -> exists l', Forall2 P l l'.
Proof. induction l as [|x l IH]; intro H; [exists []; constructor|]. destruct (H x (or_introl eq_refl)) as [y Hy]. destruct IH as [l' F]; [intros z I; apply H; right; exact I|]. exists (y :: l'). constructor; assumption. Qed.

Lemma step_exists rsqrt eps D sps rank s : subluminal rsqrt -> domain_ok D -> ready D sps s -> consistent D s ->
  forall ps1, Forall2 sorted2 (t_parts s) ps1 -> exists s', step2 rsqrt eps D sps rank s s' /\ ready D sps s' /\ consistent D s'.
Proof.
  intros SUB OK [L F] ((FE & HE) & (FB & HB) & (FJ & HJ)) ps1 S. destruct s as [mE mB mJ ps]. cbn [t_E t_B t_J t_parts] in *.
  destruct (guards_exist D OK rank (up_E eps D mB mJ mE)) as [mE1 A1]. pose proof (up_E_ok eps D OK rank FB FJ FE mB mJ mE mE1 HE HB HJ A1) as HE1.
  destruct (guards_exist D OK rank (up_B eps D mE1 mB)) as [mB1 A2]. pose proof (up_B_ok eps D OK rank _ FB mE1 mB mB1 HB HE1 A2) as HB1.
  destruct (forall2_sorted D ps ps1 S F) as (F1 & L1 & _).
  destruct (push_species_ok rsqrt SUB D OK _ _ mE1 mB1 HE1 HB1 sps ps1 (reset_currents D mJ) ltac:(lia) F1) as (mJ1 & ps2 & A4 & P & _).
  destruct (currents_exist D OK rank mJ1) as [mJ2 A5].
  assert (forall st, In st ps2 -> length st = npatches2 D) as M.
  { intros st I. clear - P I. induction P as [|ss st' l l' [H _] P IH]; [destruct I|]. destruct I as [<-|I]; [exact H|exact (IH I)]. }
  destruct (forall2_exists _ (sync_particles2 D rank) ps2) as [ps3 A6]; [intros st I; apply particles_exist; auto|].
  destruct (half_step rsqrt SUB D OK sps rank _ _ mE1 mB1 mJ ps1 mJ1 ps2 mJ2 ps3 HE1 HB1 ltac:(lia) F1 A4 A5 A6) as (C & L3 & F3 & _).
  destruct (guards_exist D OK rank (up_B eps D mE1 mB1)) as [mB2 A7]. pose proof (up_B_ok eps D OK rank _ _ mE1 mB1 mB2 HB1 HE1 A7) as HB2.
  destruct (guards_exist D OK rank (up_E eps D mB2 mJ2 mE1)) as [mE2 A8]. pose proof (up_E_ok eps D OK rank _ _ _ mB2 mJ2 mE1 mE2 HE1 HB2 C A8) as HE2.
  exists (mkState2 mE2 mB2 mJ2 ps3). split; [econstructor; eassumption|]. split; [split; assumption|].
  split; [eexists; exact HE2|]. split; eexists; eassumption.
Qed.
Lemma sorted_refl ps : Forall2 sorted2 ps ps.
Proof. induction ps as [|st ps IH]; constructor; [|exact IH]. unfold sorted2. induction st; constructor; auto. Qed.
Lemma steps_exist rsqrt eps D sps k : subluminal rsqrt -> domain_ok D -> forall s, ready D sps s -> consistent D s ->
  exists s', steps2 rsqrt eps D sps k s s' /\ ready D sps s' /\ consistent D s'.
Proof.
  intros SUB OK. induction k as [|k IH]; intros s R C; [exists s; split; [constructor|auto]|].
  destruct (step_exists rsqrt eps D sps (fun _ => 0) s SUB OK R C _ (sorted_refl _)) as (s1 & S1 & R1 & C1).
  destruct (IH s1 R1 C1) as (s2 & S2 & R2 & C2). exists s2. split; [econstructor; eassumption|auto].
Qed.
