(** Whole 3D time steps with open sides, part 5: every step can be carried out; what happens to the particles. *)
From Coq Require Import QArith Qabs Qcanon Permutation Lqa.
From Verif Require Import Base M_Layout S_Layout M_PartSync S_PartSync M_FieldSync S_FieldSync M_Maxwell S_Maxwell M_Cpml S_Cpml M_Deposit M_Push P_Layout P_PartSync P_PartSync2 P_PartSync3 Properties_FieldSync Properties_PartSync Properties_Maxwell M_Step S_Step M_Step3D S_Step3D M_StepO S_StepO M_StepO3D S_StepO3D P_Push P_Step1 P_Step2 P_Step3 P_Step4 P_Step5 P_Step6 P_Step7 P_Step8 P_StepD1 P_StepD2 P_StepD3 P_StepD4 P_StepD5 P_StepD6 P_StepD7 P_StepD8 P_StepO1 P_StepO3 P_StepO4 P_StepO5 P_StepQ1 P_StepQ2 P_StepQ3 P_StepQ4.
Local Open Scope list_scope.
Local Open Scope nat_scope.

Section Exists.
Variable K : layer Qc. Variable D : domain3. Variable pmls : nat -> list pml_side.
Hypothesis OK : open3_ok K D pmls.
Local Notation n := (npatches3 D).
Lemma oguards3_exist rank m : exists m', sync_guards3 D rank m m'.
Proof.
  destruct (oo3_g K D pmls OK) as (G1 & G2 & G3 & G4).
  set (NB := nbr3 (e_ax D) (e_ay D) (e_az D)).
  assert (forall sched, exists ts, guard_transfers [e_nx D; e_ny D; e_nz D] (e_ng D) n 26 opp3 NB rank 3 (mpi_types3 (e_nx D + 2 * e_ng D) (e_ny D + 2 * e_ng D) (e_nz D + 2 * e_ng D) (e_ng D)) = Some ts /\
    let threads := guard_tasks (extents [e_nx D; e_ny D; e_nz D] (e_ng D)) (local_guard3 (e_nx D) (e_ny D) (e_nz D) (e_ng D)) (here NB rank) n 3 ++ ts in
    ((forall t, (t < length threads)%nat -> (length (nth t threads []) <= count_occ Nat.eq_dec sched t)%nat) -> exists m', guard_exchange [e_nx D; e_ny D; e_nz D] (e_ng D) n 26 opp3 NB rank (Q2Qc 0) Qcplus 3 (local_guard3 (e_nx D) (e_ny D) (e_nz D) (e_ng D)) (mpi_types3 (e_nx D + 2 * e_ng D) (e_ny D + 2 * e_ng D) (e_nz D + 2 * e_ng D) (e_ng D)) sched m = Some m')) as H.
  { intro sched. exact (C11_guard_completes_3d (Q2Qc 0) Qcplus (e_nx D) (e_ny D) (e_nz D) (e_ng D) n NB rank 3 sched m ltac:(lia) G2 G3 G4 (onbr3_sym K D pmls OK)). }
  destruct (H []) as (ts & E & _). cbv zeta in H.
  set (T := guard_tasks (extents [e_nx D; e_ny D; e_nz D] (e_ng D)) (local_guard3 (e_nx D) (e_ny D) (e_nz D) (e_ng D)) (here NB rank) n 3) in *.
  destruct (H (flat_map (fun t => repeat t (length (nth t (T ++ ts) []))) (seq 0 (length (T ++ ts))))) as (ts' & E' & X).
  rewrite E in E'. apply some_eq in E'. subst ts'. destruct X as [m' X]; [intros t Ht; apply (turns (fun t => length (nth t (T ++ ts) []))); exact Ht|].
  exists m'. eexists. exact X.
Qed.
Lemma ocurrents3_exist rank m : exists m', sync_currents3 D rank m m'.
Proof.
  destruct (oo3_g K D pmls OK) as (G1 & G2 & G3 & G4). set (NB := nbr3 (e_ax D) (e_ay D) (e_az D)).
  pose proof (fun s1 s2 => C11_current_completes_3d (Q2Qc 0) Qcplus (e_nx D) (e_ny D) (e_nz D) (e_ng D) n NB rank s1 s2 m ltac:(lia) G2 G3 G4 (onbr3_sym K D pmls OK)) as H. cbv zeta in H.
  destruct (H [] []) as (ts & E & _).
  set (T := current_tasks (extents [e_nx D; e_ny D; e_nz D] (e_ng D)) (local_currents3 (e_nx D) (e_ny D) (e_nz D) (e_ng D)) (here NB rank) n) in *.
  destruct (H (flat_map (fun t => repeat t (length (nth t T []))) (seq 0 (length T))) (flat_map (fun t => repeat t (length (nth t ts []))) (seq 0 (length ts)))) as (ts' & E' & X).
  rewrite E in E'. apply some_eq in E'. subst ts'.
  destruct X as [m' X]; [intros t Ht; apply (turns (fun t => length (nth t T []))); exact Ht|intros t Ht; apply (turns (fun t => length (nth t ts []))); exact Ht|].
  exists m'. eexists. eexists. exact X.
Qed.
Lemma oparticles3_exist rank st : length st = n -> exists st', sync_particles_open3 K D rank st st'.
Proof.
  intro L. set (NB := nbr3 (e_ax D) (e_ay D) (e_az D)).
  assert (Sy : nbr_symmetric (length st) 26 opp3 NB) by (rewrite L; exact (onbr3_sym K D pmls OK)).
  assert (Rm : remote_ok (length st) 26 opp3 NB (remote_of rank NB)) by (apply remote_of_ok; auto).
  set (fresh := fun (_ _ : nat) => mkRow body None None None (mkBody 0 0 0 0 0 (mkSix 0 0 0 0 0 0)%Q 0)).
  destruct (C50_messages _ _ 26 opp3 (cl3 body) (sh3 body) (clear3 body) (geo_open3 K D) NB fresh (remote_of rank NB) st Sy Rm) as (st1 & E1 & L1 & _).
  set (loc := in_process (remote_of rank NB) NB).
  assert (Sy' : nbr_symmetric (length st1) 26 opp3 loc) by (rewrite L1; apply local_sym; assumption).
  set (KK := fun q => length (arrivals 26 opp3 (cl3 body) (geo_open3 K D) loc st1 q) + length (nth q (extend_all (prow body) 26 opp3 loc fresh (outgoing (prow body) _ 26 (cl3 body) (geo_open3 K D) st1) st1) []) + 1).
  destruct (C04_completes _ _ 26 opp3 (cl3 body) (sh3 body) (out3 body) (clear3 body) false (geo_open3 K D) loc fresh st1 _ (flat_map (fun t => repeat t (KK t)) (seq 0 (length st1))) (P_PartSync3.sides3 body) Sy' (Permutation_refl _)) as [st2 E2].
  { intros q Hq. pose proof (turns KK (length st1) q Hq) as X. unfold KK in X at 1. lia. }
  exists st2. exists fresh, st1. eexists. eexists. split; [exact E1|]. split; [apply Permutation_refl|exact E2].
Qed.
End Exists.

Lemma ostep3_exists rsqrt eps K D pmls sps rank s : subluminal rsqrt -> open3_ok K D pmls -> all_fused sps -> open_ready3 D sps s -> open_consistent3 D pmls s ->
  forall ps1, Forall2 sorted2 (o_parts s) ps1 -> exists s', stepo3 rsqrt eps K D pmls sps rank s s' /\ open_ready3 D sps s' /\ open_consistent3 D pmls s'.
Proof.
  intros SUB OK AF [L F] ((FE & HE) & (FB & HB) & (FJ & HJ) & (PE & XE) & (PB & XB)) ps1 S. destruct s as [mE mB mJ pE pB ps]. cbn [o_E o_B o_J o_pE o_pB o_parts] in *.
  destruct (up_Eo3 eps K D pmls mB mJ mE pE) as [mE0 pE1] eqn:U1.
  destruct (oguards3_exist K D pmls OK rank mE0) as [mE1 A1]. destruct (up_Eo3_ok eps K D pmls OK rank FB FJ FE PE mB mJ mE pE mE0 pE1 mE1 HE HB HJ XE U1 A1) as [HE1 XE1].
  destruct (up_Bo3 eps K D pmls mE1 mB pB) as [mB0 pB1] eqn:U2.
  destruct (oguards3_exist K D pmls OK rank mB0) as [mB1 A2]. destruct (up_Bo3_ok eps K D pmls OK rank _ FB PB mE1 mB pB mB0 pB1 mB1 HB HE1 XB U2 A2) as [HB1 XB1].
  destruct (forall2_sorted3 D ps ps1 S F) as (F1 & L1 & _).
  destruct (opush_species3_ok rsqrt SUB K D pmls OK _ _ mE1 mB1 HE1 HB1 sps ps1 (reset_currents3 D mJ) AF ltac:(lia) F1) as (mJ1 & ps2 & A4 & P & _).
  destruct (ocurrents3_exist K D pmls OK rank mJ1) as [mJ2 A5].
  assert (forall st, In st ps2 -> length st = npatches3 D) as M.
  { intros st I. clear - P I. induction P as [|ss st' l l' [H _] P IH]; [destruct I|]. destruct I as [<-|I]; [exact H|exact (IH I)]. }
  destruct (forall2_exists _ (sync_particles_open3 K D rank) ps2) as [ps3 A6]; [intros st I; apply (oparticles3_exist K D pmls OK); auto|].
  destruct (ohalf_step3 rsqrt SUB K D pmls OK sps AF rank _ _ mE1 mB1 mJ ps1 mJ1 ps2 mJ2 ps3 HE1 HB1 ltac:(lia) F1 A4 A5 A6) as (C & L3 & F3 & _).
  destruct (up_Bo3 eps K D pmls mE1 mB1 pB1) as [mBi pB2] eqn:U3.
  destruct (oguards3_exist K D pmls OK rank mBi) as [mB2 A7]. destruct (up_Bo3_ok eps K D pmls OK rank _ _ _ mE1 mB1 pB1 mBi pB2 mB2 HB1 HE1 XB1 U3 A7) as [HB2 XB2].
  destruct (up_Eo3 eps K D pmls mB2 mJ2 mE1 pE1) as [mEi pE2] eqn:U4.
  destruct (oguards3_exist K D pmls OK rank mEi) as [mE2 A8]. destruct (up_Eo3_ok eps K D pmls OK rank _ _ _ _ mB2 mJ2 mE1 pE1 mEi pE2 mE2 HE1 HB2 C XE1 U4 A8) as [HE2 XE2].
  exists (mkStateO mE2 mB2 mJ2 pE2 pB2 ps3). split; [econstructor; eassumption|]. split; [split; assumption|].
  split; [eexists; exact HE2|]. split; [eexists; exact HB2|]. split; [eexists; exact C|]. split; eexists; eassumption.
Qed.
Lemma osteps3_exist rsqrt eps K D pmls sps k : subluminal rsqrt -> open3_ok K D pmls -> all_fused sps -> forall s, open_ready3 D sps s -> open_consistent3 D pmls s ->
  exists s', stepso3 rsqrt eps K D pmls sps k s s' /\ open_ready3 D sps s' /\ open_consistent3 D pmls s'.
Proof.
  intros SUB OK AF. induction k as [|k IH]; intros s R C; [exists s; split; [constructor|auto]|].
  destruct (ostep3_exists rsqrt eps K D pmls sps (fun _ => 0) s SUB OK AF R C _ (sorted_refl _)) as (s1 & S1 & R1 & C1).
  destruct (IH s1 R1 C1) as (s2 & S2 & R2 & C2). exists s2. split; [econstructor; eassumption|auto].
Qed.
(** after a step *)
Lemma ostep3_clear rsqrt eps K D pmls sps rank s s' : subluminal rsqrt -> open3_ok K D pmls -> all_fused sps -> open_ready3 D sps s -> open_consistent3 D pmls s ->
  stepo3 rsqrt eps K D pmls sps rank s s' -> open_ready3 D sps s' /\ open_consistent3 D pmls s' /\ Forall (none_in_layers3 (thick K) D) (o_parts s').
Proof.
  intros SUB OK AF [L F] ((FE & HE) & (FB & HB) & (FJ & HJ) & (PE & XE) & (PB & XB)) S.
  destruct S as [mE mB mJ pE pB ps mE0 pE1 mE1 mB0 pB1 mB1 ps1 mJ1 ps2 mJ2 ps3 mBi pB2 mB2 mEi pE2 mE2 U1 A1 U2 A2 A3 A4 A5 A6 U3 A7 U4 A8].
  cbn [o_E o_B o_J o_pE o_pB o_parts] in *.
  destruct (up_Eo3_ok eps K D pmls OK rank FB FJ FE PE mB mJ mE pE mE0 pE1 mE1 HE HB HJ XE U1 A1) as [HE1 XE1].
  destruct (up_Bo3_ok eps K D pmls OK rank _ FB PB mE1 mB pB mB0 pB1 mB1 HB HE1 XB U2 A2) as [HB1 XB1].
  destruct (forall2_sorted3 D ps ps1 A3 F) as (F1 & L1 & _).
  destruct (ohalf_step3 rsqrt SUB K D pmls OK sps AF rank _ _ mE1 mB1 mJ ps1 mJ1 ps2 mJ2 ps3 HE1 HB1 ltac:(lia) F1 A4 A5 A6) as (C & L3 & F3 & N3 & _).
  destruct (up_Bo3_ok eps K D pmls OK rank _ _ _ mE1 mB1 pB1 mBi pB2 mB2 HB1 HE1 XB1 U3 A7) as [HB2 XB2].
  destruct (up_Eo3_ok eps K D pmls OK rank _ _ _ _ mB2 mJ2 mE1 pE1 mEi pE2 mE2 HE1 HB2 C XE1 U4 A8) as [HE2 XE2].
  split; [split; assumption|]. split; [|exact N3].
  split; [eexists; exact HE2|]. split; [eexists; exact HB2|]. split; [eexists; exact C|]. split; eexists; eassumption.
Qed.
Lemma osteps3_clear rsqrt eps K D pmls sps : subluminal rsqrt -> open3_ok K D pmls -> all_fused sps -> forall k s s', open_ready3 D sps s -> open_consistent3 D pmls s ->
  stepso3 rsqrt eps K D pmls sps (S k) s s' -> Forall (none_in_layers3 (thick K) D) (o_parts s').
Proof.
  intros SUB OK AF. induction k as [|k IH]; intros s s' R C T; inversion T as [|? rank ? s1 ? S1 T1]; subst; destruct (ostep3_clear rsqrt eps K D pmls sps rank s s1 SUB OK AF R C S1) as (R1 & C1 & N1).
  - inversion T1; subst. exact N1.
  - exact (IH s1 s' R1 C1 T1).
Qed.
(** no particle is new or doubled *)
Lemma okept3_tags K D l : exists gone, Permutation (map tag l) (map tag (flat_map (fun r => map canon (okept3 K D r)) l) ++ gone).
Proof.
  induction l as [|r l [g IH]]; [exists []; constructor|]. cbn [flat_map map]. rewrite map_app, <- tags.
  assert (okept3 K D r = [] \/ exists r', okept3 K D r = [r'] /\ tag r' = tag r) as [->|(r' & -> & E)].
  { unfold okept3, okeep3. destruct (px _ r); [|right; eauto]. destruct (py _ r); [|right; eauto]. destruct (pz _ r); [|right; eauto]. destruct (keep1 _ _ _ _ q); [|left; reflexivity]. destruct (keep1 _ _ _ _ q0); [|left; reflexivity]. destruct (keep1 _ _ _ _ q1); [|left; reflexivity].
    right. eexists. split; [reflexivity|]. reflexivity. }
  - exists (tag r :: g). cbn [map app]. rewrite IH. apply Permutation_middle.
  - exists g. cbn [map app]. rewrite E, IH. reflexivity.
Qed.
Lemma ostep3_survivors rsqrt eps K D pmls sps rank s s' : subluminal rsqrt -> open3_ok K D pmls -> all_fused sps -> open_ready3 D sps s -> open_consistent3 D pmls s ->
  stepo3 rsqrt eps K D pmls sps rank s s' -> Forall2 survivors (o_parts s) (o_parts s').
Proof.
  intros SUB OK AF [L F] ((FE & HE) & (FB & HB) & (FJ & HJ) & (PE & XE) & (PB & XB)) S.
  destruct S as [mE mB mJ pE pB ps mE0 pE1 mE1 mB0 pB1 mB1 ps1 mJ1 ps2 mJ2 ps3 mBi pB2 mB2 mEi pE2 mE2 U1 A1 U2 A2 A3 A4 A5 A6 U3 A7 U4 A8].
  cbn [o_E o_B o_J o_pE o_pB o_parts] in *.
  destruct (up_Eo3_ok eps K D pmls OK rank FB FJ FE PE mB mJ mE pE mE0 pE1 mE1 HE HB HJ XE U1 A1) as [HE1 XE1].
  destruct (up_Bo3_ok eps K D pmls OK rank _ FB PB mE1 mB pB mB0 pB1 mB1 HB HE1 XB U2 A2) as [HB1 XB1].
  destruct (forall2_sorted3 D ps ps1 A3 F) as (F1 & L1 & Q1).
  destruct (ohalf_step3 rsqrt SUB K D pmls OK sps AF rank _ _ mE1 mB1 mJ ps1 mJ1 ps2 mJ2 ps3 HE1 HB1 ltac:(lia) F1 A4 A5 A6) as (_ & _ & _ & _ & G & W).
  assert (L2 : length ps1 = length sps) by lia. clear - Q1 G W L2. revert sps L2 ps ps2 ps3 Q1 G W.
  induction ps1 as [|st1 ps1 IH]; intros [|sp sps] L ps ps2 ps3 Q1 G W; cbn [length] in L; try lia; cbn [combine] in *.
  - inversion Q1; subst. inversion G; subst. inversion W; subst. constructor.
  - inversion Q1 as [|st ? ps' ? P1 Q1']; subst. inversion G as [|? st2 ? ps2' G1 G2]; subst. inversion W as [|? st3 ? ps3' W1 W2]; subst.
    constructor; [|apply (IH sps ltac:(lia) ps' ps2' ps3'); assumption].
    cbn [fst snd] in G1. destruct (okept3_tags K D (particles st2)) as [gone P]. exists gone.
    rewrite (Permutation_map tag P1).
    assert (map tag (particles st1) = map tag (particles st2)) as ->.
    { rewrite (tags (particles st2)), G1, map_map. apply map_ext. intro r. rewrite tag_of_canon. reflexivity. }
    rewrite P. apply Permutation_app_tail. rewrite <- (Permutation_map tag W1). rewrite <- tags. reflexivity.
Qed.
Lemma osteps3_survivors rsqrt eps K D pmls sps : subluminal rsqrt -> open3_ok K D pmls -> all_fused sps -> forall k s s', open_ready3 D sps s -> open_consistent3 D pmls s ->
  stepso3 rsqrt eps K D pmls sps k s s' -> Forall2 survivors (o_parts s) (o_parts s').
Proof.
  intros SUB OK AF. induction k as [|k IH]; intros s s' R C T; inversion T as [|? rank ? s1 ? S1 T1]; subst.
  - clear. induction (o_parts s'); constructor; [apply survivors_refl|assumption].
  - destruct (ostep3_clear rsqrt eps K D pmls sps rank s s1 SUB OK AF R C S1) as (R1 & C1 & _).
    pose proof (ostep3_survivors rsqrt eps K D pmls sps rank s s1 SUB OK AF R C S1) as V1. pose proof (IH s1 s' R1 C1 T1) as V2.
    clear - V1 V2. revert V2. generalize (o_parts s'). induction V1 as [|a b l m H V1 IH]; intros c V2; inversion V2; subst; constructor; [eapply survivors_trans; eassumption|auto].
Qed.
(** only particles near a layer can disappear *)
Lemma orow3_disp rsqrt K D pmls sp FE FB r x y z : subluminal rsqrt -> open3_ok K D pmls -> px _ r = Some x -> py _ r = Some y -> pz _ r = Some z ->
  (Qabs.Qabs (b_ux (other _ r) * b_ig (other _ r)) <= 1)%Q -> (Qabs.Qabs (b_uy (other _ r) * b_ig (other _ r)) <= 1)%Q -> (Qabs.Qabs (b_uz (other _ r) * b_ig (other _ r)) <= 1)%Q ->
  let r1 := orow3 rsqrt (PL3 D) (e_dx D) (e_dy D) (e_dz D) (e_dt D) sp FE FB r in
  exists x' y' z', px _ r1 = Some x' /\ py _ r1 = Some y' /\ pz _ r1 = Some z' /\
    (x - e_dx D <= x' /\ x' <= x + e_dx D)%Q /\ (y - e_dy D <= y' /\ y' <= y + e_dy D)%Q /\ (z - e_dz D <= z' /\ z' <= z + e_dz D)%Q.
Proof.
  intros SUB OK Ex Ey Ez V1 V2 V3. destruct (cdt3_ok (twin3 D) (twin3_ok K D pmls OK)) as (C0 & C1 & C2 & C3). change (cdt3 (twin3 D)) with (cdt3 D) in *. cbn [twin3 e_dx e_dy e_dz] in *.
  destruct (half_cell _ _ _ _ C0 C1 V1) as [X1 X2]. destruct (half_cell _ _ _ _ C0 C2 V2) as [Y1 Y2]. destruct (half_cell _ _ _ _ C0 C3 V3) as [Z1 Z2].
  cbv zeta. unfold orow3, oslot3. set (s := load3 (live r)). assert (skipped s = false) as Sk by (unfold s, load3, skipped; cbn [M_PartSync.row M_PartSync.dead l_p p_dead p_nan]; rewrite Ex, Ey, Ez; reflexivity).
  unfold P_Push.one. rewrite Sk. cbv zeta. match goal with |- context [ointerp3 ?a ?b ?c ?d ?e ?h ?p] => assert (exists f, ointerp3 a b c d e h p = Some f) as [f Hf] by (unfold ointerp3; eauto) end. rewrite Hf. cbn [obind]. unfold rowof, store3. cbn [M_PartSync.row px py pz]. rewrite Ex, Ey, Ez. cbn [isnan l_p].
  match goal with |- context [push_momentum rsqrt ?q ?m ?dt ?a] => destruct (momentum_slow3 rsqrt SUB q m dt a) as (M1 & M2 & M0 & _ & M3 & M4 & M5); set (u := l_p (push_momentum rsqrt q m dt a)) in * end.
  cbn [l_p push_position_3d p_x p_y p_z] in *. assert (p_x (l_p s) = x /\ p_y (l_p s) = y /\ p_z (l_p s) = z) as (Sx & Sy & Sz) by (unfold s, load3; cbn [M_PartSync.row l_p p_x p_y p_z]; rewrite Ex, Ey, Ez; auto).
  destruct (half_cell _ _ _ _ C0 C1 M3) as [X3 X4]. destruct (half_cell _ _ _ _ C0 C2 M4) as [Y3 Y4]. destruct (half_cell _ _ _ _ C0 C3 M5) as [Z3 Z4].
  eexists. eexists. eexists. split; [reflexivity|]. split; [reflexivity|]. split; [reflexivity|]. rewrite M1, M2, M0, Sx, Sy, Sz. fold (cdt3 D). unfold s, load3. cbn [M_PartSync.row l_p p_ig p_ux p_uy p_uz].
  clearbody u. clear - X1 X2 Y1 Y2 X3 X4 Y3 Y4 Z1 Z2 Z3 Z4.
  set (a1 := (cdt3 D * b_ig (other body r) * b_ux (other body r))%Q) in *. set (a2 := (cdt3 D * b_ig (other body r) * b_uy (other body r))%Q) in *. set (a5 := (cdt3 D * b_ig (other body r) * b_uz (other body r))%Q) in *.
  set (a3 := (cdt3 D * p_ig u * p_ux u)%Q) in *. set (a4 := (cdt3 D * p_ig u * p_uy u)%Q) in *. set (a6 := (cdt3 D * p_ig u * p_uz u)%Q) in *. clearbody a1 a2 a3 a4 a5 a6. unfold Qdiv in *. change (/ 2)%Q with (1#2)%Q in *.
  repeat split; Lqa.lra.
Qed.
Lemma ostep3_others rsqrt eps K D pmls sps rank s s' : subluminal rsqrt -> open3_ok K D pmls -> all_fused sps -> open_ready3 D sps s -> open_consistent3 D pmls s ->
  stepo3 rsqrt eps K D pmls sps rank s s' -> Forall2 (others_stay3 (thick K) D) (o_parts s) (o_parts s').
Proof.
  intros SUB OK AF [L F] ((FE & HE) & (FB & HB) & (FJ & HJ) & (PE & XE) & (PB & XB)) S.
  destruct S as [mE mB mJ pE pB ps mE0 pE1 mE1 mB0 pB1 mB1 ps1 mJ1 ps2 mJ2 ps3 mBi pB2 mB2 mEi pE2 mE2 U1 A1 U2 A2 A3 A4 A5 A6 U3 A7 U4 A8].
  cbn [o_E o_B o_J o_pE o_pB o_parts] in *.
  destruct (up_Eo3_ok eps K D pmls OK rank FB FJ FE PE mB mJ mE pE mE0 pE1 mE1 HE HB HJ XE U1 A1) as [HE1 XE1].
  destruct (up_Bo3_ok eps K D pmls OK rank _ FB PB mE1 mB pB mB0 pB1 mB1 HB HE1 XB U2 A2) as [HB1 XB1].
  destruct (forall2_sorted3 D ps ps1 A3 F) as (F1 & L1 & Q1).
  destruct (ohalf_step3 rsqrt SUB K D pmls OK sps AF rank _ _ mE1 mB1 mJ ps1 mJ1 ps2 mJ2 ps3 HE1 HB1 ltac:(lia) F1 A4 A5 A6) as (_ & _ & _ & _ & G & W).
  assert (L2 : length ps1 = length sps) by lia. clear - SUB OK F1 Q1 G W L2. revert sps L2 ps ps2 ps3 Q1 G W.
  induction F1 as [|st1 ps1 Fs F1 IH]; intros [|sp sps] L ps ps2 ps3 Q1 G W; cbn [length] in L; try lia; cbn [combine] in *.
  - inversion Q1; subst. inversion G; subst. inversion W; subst. constructor.
  - inversion Q1 as [|st ? ps' ? P1 Q1']; subst. inversion G as [|? st2 ? ps2' G1 G2]; subst. inversion W as [|? st3 ? ps3' W1 W2]; subst.
    constructor; [|apply (IH sps ltac:(lia) ps' ps2' ps3'); assumption]. clear IH G2 W2 Q1 Q1' F1 G W. cbn [fst snd] in G1.
    intros r x y z I Ex Ey Ez Cx Cy Cz. apply (Permutation_in r P1) in I.
    assert (exists p, p < npatches3 D /\ In r (S_PartSync.alive (nth p st1 []))) as (p & Hp & Ip).
    { unfold particles in I. rewrite (flat_map_nth _ [] st1), (proj1 Fs) in I. apply in_flat_map in I. destruct I as (p & Hp & I). apply in_seq in Hp. exists p. split; [lia|exact I]. }
    destruct (settled3_in D st1 p r Fs Hp Ip) as (x0 & y0 & z0 & _ & _ & _ & _ & _ & _ & V1 & V2 & V3).
    match type of G1 with _ = map (fun r => canon (orow3 rsqrt ?pl ?a ?b ?b3 ?c ?spp ?f1 ?f2 r)) _ => destruct (orow3_disp rsqrt K D pmls spp f1 f2 r x y z SUB OK Ex Ey Ez V1 V2 V3) as (x' & y' & z' & Ex' & Ey' & Ez' & Bx & By & Bz); set (R := orow3 rsqrt pl a b b3 c spp f1 f2) in * end.
    assert (exists r2, In r2 (particles st2) /\ canon r2 = canon (R r)) as (r2 & I2 & E2).
    { assert (In (canon (R r)) (map canon (particles st2))) as J by (rewrite G1; apply in_map_iff; exists r; auto). apply in_map_iff in J. destruct J as (r2 & E2 & J). exists r2. auto. }
    destruct (keep1_far _ _ _ _ _ _ Cx Bx) as [wx Kx]. destruct (keep1_far _ _ _ _ _ _ Cy By) as [wy Ky]. destruct (keep1_far _ _ _ _ _ _ Cz Bz) as [wz Kz].
    assert (map canon (okept3 K D r2) = map canon (okept3 K D (R r))) as Ek by (apply okeep3_eq; exact E2).
    unfold okept3 at 2 in Ek. unfold okeep3 in Ek. rewrite Ex', Ey', Ez', Kx, Ky, Kz in Ek. cbn [map] in Ek.
    match type of Ek with _ = [canon ?r3] => assert (In (canon r3) (map canon (particles st3))) as J by (apply (Permutation_in _ (Permutation_sym W1)); apply in_flat_map; exists r2; split; [exact I2|]; rewrite Ek; left; reflexivity); assert (tag r3 = tag r) as Et by reflexivity; set (rr := r3) in * end.
    apply in_map_iff in J. destruct J as (r' & E' & J). exists r'. split; [exact J|]. rewrite <- (tag_of_canon r'), E', tag_of_canon. exact Et.
Qed.
