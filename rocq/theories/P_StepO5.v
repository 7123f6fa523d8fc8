(** Whole time steps with open sides, part 5: every step can be carried out. *)
From Coq Require Import QArith Qabs Qcanon Permutation Lqa.
From Verif Require Import Base M_Layout S_Layout M_PartSync S_PartSync M_FieldSync S_FieldSync M_Maxwell S_Maxwell M_Cpml S_Cpml M_Deposit M_Push P_Layout P_PartSync P_PartSync2 P_PartSync3 Properties_FieldSync Properties_PartSync Properties_Maxwell M_Step S_Step M_StepO S_StepO P_Push P_Step1 P_Step2 P_Step3 P_Step4 P_Step5 P_Step6 P_Step7 P_Step8 P_StepO1 P_StepO2 P_StepO3 P_StepO4.
Local Open Scope list_scope.
Local Open Scope nat_scope.

Section Exists.
Variable K : layer Qc. Variable D : domain2. Variable pmls : nat -> list pml_side.
Hypothesis OK : open_ok K D pmls.
Local Notation n := (npatches2 D).
Lemma oguards_exist rank m : exists m', sync_guards D rank m m'.
Proof.
  destruct (oo_g K D pmls OK) as (G1 & G2 & G3).
  set (NB := nbr2 (d_ax D) (d_ay D)).
  assert (forall sched, exists ts, guard_transfers [d_nx D; d_ny D] (d_ng D) n 8 opp2 NB rank 3 (mpi_types2 (d_nx D + 2 * d_ng D) (d_ny D + 2 * d_ng D) (d_ng D)) = Some ts /\
    let threads := guard_tasks (extents [d_nx D; d_ny D] (d_ng D)) (local_guard2 (d_nx D) (d_ny D) (d_ng D)) (here NB rank) n 3 ++ ts in
    ((forall t, (t < length threads)%nat -> (length (nth t threads []) <= count_occ Nat.eq_dec sched t)%nat) -> exists m', guard_exchange [d_nx D; d_ny D] (d_ng D) n 8 opp2 NB rank (Q2Qc 0) Qcplus 3 (local_guard2 (d_nx D) (d_ny D) (d_ng D)) (mpi_types2 (d_nx D + 2 * d_ng D) (d_ny D + 2 * d_ng D) (d_ng D)) sched m = Some m')) as H.
  { intro sched. exact (C11_guard_completes_2d (Q2Qc 0) Qcplus (d_nx D) (d_ny D) (d_ng D) n NB rank 3 sched m ltac:(lia) G2 G3 (onbr_sym K D pmls OK)). }
  destruct (H []) as (ts & E & _). cbv zeta in H.
  set (T := guard_tasks (extents [d_nx D; d_ny D] (d_ng D)) (local_guard2 (d_nx D) (d_ny D) (d_ng D)) (here NB rank) n 3) in *.
  destruct (H (flat_map (fun t => repeat t (length (nth t (T ++ ts) []))) (seq 0 (length (T ++ ts))))) as (ts' & E' & X).
  rewrite E in E'. apply some_eq in E'. subst ts'. destruct X as [m' X]; [intros t Ht; apply (turns (fun t => length (nth t (T ++ ts) []))); exact Ht|].
  exists m'. eexists. exact X.
Qed.
Lemma ocurrents_exist rank m : exists m', sync_currents2 D rank m m'.
Proof.
  destruct (oo_g K D pmls OK) as (G1 & G2 & G3). set (NB := nbr2 (d_ax D) (d_ay D)).
  pose proof (fun s1 s2 => C11_current_completes_2d (Q2Qc 0) Qcplus (d_nx D) (d_ny D) (d_ng D) n NB rank s1 s2 m ltac:(lia) G2 G3 (onbr_sym K D pmls OK)) as H. cbv zeta in H.
  destruct (H [] []) as (ts & E & _).
  set (T := current_tasks (extents [d_nx D; d_ny D] (d_ng D)) (local_currents2 (d_nx D) (d_ny D) (d_ng D)) (here NB rank) n) in *.
  destruct (H (flat_map (fun t => repeat t (length (nth t T []))) (seq 0 (length T))) (flat_map (fun t => repeat t (length (nth t ts []))) (seq 0 (length ts)))) as (ts' & E' & X).
  rewrite E in E'. apply some_eq in E'. subst ts'.
  destruct X as [m' X]; [intros t Ht; apply (turns (fun t => length (nth t T []))); exact Ht|intros t Ht; apply (turns (fun t => length (nth t ts []))); exact Ht|].
  exists m'. eexists. eexists. exact X.
Qed.
Lemma oparticles_exist rank st : length st = n -> exists st', sync_particles_open K D rank st st'.
Proof.
  intro L. set (NB := nbr2 (d_ax D) (d_ay D)).
  assert (Sy : nbr_symmetric (length st) 8 opp2 NB) by (rewrite L; exact (onbr_sym K D pmls OK)).
  assert (Rm : remote_ok (length st) 8 opp2 NB (remote_of rank NB)) by (apply remote_of_ok; auto).
  set (fresh := fun (_ _ : nat) => mkRow body None None None (mkBody 0 0 0 0 0 (mkSix 0 0 0 0 0 0)%Q 0)).
  destruct (C50_messages _ _ 8 opp2 (cl2 body) (sh2 body) (clear2 body) (geo_open K D) NB fresh (remote_of rank NB) st Sy Rm) as (st1 & E1 & L1 & _).
  set (loc := in_process (remote_of rank NB) NB).
  assert (Sy' : nbr_symmetric (length st1) 8 opp2 loc) by (rewrite L1; apply local_sym; assumption).
  set (KK := fun q => length (arrivals 8 opp2 (cl2 body) (geo_open K D) loc st1 q) + length (nth q (extend_all (prow body) 8 opp2 loc fresh (outgoing (prow body) _ 8 (cl2 body) (geo_open K D) st1) st1) []) + 1).
  destruct (C04_completes _ _ 8 opp2 (cl2 body) (sh2 body) (out2 body) (clear2 body) false (geo_open K D) loc fresh st1 _ (flat_map (fun t => repeat t (KK t)) (seq 0 (length st1))) (P_PartSync3.sides2 body) Sy' (Permutation_refl _)) as [st2 E2].
  { intros q Hq. pose proof (turns KK (length st1) q Hq) as X. unfold KK in X at 1. lia. }
  exists st2. exists fresh, st1. eexists. eexists. split; [exact E1|]. split; [apply Permutation_refl|exact E2].
Qed.
End Exists.

Lemma ostep_exists rsqrt eps K D pmls sps rank s : subluminal rsqrt -> open_ok K D pmls -> open_ready D sps s -> open_consistent D pmls s ->
  forall ps1, Forall2 sorted2 (o_parts s) ps1 -> exists s', stepo rsqrt eps K D pmls sps rank s s' /\ open_ready D sps s' /\ open_consistent D pmls s'.
Proof.
  intros SUB OK [L F] ((FE & HE) & (FB & HB) & (FJ & HJ) & (PE & XE) & (PB & XB)) ps1 S. destruct s as [mE mB mJ pE pB ps]. cbn [o_E o_B o_J o_pE o_pB o_parts] in *.
  destruct (up_Eo eps K D pmls mB mJ mE pE) as [mE0 pE1] eqn:U1.
  destruct (oguards_exist K D pmls OK rank mE0) as [mE1 A1]. destruct (up_Eo_ok eps K D pmls OK rank FB FJ FE PE mB mJ mE pE mE0 pE1 mE1 HE HB HJ XE U1 A1) as [HE1 XE1].
  destruct (up_Bo eps K D pmls mE1 mB pB) as [mB0 pB1] eqn:U2.
  destruct (oguards_exist K D pmls OK rank mB0) as [mB1 A2]. destruct (up_Bo_ok eps K D pmls OK rank _ FB PB mE1 mB pB mB0 pB1 mB1 HB HE1 XB U2 A2) as [HB1 XB1].
  destruct (forall2_sorted D ps ps1 S F) as (F1 & L1 & _).
  destruct (opush_species_ok rsqrt SUB K D pmls OK _ _ mE1 mB1 HE1 HB1 sps ps1 (reset_currents D mJ) ltac:(lia) F1) as (mJ1 & ps2 & A4 & P & _).
  destruct (ocurrents_exist K D pmls OK rank mJ1) as [mJ2 A5].
  assert (forall st, In st ps2 -> length st = npatches2 D) as M.
  { intros st I. clear - P I. induction P as [|ss st' l l' [H _] P IH]; [destruct I|]. destruct I as [<-|I]; [exact H|exact (IH I)]. }
  destruct (forall2_exists _ (sync_particles_open K D rank) ps2) as [ps3 A6]; [intros st I; apply (oparticles_exist K D pmls OK); auto|].
  destruct (ohalf_step rsqrt SUB K D pmls OK sps rank _ _ mE1 mB1 mJ ps1 mJ1 ps2 mJ2 ps3 HE1 HB1 ltac:(lia) F1 A4 A5 A6) as (C & L3 & F3 & _).
  destruct (up_Bo eps K D pmls mE1 mB1 pB1) as [mBi pB2] eqn:U3.
  destruct (oguards_exist K D pmls OK rank mBi) as [mB2 A7]. destruct (up_Bo_ok eps K D pmls OK rank _ _ _ mE1 mB1 pB1 mBi pB2 mB2 HB1 HE1 XB1 U3 A7) as [HB2 XB2].
  destruct (up_Eo eps K D pmls mB2 mJ2 mE1 pE1) as [mEi pE2] eqn:U4.
  destruct (oguards_exist K D pmls OK rank mEi) as [mE2 A8]. destruct (up_Eo_ok eps K D pmls OK rank _ _ _ _ mB2 mJ2 mE1 pE1 mEi pE2 mE2 HE1 HB2 C XE1 U4 A8) as [HE2 XE2].
  exists (mkStateO mE2 mB2 mJ2 pE2 pB2 ps3). split; [econstructor; eassumption|]. split; [split; assumption|].
  split; [eexists; exact HE2|]. split; [eexists; exact HB2|]. split; [eexists; exact C|]. split; eexists; eassumption.
Qed.
Lemma osteps_exist rsqrt eps K D pmls sps k : subluminal rsqrt -> open_ok K D pmls -> forall s, open_ready D sps s -> open_consistent D pmls s ->
  exists s', stepso rsqrt eps K D pmls sps k s s' /\ open_ready D sps s' /\ open_consistent D pmls s'.
Proof.
  intros SUB OK. induction k as [|k IH]; intros s R C; [exists s; split; [constructor|auto]|].
  destruct (ostep_exists rsqrt eps K D pmls sps (fun _ => 0) s SUB OK R C _ (sorted_refl _)) as (s1 & S1 & R1 & C1).
  destruct (IH s1 R1 C1) as (s2 & S2 & R2 & C2). exists s2. split; [econstructor; eassumption|auto].
Qed.
(** after a step *)
Lemma ostep_clear rsqrt eps K D pmls sps rank s s' : subluminal rsqrt -> open_ok K D pmls -> open_ready D sps s -> open_consistent D pmls s ->
  stepo rsqrt eps K D pmls sps rank s s' -> open_ready D sps s' /\ open_consistent D pmls s' /\ Forall (none_in_layers (thick K) D) (o_parts s').
Proof.
  intros SUB OK [L F] ((FE & HE) & (FB & HB) & (FJ & HJ) & (PE & XE) & (PB & XB)) S.
  destruct S as [mE mB mJ pE pB ps mE0 pE1 mE1 mB0 pB1 mB1 ps1 mJ1 ps2 mJ2 ps3 mBi pB2 mB2 mEi pE2 mE2 U1 A1 U2 A2 A3 A4 A5 A6 U3 A7 U4 A8].
  cbn [o_E o_B o_J o_pE o_pB o_parts] in *.
  destruct (up_Eo_ok eps K D pmls OK rank FB FJ FE PE mB mJ mE pE mE0 pE1 mE1 HE HB HJ XE U1 A1) as [HE1 XE1].
  destruct (up_Bo_ok eps K D pmls OK rank _ FB PB mE1 mB pB mB0 pB1 mB1 HB HE1 XB U2 A2) as [HB1 XB1].
  destruct (forall2_sorted D ps ps1 A3 F) as (F1 & L1 & _).
  destruct (ohalf_step rsqrt SUB K D pmls OK sps rank _ _ mE1 mB1 mJ ps1 mJ1 ps2 mJ2 ps3 HE1 HB1 ltac:(lia) F1 A4 A5 A6) as (C & L3 & F3 & N3 & _).
  destruct (up_Bo_ok eps K D pmls OK rank _ _ _ mE1 mB1 pB1 mBi pB2 mB2 HB1 HE1 XB1 U3 A7) as [HB2 XB2].
  destruct (up_Eo_ok eps K D pmls OK rank _ _ _ _ mB2 mJ2 mE1 pE1 mEi pE2 mE2 HE1 HB2 C XE1 U4 A8) as [HE2 XE2].
  split; [split; assumption|]. split; [|exact N3].
  split; [eexists; exact HE2|]. split; [eexists; exact HB2|]. split; [eexists; exact C|]. split; eexists; eassumption.
Qed.
Lemma osteps_clear rsqrt eps K D pmls sps : subluminal rsqrt -> open_ok K D pmls -> forall k s s', open_ready D sps s -> open_consistent D pmls s ->
  stepso rsqrt eps K D pmls sps (S k) s s' -> Forall (none_in_layers (thick K) D) (o_parts s').
Proof.
  intros SUB OK. induction k as [|k IH]; intros s s' R C T; inversion T as [|? rank ? s1 ? S1 T1]; subst; destruct (ostep_clear rsqrt eps K D pmls sps rank s s1 SUB OK R C S1) as (R1 & C1 & N1).
  - inversion T1; subst. exact N1.
  - exact (IH s1 s' R1 C1 T1).
Qed.
(** no particle is new or doubled *)
Lemma tag_of_canon r : tag (canon r) = tag r.
Proof. unfold tag, canon, canon_body. cbn [other b_id b_w]. f_equal. apply Qred_complete. apply Qred_correct. Qed.
Lemma tags l : map tag l = map tag (map canon l).
Proof. rewrite map_map. apply map_ext. intro r. symmetry. apply tag_of_canon. Qed.
Lemma survivors_trans a b c : survivors a b -> survivors b c -> survivors a c.
Proof. intros [g P] [h Q]. exists (h ++ g). rewrite P, Q, app_assoc. reflexivity. Qed.
Lemma survivors_refl a : survivors a a.
Proof. exists []. rewrite app_nil_r. reflexivity. Qed.
Lemma okept_tags K D l : exists gone, Permutation (map tag l) (map tag (flat_map (fun r => map canon (okept K D r)) l) ++ gone).
Proof.
  induction l as [|r l [g IH]]; [exists []; constructor|]. cbn [flat_map map]. rewrite map_app, <- tags.
  assert (okept K D r = [] \/ exists r', okept K D r = [r'] /\ tag r' = tag r) as [->|(r' & -> & E)].
  { unfold okept, okeep. destruct (px _ r); [|right; eauto]. destruct (py _ r); [|right; eauto]. destruct (keep1 _ _ _ _ q); [|left; reflexivity]. destruct (keep1 _ _ _ _ q0); [|left; reflexivity].
    right. eexists. split; [reflexivity|]. reflexivity. }
  - exists (tag r :: g). cbn [map app]. rewrite IH. apply Permutation_middle.
  - exists g. cbn [map app]. rewrite E, IH. reflexivity.
Qed.
Lemma ostep_survivors rsqrt eps K D pmls sps rank s s' : subluminal rsqrt -> open_ok K D pmls -> open_ready D sps s -> open_consistent D pmls s ->
  stepo rsqrt eps K D pmls sps rank s s' -> Forall2 survivors (o_parts s) (o_parts s').
Proof.
  intros SUB OK [L F] ((FE & HE) & (FB & HB) & (FJ & HJ) & (PE & XE) & (PB & XB)) S.
  destruct S as [mE mB mJ pE pB ps mE0 pE1 mE1 mB0 pB1 mB1 ps1 mJ1 ps2 mJ2 ps3 mBi pB2 mB2 mEi pE2 mE2 U1 A1 U2 A2 A3 A4 A5 A6 U3 A7 U4 A8].
  cbn [o_E o_B o_J o_pE o_pB o_parts] in *.
  destruct (up_Eo_ok eps K D pmls OK rank FB FJ FE PE mB mJ mE pE mE0 pE1 mE1 HE HB HJ XE U1 A1) as [HE1 XE1].
  destruct (up_Bo_ok eps K D pmls OK rank _ FB PB mE1 mB pB mB0 pB1 mB1 HB HE1 XB U2 A2) as [HB1 XB1].
  destruct (forall2_sorted D ps ps1 A3 F) as (F1 & L1 & Q1).
  destruct (ohalf_step rsqrt SUB K D pmls OK sps rank _ _ mE1 mB1 mJ ps1 mJ1 ps2 mJ2 ps3 HE1 HB1 ltac:(lia) F1 A4 A5 A6) as (_ & _ & _ & _ & G & W).
  assert (L2 : length ps1 = length sps) by lia. clear - Q1 G W L2. revert sps L2 ps ps2 ps3 Q1 G W.
  induction ps1 as [|st1 ps1 IH]; intros [|sp sps] L ps ps2 ps3 Q1 G W; cbn [length] in L; try lia; cbn [combine] in *.
  - inversion Q1; subst. inversion G; subst. inversion W; subst. constructor.
  - inversion Q1 as [|st ? ps' ? P1 Q1']; subst. inversion G as [|? st2 ? ps2' G1 G2]; subst. inversion W as [|? st3 ? ps3' W1 W2]; subst.
    constructor; [|apply (IH sps ltac:(lia) ps' ps2' ps3'); assumption].
    cbn [fst snd] in G1. destruct (okept_tags K D (particles st2)) as [gone P]. exists gone.
    rewrite (Permutation_map tag P1).
    assert (map tag (particles st1) = map tag (particles st2)) as ->.
    { rewrite (tags (particles st2)), G1, map_map. apply map_ext. intro r. rewrite tag_of_canon. reflexivity. }
    rewrite P. apply Permutation_app_tail. rewrite <- (Permutation_map tag W1). rewrite <- tags. reflexivity.
Qed.
Lemma osteps_survivors rsqrt eps K D pmls sps : subluminal rsqrt -> open_ok K D pmls -> forall k s s', open_ready D sps s -> open_consistent D pmls s ->
  stepso rsqrt eps K D pmls sps k s s' -> Forall2 survivors (o_parts s) (o_parts s').
Proof.
  intros SUB OK. induction k as [|k IH]; intros s s' R C T; inversion T as [|? rank ? s1 ? S1 T1]; subst.
  - clear. induction (o_parts s'); constructor; [apply survivors_refl|assumption].
  - destruct (ostep_clear rsqrt eps K D pmls sps rank s s1 SUB OK R C S1) as (R1 & C1 & _).
    pose proof (ostep_survivors rsqrt eps K D pmls sps rank s s1 SUB OK R C S1) as V1. pose proof (IH s1 s' R1 C1 T1) as V2.
    clear - V1 V2. revert V2. generalize (o_parts s'). induction V1 as [|a b l m H V1 IH]; intros c V2; inversion V2; subst; constructor; [eapply survivors_trans; eassumption|auto].
Qed.
(** only particles near a layer can disappear *)
Lemma orow_disp rsqrt K D pmls sp FE FB r x y : subluminal rsqrt -> open_ok K D pmls -> px _ r = Some x -> py _ r = Some y ->
  (Qabs.Qabs (b_ux (other _ r) * b_ig (other _ r)) <= 1)%Q -> (Qabs.Qabs (b_uy (other _ r) * b_ig (other _ r)) <= 1)%Q ->
  exists x' y', px _ (orow rsqrt (PL D) (d_dx D) (d_dy D) (d_dt D) sp FE FB r) = Some x' /\ py _ (orow rsqrt (PL D) (d_dx D) (d_dy D) (d_dt D) sp FE FB r) = Some y' /\
    (x - d_dx D <= x' /\ x' <= x + d_dx D)%Q /\ (y - d_dy D <= y' /\ y' <= y + d_dy D)%Q.
Proof.
  intros SUB OK Ex Ey V1 V2. destruct (cdt2_ok (twin D) (twin_ok K D pmls OK)) as (C0 & C1 & C2). change (cdt2 (twin D)) with (cdt2 D) in *. cbn [twin d_dx d_dy] in *.
  destruct (half_cell _ _ _ _ C0 C1 V1) as [X1 X2]. destruct (half_cell _ _ _ _ C0 C2 V2) as [Y1 Y2].
  unfold orow, oslot. set (s := load (live r)). assert (skipped s = false) as Sk by (unfold s, load, skipped; cbn [M_PartSync.row M_PartSync.dead l_p p_dead p_nan]; rewrite Ex, Ey; reflexivity).
  unfold P_Push.one. rewrite Sk. cbv zeta. match goal with |- context [ointerp ?a ?b ?c ?d ?e ?p] => assert (exists f, ointerp a b c d e p = Some f) as [f Hf] by (unfold ointerp; eauto) end. rewrite Hf. cbn [obind]. unfold rowof, store. cbn [M_PartSync.row px py]. rewrite Ex, Ey. cbn [isnan l_p].
  match goal with |- context [push_momentum rsqrt ?q ?m ?dt ?a] => destruct (momentum_slow rsqrt SUB q m dt a) as (M1 & M2 & _ & _ & M3 & M4); set (u := l_p (push_momentum rsqrt q m dt a)) in * end.
  cbn [l_p push_position_2d p_x p_y] in *. assert (p_x (l_p s) = x /\ p_y (l_p s) = y) as [Sx Sy] by (unfold s, load; cbn [M_PartSync.row l_p p_x p_y]; rewrite Ex, Ey; auto).
  destruct (half_cell _ _ _ _ C0 C1 M3) as [X3 X4]. destruct (half_cell _ _ _ _ C0 C2 M4) as [Y3 Y4].
  eexists. eexists. split; [reflexivity|]. split; [reflexivity|]. rewrite M1, M2, Sx, Sy. fold (cdt2 D). cbn [s load l_p p_ig p_ux p_uy M_PartSync.row]. unfold s, load. cbn [M_PartSync.row l_p p_ig p_ux p_uy].
  clearbody u. clear - X1 X2 Y1 Y2 X3 X4 Y3 Y4.
  set (a1 := (cdt2 D * b_ig (other body r) * b_ux (other body r))%Q) in *. set (a2 := (cdt2 D * b_ig (other body r) * b_uy (other body r))%Q) in *.
  set (a3 := (cdt2 D * p_ig u * p_ux u)%Q) in *. set (a4 := (cdt2 D * p_ig u * p_uy u)%Q) in *. clearbody a1 a2 a3 a4. unfold Qdiv in *. change (/ 2)%Q with (1#2)%Q in *.
  repeat split; Lqa.lra.
Qed.
Lemma keep1_far a th W d v v' : clear_of_layers a (th + 1) W d v -> (v - d <= v' /\ v' <= v + d)%Q -> exists w, keep1 (is_open a) th W d v' = Some w.
Proof.
  intros C [H1 H2]. unfold keep1. destruct (is_open a) eqn:E; [|eauto]. unfold is_open in E. assert (ax_lo a = Pml) as P by (destruct (ax_lo a); [reflexivity|discriminate]).
  destruct (C P) as [C1 C2].
  assert (inject_Z (th + 1) == inject_Z th + 1)%Q as E1 by (rewrite inject_Z_plus; reflexivity).
  assert (inject_Z (W - (th + 1)) == inject_Z (W - th) - 1)%Q as E2 by (replace (W - (th + 1))%Z with ((W - th) + -1)%Z by lia; rewrite inject_Z_plus; reflexivity).
  rewrite E1 in C1. rewrite E2 in C2. rewrite (proj2 (Qle_bool_iff _ _)) by Lqa.lra. rewrite (proj2 (Qle_bool_iff v' _)) by Lqa.lra. cbn [andb]. eauto.
Qed.
Lemma ostep_others rsqrt eps K D pmls sps rank s s' : subluminal rsqrt -> open_ok K D pmls -> open_ready D sps s -> open_consistent D pmls s ->
  stepo rsqrt eps K D pmls sps rank s s' -> Forall2 (others_stay (thick K) D) (o_parts s) (o_parts s').
Proof.
  intros SUB OK [L F] ((FE & HE) & (FB & HB) & (FJ & HJ) & (PE & XE) & (PB & XB)) S.
  destruct S as [mE mB mJ pE pB ps mE0 pE1 mE1 mB0 pB1 mB1 ps1 mJ1 ps2 mJ2 ps3 mBi pB2 mB2 mEi pE2 mE2 U1 A1 U2 A2 A3 A4 A5 A6 U3 A7 U4 A8].
  cbn [o_E o_B o_J o_pE o_pB o_parts] in *.
  destruct (up_Eo_ok eps K D pmls OK rank FB FJ FE PE mB mJ mE pE mE0 pE1 mE1 HE HB HJ XE U1 A1) as [HE1 XE1].
  destruct (up_Bo_ok eps K D pmls OK rank _ FB PB mE1 mB pB mB0 pB1 mB1 HB HE1 XB U2 A2) as [HB1 XB1].
  destruct (forall2_sorted D ps ps1 A3 F) as (F1 & L1 & Q1).
  destruct (ohalf_step rsqrt SUB K D pmls OK sps rank _ _ mE1 mB1 mJ ps1 mJ1 ps2 mJ2 ps3 HE1 HB1 ltac:(lia) F1 A4 A5 A6) as (_ & _ & _ & _ & G & W).
  assert (L2 : length ps1 = length sps) by lia. clear - SUB OK F1 Q1 G W L2. revert sps L2 ps ps2 ps3 Q1 G W.
  induction F1 as [|st1 ps1 Fs F1 IH]; intros [|sp sps] L ps ps2 ps3 Q1 G W; cbn [length] in L; try lia; cbn [combine] in *.
  - inversion Q1; subst. inversion G; subst. inversion W; subst. constructor.
  - inversion Q1 as [|st ? ps' ? P1 Q1']; subst. inversion G as [|? st2 ? ps2' G1 G2]; subst. inversion W as [|? st3 ? ps3' W1 W2]; subst.
    constructor; [|apply (IH sps ltac:(lia) ps' ps2' ps3'); assumption]. clear IH G2 W2 Q1 Q1' F1 G W. cbn [fst snd] in G1.
    intros r x y I Ex Ey Cx Cy. apply (Permutation_in r P1) in I.
    assert (exists p, p < npatches2 D /\ In r (S_PartSync.alive (nth p st1 []))) as (p & Hp & Ip).
    { unfold particles in I. rewrite (flat_map_nth _ [] st1), (proj1 Fs) in I. apply in_flat_map in I. destruct I as (p & Hp & I). apply in_seq in Hp. exists p. split; [lia|exact I]. }
    destruct (osettled_in D st1 p r Fs Hp Ip) as (x0 & y0 & _ & _ & _ & _ & V1 & V2).
    match type of G1 with _ = map (fun r => canon (orow rsqrt ?pl ?a ?b ?c ?spp ?f1 ?f2 r)) _ => destruct (orow_disp rsqrt K D pmls spp f1 f2 r x y SUB OK Ex Ey V1 V2) as (x' & y' & Ex' & Ey' & Bx & By); set (R := orow rsqrt pl a b c spp f1 f2) in * end.
    assert (exists r2, In r2 (particles st2) /\ canon r2 = canon (R r)) as (r2 & I2 & E2).
    { assert (In (canon (R r)) (map canon (particles st2))) as J by (rewrite G1; apply in_map_iff; exists r; auto). apply in_map_iff in J. destruct J as (r2 & E2 & J). exists r2. auto. }
    destruct (keep1_far _ _ _ _ _ _ Cx Bx) as [wx Kx]. destruct (keep1_far _ _ _ _ _ _ Cy By) as [wy Ky].
    assert (map canon (okept K D r2) = map canon (okept K D (R r))) as Ek by (apply okeep_eq; exact E2).
    unfold okept at 2 in Ek. unfold okeep in Ek. rewrite Ex', Ey', Kx, Ky in Ek. cbn [map] in Ek.
    match type of Ek with _ = [canon ?r3] => assert (In (canon r3) (map canon (particles st3))) as J by (apply (Permutation_in _ (Permutation_sym W1)); apply in_flat_map; exists r2; split; [exact I2|]; rewrite Ek; left; reflexivity); assert (tag r3 = tag r) as Et by reflexivity; set (rr := r3) in * end.
    apply in_map_iff in J. destruct J as (r' & E' & J). exists r'. split; [exact J|]. rewrite <- (tag_of_canon r'), E', tag_of_canon. exact Et.
Qed.
