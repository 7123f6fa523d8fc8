(** Whole time steps in 3D, part 7: one step and many steps on two decompositions. *)
From Coq Require Import QArith Qabs Qround Qcanon Permutation Lqa.
From Verif Require Import Base M_Layout S_Layout M_PartSync S_PartSync M_FieldSync S_FieldSync M_Maxwell S_Maxwell M_Deposit S_Deposit M_Push P_Layout P_PartSync P_PartSync2 P_PartSync3 P_FieldSync5 P_Maxwell P_Maxwell2 P_Maxwell3 P_Deposit Properties_FieldSync Properties_PartSync M_Step S_Step P_Step1 P_Step2 P_Step3 P_Step4 P_Step5 P_Step6 P_Step7 M_Step3D S_Step3D P_StepD1 P_StepD2 P_StepD3 P_StepD4 P_StepD5 P_StepD6.
Local Open Scope list_scope.
Local Open Scope Z_scope.

(** * Fields *)
Section Fields.
Variable eps : Qc.
Variable D : domain3.
Hypothesis OK : domain3_ok D.
Local Notation axes := [e_ax D; e_ay D; e_az D]. Local Notation ns := [e_nx D; e_ny D; e_nz D].
Local Notation dx := (Q2Qc (e_dx D)). Local Notation dy := (Q2Qc (e_dy D)). Local Notation dz := (Q2Qc (e_dz D)).
Definition gE3 (FB FJ F : nat -> list Z -> Qc) := grid_step (Q2Qc 0) (SE3 (qc_arith eps) dx dy dz (half3 D)) axes ns FB FJ F.
Definition gB3 (FE F : nat -> list Z -> Qc) := grid_step (Q2Qc 0) (SB3 (qc_arith eps) dx dy dz (half3 D)) axes ns FE FE F.
Lemma decomp3_ok : decomp ns (e_ng D) bounds3 opp3 (npatches3 D) (nbr3 (e_ax D) (e_ay D) (e_az D)) axes (position3 (e_ax D) (e_ay D)).
Proof. destruct (ok3_n D OK) as (N1 & N2 & N3). destruct (ok3_g D OK) as (G1 & G2 & G3 & G4). apply decomp3; try lia. exact (paired_axes3 D OK). Qed.
Lemma guards3_ok rank m m' : sync_guards3 D rank m m' -> guards_exchanged bounds3 ns (e_ng D) (npatches3 D) (nbr3 (e_ax D) (e_ay D) (e_az D)) 3 m m'.
Proof. intros (sched & H). destruct (ok3_g D OK) as (G1 & G2 & G3 & G4). eapply C11_guard_3d; try exact H; try lia. exact (nbr3_sym D OK). Qed.
Lemma inside3_of F m : currents3_are D F m -> shows_inside (Q2Qc 0) axes ns (e_ng D) (npatches3 D) (position3 (e_ax D) (e_ay D)) F m.
Proof. intros H f p c Hf Hp Hc. apply H; auto. Qed.
Lemma up_E3_ok rank FB FJ F mB mJ m m' : field3_is D F m -> field3_is D FB mB -> currents3_are D FJ mJ -> sync_guards3 D rank (up_E3 eps D mB mJ m) m' -> field3_is D (gE3 FB FJ F) m'.
Proof.
  intros H HB HJ S. apply guards3_ok in S. destruct (ok3_g D OK) as (G1 & G2 & G3 & G4).
  apply (step_shows' (Q2Qc 0) _ _ _ _ _ _ _ _ decomp3_ok (SE3 (qc_arith eps) dx dy dz (half3 D)) FB FJ F mB mJ m (up_E3 eps D mB mJ m) m'); auto.
  - apply local_SE3.
  - apply inside3_of. exact HJ.
  - apply update_efield3_ok; lia.
Qed.
Lemma up_B3_ok rank FE F mE m m' : field3_is D F m -> field3_is D FE mE -> sync_guards3 D rank (up_B3 eps D mE m) m' -> field3_is D (gB3 FE F) m'.
Proof.
  intros H HE S. apply guards3_ok in S. destruct (ok3_g D OK) as (G1 & G2 & G3 & G4).
  apply (step_shows' (Q2Qc 0) _ _ _ _ _ _ _ _ decomp3_ok (SB3 (qc_arith eps) dx dy dz (half3 D)) FE FE F mE mE m (up_B3 eps D mE m) m'); auto.
  - apply local_SB3.
  - apply shows_here; [lia|exact HE].
  - apply update_bfield3_ok; lia.
Qed.
End Fields.
Lemma same_grids3 D D' : domain3_ok D -> domain3_ok D' -> same_domain3 D D' -> same_grid [e_ax D; e_ay D; e_az D] [e_nx D; e_ny D; e_nz D] [e_ax D'; e_ay D'; e_az D'] [e_nx D'; e_ny D'; e_nz D'].
Proof.
  intros OK OK' (S1 & S2 & S3 & _). destruct (ok3_px D OK) as [P1 _]. destruct (ok3_py D OK) as [P2 _]. destruct (ok3_pz D OK) as [P3 _].
  destruct (ok3_px D' OK') as [P4 _]. destruct (ok3_py D' OK') as [P5 _]. destruct (ok3_pz D' OK') as [P6 _].
  unfold same_grid. cbn [combine]. constructor; [cbn [fst snd]; split; [exact S1|congruence]|]. constructor; [cbn [fst snd]; split; [exact S2|congruence]|].
  constructor; [cbn [fst snd]; split; [exact S3|congruence]|constructor].
Qed.
Lemma gE3_same eps D D' FB FJ F f g : domain3_ok D -> domain3_ok D' -> same_domain3 D D' -> gE3 eps D' FB FJ F f g = gE3 eps D FB FJ F f g.
Proof.
  intros OK OK' SD. unfold gE3, half3. pose proof SD as (_ & _ & _ & <- & <- & <- & <-). symmetry. apply (grid_step_ext (Q2Qc 0)); auto; [apply local_SE3|]. apply same_grids3; auto.
Qed.
Lemma gB3_same eps D D' FE F f g : domain3_ok D -> domain3_ok D' -> same_domain3 D D' -> gB3 eps D' FE F f g = gB3 eps D FE F f g.
Proof.
  intros OK OK' SD. unfold gB3, half3. pose proof SD as (_ & _ & _ & <- & <- & <- & <-). symmetry. apply (grid_step_ext (Q2Qc 0)); auto; [apply local_SB3|]. apply same_grids3; auto.
Qed.

(** * Particles *)
Lemma sorted_settled3 D st st' : settled3 D st -> sorted2 st st' -> settled3 D st'.
Proof.
  intros [L H] S. split; [rewrite <- (sorted_length _ _ S); exact L|]. intros p r Hp I. apply (H p r Hp).
  apply (Permutation_in r (Permutation_sym (alive_perm _ _ (sorted_nth _ _ p S)))). exact I.
Qed.
Lemma pushed_particles3 rsqrt D FE FB sp st st' : length st = npatches3 D -> pushed3 rsqrt D FE FB sp st st' ->
  map canon (particles st') = map (fun r => canon (grow3 rsqrt (Vx D) (Vy D) (Vz D) (e_dx D) (e_dy D) (e_dz D) (e_dt D) sp FE FB r)) (particles st).
Proof.
  intros L [L' H]. unfold particles. rewrite (flat_map_nth _ [] st), (flat_map_nth _ [] st'), L, L'. rewrite !flat_map_concat_map, !concat_map, !map_map. f_equal.
  apply map_ext_in. intros p Hp. apply in_seq in Hp. apply H. lia.
Qed.

(** * One step *)
Section Two.
Variable rsqrt : Q -> Q.
Hypothesis SUB : subluminal rsqrt.
Variable eps : Qc.
Variables D D' : domain3.
Hypothesis OK : domain3_ok D.
Hypothesis OK' : domain3_ok D'.
Hypothesis SD : same_domain3 D D'.
Variables sps sps' : list species.
Hypothesis SP : Forall2 same_species sps sps'.
Hypothesis AF : all_fused sps.
Hypothesis AF' : all_fused sps'.

Lemma push_det3 D0 sps0 mE mB mJ pss mJ1 pss1 mJ2 pss2 : push_species3 rsqrt D0 sps0 mE mB mJ pss = Some (mJ1, pss1) -> push_species3 rsqrt D0 sps0 mE mB mJ pss = Some (mJ2, pss2) -> mJ1 = mJ2 /\ pss1 = pss2.
Proof. intros E1 E2. rewrite E1 in E2. inversion E2. auto. Qed.

(** what a step does to the particles and currents, one decomposition *)
Lemma half_step3 D0 (OK0 : domain3_ok D0) sps0 (U0 : all_fused sps0) rank FE FB mE mB mJ ps mJ1 ps2 mJ2 ps3 : field3_is D0 FE mE -> field3_is D0 FB mB ->
  length ps = length sps0 -> Forall (settled3 D0) ps ->
  push_species3 rsqrt D0 sps0 mE mB (reset_currents3 D0 mJ) ps = Some (mJ1, ps2) -> sync_currents3 D0 rank mJ1 mJ2 -> Forall2 (sync_particles3 D0 rank) ps2 ps3 ->
  currents3_are D0 (gcurrents3 (Vx D0) (Vy D0) (Vz D0) (e_dx D0) (e_dy D0) (e_dz D0) (e_dt D0) sps0 ps2) mJ2 /\
  length ps3 = length sps0 /\ Forall (settled3 D0) ps3 /\
  Forall2 (fun ss st2 => map canon (particles st2) = map (fun r => canon (grow3 rsqrt (Vx D0) (Vy D0) (Vz D0) (e_dx D0) (e_dy D0) (e_dz D0) (e_dt D0) (fst ss) FE FB r)) (particles (snd ss))) (combine sps0 ps) ps2 /\
  Forall2 (fun st2 st3 => Permutation (map canon (particles st3)) (map (fun r => canon (gwrap3 (Vx D0) (Vy D0) (Vz D0) (e_dx D0) (e_dy D0) (e_dz D0) r)) (particles st2))) ps2 ps3.
Proof using SUB.
  intros HE HB L F E HJ HP. destruct (push_species3_ok rsqrt SUB D0 OK0 FE FB mE mB HE HB sps0 ps (reset_currents3 D0 mJ) U0 L F) as (mJ1' & ps2' & E' & P & V).
  destruct (push_det3 _ _ _ _ _ _ _ _ _ _ E E') as [<- <-]. clear E E'.
  assert (M : forall st p r, In st ps2 -> (p < npatches3 D0)%nat -> In r (S_PartSync.alive (nth p st [])) -> moved3 D0 p r).
  { intros st p r I Hp Ir. clear - P I Hp Ir. induction P as [|ss st' l l' [_ H] P IH]; [destruct I|]. destruct I as [<-|I]; [exact (proj2 (H p Hp) r Ir)|exact (IH I)]. }
  assert (M' : forall st, In st ps2 -> length st = npatches3 D0).
  { intros st I. clear - P I. induction P as [|ss st' l l' [H _] P IH]; [destruct I|]. destruct I as [<-|I]; [exact H|exact (IH I)]. }
  assert (length ps2 = length sps0) as L2.
  { assert (length (combine sps0 ps) = length ps2) as L2 by (clear - P; induction P; cbn [length]; congruence). rewrite combine_length in L2. lia. }
  split.
  { apply (currents3_ok D0 OK0 sps0 ps2 rank mJ1 mJ2 M M'); [|exact HJ]. intros f q o Hf Hq Ho. rewrite (V f q o Hf Hq Ho), reset_value3 by assumption. cbn [Q2Qc this]. change (Qred 0) with 0%Q. ring. }
  assert (Forall2 (fun st2 st3 => settled3 D0 st3 /\ Permutation (map canon (particles st3)) (map (fun r => canon (gwrap3 (Vx D0) (Vy D0) (Vz D0) (e_dx D0) (e_dy D0) (e_dz D0) r)) (particles st2))) ps2 ps3) as X.
  { clear - M M' HP OK0. induction HP as [|st2 st3 l l' H HP IH]; [constructor|]. constructor.
    - apply (exchange3_ok D0 OK0 rank); [apply M'; left; reflexivity|intros p r; apply M; left; reflexivity|exact H].
    - apply IH; [intros st p r I; apply M; right; exact I|intros st I; apply M'; right; exact I]. }
  split; [|split; [|split]].
  - rewrite <- L2. clear - HP. induction HP; cbn [length]; congruence.
  - clear - X. induction X as [|? ? ? ? [H _] X IH]; constructor; assumption.
  - clear - P F OK0 L. revert sps0 L P. induction F as [|st ps [Hst _] F IH] in ps2 |- *; intros [|sp sps0] L P; cbn [length] in L; try lia; cbn [combine] in *.
    + inversion P; subst. constructor.
    + inversion P as [|? st2 ? ps2' P1 P2]; subst. constructor; [apply (pushed_particles3 rsqrt D0 FE FB); assumption|]. apply IH; [lia|exact P2].
  - clear - X. induction X as [|? ? ? ? [_ H] X IH]; constructor; assumption.
Qed.
Lemma grow_species3 FE FB sp sp' r Nx Ny Nz dx dy dz dt : same_species sp sp' -> grow3 rsqrt Nx Ny Nz dx dy dz dt sp FE FB r = grow3 rsqrt Nx Ny Nz dx dy dz dt sp' FE FB r.
Proof using. intros [E1 E2]. unfold grow3, gslot3. rewrite E1, E2. reflexivity. Qed.
Lemma gcurrents_species3 Nx Ny Nz dx dy dz dt pss f g : forall sps sps', Forall2 same_species sps sps' -> gcurrents3 Nx Ny Nz dx dy dz dt sps pss f g = gcurrents3 Nx Ny Nz dx dy dz dt sps' pss f g.
Proof using.
  intros s s' F. unfold gcurrents3. apply q2qc_eq. revert pss. induction F as [|sp sp' s s' [E _] F IH]; intros [|st pss]; try reflexivity. cbn [combine]. rewrite !qsum_cons, IH. cbn [fst snd].
  apply Qplus_comp; [|reflexivity]. apply qsum_ext. intros r _. unfold gdep3. rewrite E. reflexivity.
Qed.
Lemma currents_ext3 D0 F F' m : (forall f g, F f g = F' f g) -> currents3_are D0 F m -> currents3_are D0 F' m.
Proof using. intros H K f p c Hf Hp Hc. rewrite (K f p c Hf Hp Hc). unfold shown. destruct (place _ _ _ _); auto. Qed.
Lemma forall2_sorted3 D0 ps ps1 : Forall2 sorted2 ps ps1 -> Forall (settled3 D0) ps -> Forall (settled3 D0) ps1 /\ length ps1 = length ps /\ Forall2 (fun st st1 => Permutation (particles st) (particles st1)) ps ps1.
Proof using.
  induction 1 as [|st st1 ps ps1 S F IH]; intro H; [split; [constructor|split; [reflexivity|constructor]]|]. inversion H as [|? ? H1 H2]; subst. destruct (IH H2) as (I1 & I2 & I3).
  split; [constructor; [eapply sorted_settled3; eassumption|exact I1]|]. split; [cbn [length]; congruence|]. constructor; [apply sorted_particles; exact S|exact I3].
Qed.

Lemma same_step3 rank rank' s s' s1 s1' : ready3 D sps s -> ready3 D' sps' s' -> same_state3 D D' s s' ->
  step3d rsqrt eps D sps rank s s1 -> step3d rsqrt eps D' sps' rank' s' s1' ->
  same_state3 D D' s1 s1' /\ ready3 D sps s1 /\ ready3 D' sps' s1'.
Proof using SUB OK OK' SD SP AF AF'.
  intros [L F] [L' F'] ((FE & HE & HE') & (FB & HB & HB') & (FJ & HJ & HJ') & HP) S S'.
  destruct S as [mE mB mJ ps mE1 mB1 ps1 mJ1 ps2 mJ2 ps3 mB2 mE2 A1 A2 A3 A4 A5 A6 A7 A8].
  destruct S' as [mE' mB' mJ' ps' mE1' mB1' ps1' mJ1' ps2' mJ2' ps3' mB2' mE2' B1 B2 B3 B4 B5 B6 B7 B8].
  cbn [t_E t_B t_J t_parts] in *.
  pose proof (up_E3_ok eps D OK rank FB FJ FE mB mJ mE mE1 HE HB HJ A1) as HE1.
  pose proof (up_E3_ok eps D' OK' rank' FB FJ FE mB' mJ' mE' mE1' HE' HB' HJ' B1) as HE1'.
  apply (shows_ext (Q2Qc 0) _ _ _ _ _ _ (gE3 eps D FB FJ FE)) in HE1'; [|intros; apply gE3_same; assumption].
  set (FE1 := gE3 eps D FB FJ FE) in *. fold (field3_is D' FE1 mE1') in HE1'.
  pose proof (up_B3_ok eps D OK rank FE1 FB mE1 mB mB1 HB HE1 A2) as HB1.
  pose proof (up_B3_ok eps D' OK' rank' FE1 FB mE1' mB' mB1' HB' HE1' B2) as HB1'.
  apply (shows_ext (Q2Qc 0) _ _ _ _ _ _ (gB3 eps D FE1 FB)) in HB1'; [|intros; apply gB3_same; assumption].
  set (FB1 := gB3 eps D FE1 FB) in *. fold (field3_is D' FB1 mB1') in HB1'.
  destruct (forall2_sorted3 D ps ps1 A3 F) as (F1 & L1 & Q1). destruct (forall2_sorted3 D' ps' ps1' B3 F') as (F1' & L1' & Q1').
  destruct (half_step3 D OK sps AF rank FE1 FB1 mE1 mB1 mJ ps1 mJ1 ps2 mJ2 ps3 HE1 HB1 ltac:(lia) F1 A4 A5 A6) as (C & L3 & F3 & G & W).
  destruct (half_step3 D' OK' sps' AF' rank' FE1 FB1 mE1' mB1' mJ' ps1' mJ1' ps2' mJ2' ps3' HE1' HB1' ltac:(lia) F1' B4 B5 B6) as (C' & L3' & F3' & G' & W').
  pose proof SD as (W1 & W2 & W3 & X1 & X2 & X3 & X4).
  assert (Forall2 same_particles ps1 ps1') as HP1.
  { clear - HP Q1 Q1'. revert ps1 ps1' Q1 Q1'. induction HP as [|st st' ps ps' H HP IH]; intros ps1 ps1' Q1 Q1'; inversion Q1; inversion Q1'; subst; constructor; [|apply IH; assumption].
    unfold same_particles in *. eapply perm_trans; [apply Permutation_map, Permutation_sym; eassumption|]. eapply perm_trans; [exact H|]. apply Permutation_map. assumption. }
  assert (Forall2 same_particles ps2 ps2') as HP2.
  { clear - HP1 G G' SP SUB W1 W2 W3 X1 X2 X3 X4 L L' L1 L1'. rewrite <- L1 in L. rewrite <- L1' in L'. clear L1 L1'. revert ps1 ps1' HP1 L L' ps2 ps2' G G'. induction SP as [|sp sp' s s' E SP' IH]; intros ps1 ps1' HP1 L L' ps2 ps2' G G'.
    - cbn [combine] in *. inversion G; inversion G'; subst. constructor.
    - destruct HP1 as [|st st' ps1 ps1' H HP1]; [cbn [length] in L; lia|]. cbn [combine] in *. inversion G as [|? t ? ts T1 T2]; inversion G' as [|? t' ? ts' T1' T2']; subst. constructor.
      + unfold same_particles. cbn [fst snd] in *. rewrite T1, T1'. rewrite <- X1, <- X2, <- X3, <- X4, <- W1, <- W2, <- W3.
        rewrite (map_ext _ _ (fun r => f_equal canon (eq_sym (grow_species3 FE1 FB1 sp sp' r (Vx D) (Vy D) (Vz D) (e_dx D) (e_dy D) (e_dz D) (e_dt D) E))) (particles st')).
        apply (through (grow3 rsqrt (Vx D) (Vy D) (Vz D) (e_dx D) (e_dy D) (e_dz D) (e_dt D) sp FE1 FB1)); [|exact H]. intro r. apply grow3_canon. exact SUB.
      + cbn [length] in L, L'. apply (IH SP' ps1 ps1'); auto. }
  assert (Forall2 same_particles ps3 ps3') as HP3.
  { clear - HP2 W W' W1 W2 W3 X1 X2 X3. revert ps3 ps3' W W'. induction HP2 as [|st st' ps2 ps2' H HP2 IH]; intros ps3 ps3' W W'; inversion W as [|? t ? ts T1 T2]; inversion W' as [|? t' ? ts' T1' T2']; subst; constructor; [|apply IH; assumption].
    unfold same_particles. rewrite T1, T1'. rewrite <- X1, <- X2, <- X3, <- W1, <- W2, <- W3. apply through; [|exact H]. intro r. apply gwrap3_eq, canon_idem. }
  destruct (ok3_d D OK) as (D1 & D2 & D3).
  apply (currents_ext3 D' _ (gcurrents3 (Vx D) (Vy D) (Vz D) (e_dx D) (e_dy D) (e_dz D) (e_dt D) sps ps2)) in C'.
  2:{ intros f g. rewrite <- X1, <- X2, <- X3, <- X4, <- W1, <- W2, <- W3. rewrite (gcurrents_species3 _ _ _ _ _ _ _ _ _ _ sps sps' SP). symmetry. apply gcurrents3_eq; assumption. }
  set (FJ2 := gcurrents3 (Vx D) (Vy D) (Vz D) (e_dx D) (e_dy D) (e_dz D) (e_dt D) sps ps2) in *.
  pose proof (up_B3_ok eps D OK rank FE1 FB1 mE1 mB1 mB2 HB1 HE1 A7) as HB2.
  pose proof (up_B3_ok eps D' OK' rank' FE1 FB1 mE1' mB1' mB2' HB1' HE1' B7) as HB2'.
  apply (shows_ext (Q2Qc 0) _ _ _ _ _ _ (gB3 eps D FE1 FB1)) in HB2'; [|intros; apply gB3_same; assumption].
  set (FB2 := gB3 eps D FE1 FB1) in *. fold (field3_is D' FB2 mB2') in HB2'.
  pose proof (up_E3_ok eps D OK rank FB2 FJ2 FE1 mB2 mJ2 mE1 mE2 HE1 HB2 C A8) as HE2.
  pose proof (up_E3_ok eps D' OK' rank' FB2 FJ2 FE1 mB2' mJ2' mE1' mE2' HE1' HB2' C' B8) as HE2'.
  apply (shows_ext (Q2Qc 0) _ _ _ _ _ _ (gE3 eps D FB2 FJ2 FE1)) in HE2'; [|intros; apply gE3_same; assumption].
  split; [|split; split; assumption].
  split; [exists (gE3 eps D FB2 FJ2 FE1); split; assumption|]. split; [exists FB2; split; assumption|]. split; [exists FJ2; split; assumption|exact HP3].
Qed.
Lemma same_steps3 k : forall s s' s1 s1', ready3 D sps s -> ready3 D' sps' s' -> same_state3 D D' s s' ->
  steps3d rsqrt eps D sps k s s1 -> steps3d rsqrt eps D' sps' k s' s1' ->
  same_state3 D D' s1 s1' /\ ready3 D sps s1 /\ ready3 D' sps' s1'.
Proof using SUB OK OK' SD SP AF AF'.
  induction k as [|k IH]; intros s s' s1 s1' R R' S T T'; inversion T; inversion T'; subst; [auto|].
  destruct (same_step3 _ _ _ _ _ _ R R' S ltac:(eassumption) ltac:(eassumption)) as (S2 & R2 & R2'). eapply IH; [exact R2|exact R2'|exact S2|eassumption|eassumption].
Qed.
End Two.
