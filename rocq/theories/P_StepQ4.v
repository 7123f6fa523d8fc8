(** Whole 3D time steps with open sides, part 4: one step and many steps on two decompositions. *)
From Coq Require Import Field_theory QArith Qabs Qround Qcanon Permutation Lqa.
From Verif Require Import Base M_Layout S_Layout M_PartSync S_PartSync M_FieldSync S_FieldSync M_Maxwell S_Maxwell M_Cpml S_Cpml M_Deposit S_Deposit M_Push P_Layout P_PartSync P_PartSync2 P_PartSync3 P_FieldSync4 P_FieldSync5 P_Maxwell P_Maxwell2 P_Maxwell3 P_Cpml P_Cpml2 P_Cpml3 P_Cpml4 P_Cpml5 P_Deposit Properties_FieldSync Properties_PartSync M_Step S_Step M_Step3D S_Step3D M_StepO S_StepO M_StepO3D S_StepO3D P_Step1 P_Step2 P_Step3 P_Step4 P_Step5 P_Step6 P_Step7 P_StepD1 P_StepD2 P_StepD3 P_StepD4 P_StepD5 P_StepD6 P_StepD7 P_StepO1 P_StepO3 P_StepO4 P_StepQ1 P_StepQ2 P_StepQ3.
Local Open Scope list_scope.
Local Open Scope Z_scope.

(** * Fields *)
Section Fields.
Variable eps : Qc.
Variable K : layer Qc. Variable D : domain3. Variable pmls : nat -> list pml_side.
Hypothesis OK : open3_ok K D pmls.
Local Notation axes := [e_ax D; e_ay D; e_az D]. Local Notation ns := [e_nx D; e_ny D; e_nz D].
Local Notation dx := (Q2Qc (e_dx D)). Local Notation dy := (Q2Qc (e_dy D)). Local Notation dz := (Q2Qc (e_dz D)).
Local Notation A := (qc_arith eps).
Definition oE3 (FB FJ F : nat -> list Z -> Qc) PF := P_Cpml2.gfield (Q2Qc 0) A K [dx; dy; dz] sides3 (KE3 A dx dy dz) 3 true (half3 D) (opens axes) (totals axes ns) (place axes ns (zeros ns)) FB FJ F PF.
Definition oB3 (FE F : nat -> list Z -> Qc) PF := P_Cpml2.gfield (Q2Qc 0) A K [dx; dy; dz] sides3 (KB3 A dx dy dz) 3 false (half3 D) (opens axes) (totals axes ns) (place axes ns (zeros ns)) FE FE F PF.
Definition oPE3 (FB : nat -> list Z -> Qc) PF := P_Cpml2.gaux (Q2Qc 0) A K [dx; dy; dz] 3 true (half3 D) (opens axes) (totals axes ns) (place axes ns (zeros ns)) FB PF.
Definition oPB3 (FE : nat -> list Z -> Qc) PF := P_Cpml2.gaux (Q2Qc 0) A K [dx; dy; dz] 3 false (half3 D) (opens axes) (totals axes ns) (place axes ns (zeros ns)) FE PF.
Lemma osetting3 : setting A K [dx; dy; dz] sides3 (KE3 A dx dy dz) (KB3 A dx dy dz) 3 ns (e_ng D) bounds3 opp3 (npatches3 D) (nbr3 (e_ax D) (e_ay D) (e_az D)) axes (position3 (e_ax D) (e_ay D)) pmls
    (solver_e3 A K (e_nx D) (e_ny D) (e_nz D) (e_ng D) dx dy dz (npatches3 D) pmls) (solver_b3 A K (e_nx D) (e_ny D) (e_nz D) (e_ng D) dx dy dz (npatches3 D) pmls).
Proof.
  destruct (oo3_n K D pmls OK) as (N1 & N2 & N3). destruct (oo3_g K D pmls OK) as (G1 & G2 & G3 & G4).
  refine (setting3 A K (Q2Qc 0) Qcinv _ (e_ax D) (e_ay D) (e_az D) (e_nx D) (e_ny D) (e_nz D) (e_ng D) dx dy dz pmls (oo3_p K D pmls OK) N1 N2 N3 _ G2 G3 G4 (fit_opens _ axes ns (oo3_fit K D pmls OK) eq_refl) (split_opens _ (oo3_split K D pmls OK)) (oo3_l K D pmls OK)); [|lia].
  rewrite (oo3_one K D pmls OK). exact Qcft.
Qed.
Lemma oguards3 rank m m' : sync_guards3 D rank m m' -> guards_exchanged bounds3 ns (e_ng D) (npatches3 D) (nbr3 (e_ax D) (e_ay D) (e_az D)) 3 m m'.
Proof. intros (sched & H). destruct (oo3_g K D pmls OK) as (G1 & G2 & G3 & G4). eapply C11_guard_3d; try exact H; try lia. exact (onbr3_sym K D pmls OK). Qed.
Lemma aux3_shows P psi : aux3_are D pmls P psi <-> psi_shows ns (npatches3 D) (position3 (e_ax D) (e_ay D)) pmls P psi.
Proof.
  split.
  - intros H s f p c Hf Hp Hc Hs. assert (exists i j k, c = [i; j; k] /\ 0 <= i < e_nx D /\ 0 <= j < e_ny D /\ 0 <= k < e_nz D) as (i & j & k & -> & Hi & Hj & Hk).
    { inversion Hc as [|? ? ? ? H1 H2]; subst. inversion H2 as [|? ? ? ? H3 H4]; subst. inversion H4 as [|? ? ? ? H5 H6]; subst. inversion H6; subst. eexists. eexists. eexists. split; [reflexivity|]. auto. }
    rewrite (H s f p i j k Hf Hp Hi Hj Hk Hs). unfold position3, flat. reflexivity.
  - intros H s f p i j k Hf Hp Hi Hj Hk Hs. rewrite (H s f p [i; j; k] Hf Hp); [unfold position3, flat; reflexivity| |exact Hs]. constructor; [assumption|constructor; [assumption|constructor; [assumption|constructor]]].
Qed.
Lemma sides3_dim s : In s sides3 -> (axis_of s < 3)%nat.
Proof. intro I. cbn in I. repeat (destruct I as [<-|I]; [cbn; lia|]). contradiction. Qed.
Lemma up_Eo3_ok rank FB FJ F PF mB mJ m psi m1 psi1 m2 : field3_is D F m -> field3_is D FB mB -> currents3_are D FJ mJ -> aux3_are D pmls PF psi ->
  up_Eo3 eps K D pmls mB mJ m psi = (m1, psi1) -> sync_guards3 D rank m1 m2 -> field3_is D (oE3 FB FJ F PF) m2 /\ aux3_are D pmls (oPE3 FB PF) psi1.
Proof.
  intros H HB HJ HP U S. apply oguards3 in S. apply aux3_shows in HP. destruct osetting3 as [TD Tdim Tth Tmany Tpm TE TB]. specialize (TE (half3 D) mB mJ m psi).
  change (solver_e3 A K (e_nx D) (e_ny D) (e_nz D) (e_ng D) dx dy dz (npatches3 D) pmls (half3 D) mB mJ (m, psi)) with (up_Eo3 eps K D pmls mB mJ m psi) in TE. rewrite U in TE.
  destruct (layered_shows (Q2Qc 0) A K [dx; dy; dz] sides3 (KE3 A dx dy dz) 3 (local_KE3 A dx dy dz) (k_KE3 A dx dy dz) ns (e_ng D) bounds3 opp3 _ _ axes _ TD Tdim sides3_dim Tth Tmany pmls Tpm true (half3 D) FB FJ F PF mB mJ m psi m1 psi1 m2 H HB (inside3_of D FJ mJ HJ) HP TE S) as [S1 S2].
  split; [exact S1|]. apply aux3_shows. exact S2.
Qed.
Lemma up_Bo3_ok rank FE F PF mE m psi m1 psi1 m2 : field3_is D F m -> field3_is D FE mE -> aux3_are D pmls PF psi ->
  up_Bo3 eps K D pmls mE m psi = (m1, psi1) -> sync_guards3 D rank m1 m2 -> field3_is D (oB3 FE F PF) m2 /\ aux3_are D pmls (oPB3 FE PF) psi1.
Proof.
  intros H HE HP U S. apply oguards3 in S. apply aux3_shows in HP. destruct osetting3 as [TD Tdim Tth Tmany Tpm TE TB]. specialize (TB (half3 D) mE mE m psi). destruct (oo3_g K D pmls OK) as (G1 & _).
  change (solver_b3 A K (e_nx D) (e_ny D) (e_nz D) (e_ng D) dx dy dz (npatches3 D) pmls (half3 D) mE (m, psi)) with (up_Bo3 eps K D pmls mE m psi) in TB. rewrite U in TB.
  assert (HI : shows_inside (Q2Qc 0) axes ns (e_ng D) (npatches3 D) (position3 (e_ax D) (e_ay D)) FE mE) by (apply shows_here; [lia|exact HE]).
  destruct (layered_shows (Q2Qc 0) A K [dx; dy; dz] sides3 (KB3 A dx dy dz) 3 (local_KB3 A dx dy dz) (k_KB3 A dx dy dz) ns (e_ng D) bounds3 opp3 _ _ axes _ TD Tdim sides3_dim Tth Tmany pmls Tpm false (half3 D) FE FE F PF mE mE m psi m1 psi1 m2 H HE HI HP TB S) as [S1 S2].
  split; [exact S1|]. apply aux3_shows. exact S2.
Qed.
End Fields.
Lemma osame_grids3 D D' : same_open_domain3 D D' -> same_grid [e_ax D; e_ay D; e_az D] [e_nx D; e_ny D; e_nz D] [e_ax D'; e_ay D'; e_az D'] [e_nx D'; e_ny D'; e_nz D'].
Proof. intros ((S1 & S2 & S3 & _) & P1 & P2 & P3). unfold same_grid. cbn [combine]. constructor; [cbn [fst snd]; auto|]. constructor; [cbn [fst snd]; auto|]. constructor; [cbn [fst snd]; auto|constructor]. Qed.
Lemma oE3_same eps K D D' FB FJ F PF : same_open_domain3 D D' ->
  (forall f g, oE3 eps K D' FB FJ F PF f g = oE3 eps K D FB FJ F PF f g) /\ (forall s f g, oPE3 eps K D' FB PF s f g = oPE3 eps K D FB PF s f g).
Proof.
  intro SD. pose proof (osame_grids3 D D' SD) as SG. pose proof SD as ((_ & _ & _ & E1 & E2 & E3 & E4) & _). unfold oE3, oPE3, half3.
  rewrite <- E1, <- E2, <- E3, <- E4, <- (same_totals _ _ _ _ SG), <- (same_opens _ _ _ _ SG eq_refl eq_refl).
  apply (gfield_ext (Q2Qc 0) (qc_arith eps) K _ sides3 _ 3 (local_KE3 _ _ _ _)); auto. intro g. symmetry. apply same_grid_place; auto.
Qed.
Lemma oB3_same eps K D D' FE F PF : same_open_domain3 D D' ->
  (forall f g, oB3 eps K D' FE F PF f g = oB3 eps K D FE F PF f g) /\ (forall s f g, oPB3 eps K D' FE PF s f g = oPB3 eps K D FE PF s f g).
Proof.
  intro SD. pose proof (osame_grids3 D D' SD) as SG. pose proof SD as ((_ & _ & _ & E1 & E2 & E3 & E4) & _). unfold oB3, oPB3, half3.
  rewrite <- E1, <- E2, <- E3, <- E4, <- (same_totals _ _ _ _ SG), <- (same_opens _ _ _ _ SG eq_refl eq_refl).
  apply (gfield_ext (Q2Qc 0) (qc_arith eps) K _ sides3 _ 3 (local_KB3 _ _ _ _)); auto. intro g. symmetry. apply same_grid_place; auto.
Qed.
Lemma PL3_same D D' : same_open_domain3 D D' -> PL3 D = PL3 D'.
Proof.
  intros ((S1 & S2 & S3 & _) & P1 & P2 & P3).
  assert (forall D0, PL3 D0 = (fun W1 W2 W3 b1 b2 b3 g => match g with x :: g' =>
     match (if (0 <=? x) && (x <? W1) then Some x else if bc_eqb b1 Periodic then Some (x mod W1) else None),
           match g' with y :: g'' =>
             match (if (0 <=? y) && (y <? W2) then Some y else if bc_eqb b2 Periodic then Some (y mod W2) else None),
                   match g'' with z :: _ => match (if (0 <=? z) && (z <? W3) then Some z else if bc_eqb b3 Periodic then Some (z mod W3) else None) with Some q => Some [q] | None => None end | [] => Some [] end with
             | Some h, Some r => Some (h :: r) | _, _ => None end | [] => Some [] end with
     | Some h, Some r => Some (h :: r) | _, _ => None end | [] => Some [] end) (ax_n (e_ax D0) * e_nx D0) (ax_n (e_ay D0) * e_ny D0) (ax_n (e_az D0) * e_nz D0) (ax_lo (e_ax D0)) (ax_lo (e_ay D0)) (ax_lo (e_az D0))) as E by reflexivity.
  rewrite (E D), (E D'). rewrite S1, S2, S3, P1, P2, P3. reflexivity.
Qed.
Lemma aux3_ext D pmls P P' psi : (forall s f g, P s f g = P' s f g) -> aux3_are D pmls P psi -> aux3_are D pmls P' psi.
Proof. intros E H s f p i j k Hf Hp Hi Hj Hk Hs. rewrite (H s f p i j k Hf Hp Hi Hj Hk Hs). apply E. Qed.

(** * Particles *)
Lemma opushed3_particles rsqrt D FE FB sp st st' : length st = npatches3 D -> opushed3 rsqrt D FE FB sp st st' ->
  map canon (particles st') = map (fun r => canon (orow3 rsqrt (PL3 D) (e_dx D) (e_dy D) (e_dz D) (e_dt D) sp FE FB r)) (particles st).
Proof.
  intros L [L' H]. unfold particles. rewrite (flat_map_nth _ [] st), (flat_map_nth _ [] st'), L, L'. rewrite !flat_map_concat_map, !concat_map, !map_map. f_equal.
  apply map_ext_in. intros p Hp. apply in_seq in Hp. apply H. lia.
Qed.
Definition okept3 (K : layer Qc) (D : domain3) := okeep3 (is_open (e_ax D)) (is_open (e_ay D)) (is_open (e_az D)) (thick K) (ax_n (e_ax D) * e_nx D) (ax_n (e_ay D) * e_ny D) (ax_n (e_az D) * e_nz D) (e_dx D) (e_dy D) (e_dz D).
Lemma okept3_same K D D' : same_open_domain3 D D' -> okept3 K D = okept3 K D'.
Proof. intros ((S1 & S2 & S3 & S4 & S5 & S6 & _) & P1 & P2 & P3). unfold okept3, is_open. rewrite S1, S2, S3, S4, S5, S6, P1, P2, P3. reflexivity. Qed.

(** * One step *)
Section One.
Variable rsqrt : Q -> Q.
Hypothesis SUB : subluminal rsqrt.
Variable K : layer Qc. Variable D : domain3. Variable pmls : nat -> list pml_side.
Hypothesis OK : open3_ok K D pmls.
(** what a step does to the particles and currents, one decomposition *)
Lemma ohalf_step3 sps (U0 : all_fused sps) rank FE FB mE mB mJ ps mJ1 ps2 mJ2 ps3 : field3_is D FE mE -> field3_is D FB mB ->
  length ps = length sps -> Forall (settled3 D) ps ->
  push_species3 rsqrt D sps mE mB (reset_currents3 D mJ) ps = Some (mJ1, ps2) -> sync_currents3 D rank mJ1 mJ2 -> Forall2 (sync_particles_open3 K D rank) ps2 ps3 ->
  currents3_are D (ocurrents3 (PL3 D) (e_dx D) (e_dy D) (e_dz D) (e_dt D) sps ps2) mJ2 /\
  length ps3 = length sps /\ Forall (settled3 D) ps3 /\ Forall (none_in_layers3 (thick K) D) ps3 /\
  Forall2 (fun ss st2 => map canon (particles st2) = map (fun r => canon (orow3 rsqrt (PL3 D) (e_dx D) (e_dy D) (e_dz D) (e_dt D) (fst ss) FE FB r)) (particles (snd ss))) (combine sps ps) ps2 /\
  Forall2 (fun st2 st3 => Permutation (map canon (particles st3)) (flat_map (fun r => map canon (okept3 K D r)) (particles st2))) ps2 ps3.
Proof.
  intros HE HB L F E HJ HP. destruct (opush_species3_ok rsqrt SUB K D pmls OK FE FB mE mB HE HB sps ps (reset_currents3 D mJ) U0 L F) as (mJ1' & ps2' & E' & P & V).
  destruct (push_det3 rsqrt _ _ _ _ _ _ _ _ _ _ E E') as [<- <-]. clear E E'.
  assert (M : forall st p r, In st ps2 -> (p < npatches3 D)%nat -> In r (S_PartSync.alive (nth p st [])) -> moved3 D p r).
  { intros st p r I Hp Ir. clear - P I Hp Ir. induction P as [|ss st' l l' [_ H] P IH]; [destruct I|]. destruct I as [<-|I]; [exact (proj2 (H p Hp) r Ir)|exact (IH I)]. }
  assert (M' : forall st, In st ps2 -> length st = npatches3 D).
  { intros st I. clear - P I. induction P as [|ss st' l l' [H _] P IH]; [destruct I|]. destruct I as [<-|I]; [exact H|exact (IH I)]. }
  assert (length ps2 = length sps) as L2.
  { assert (length (combine sps ps) = length ps2) as L2 by (clear - P; induction P; cbn [length]; congruence). rewrite combine_length in L2. lia. }
  split.
  { apply (ocurrents3_ok K D pmls OK sps ps2 rank mJ1 mJ2 M M'); [|exact HJ]. intros f q o Hf Hq Ho. rewrite (V f q o Hf Hq Ho), reset_value3 by assumption. cbn [Q2Qc this]. change (Qred 0) with 0%Q. ring. }
  assert (Forall2 (fun st2 st3 => settled3 D st3 /\ none_in_layers3 (thick K) D st3 /\ Permutation (map canon (particles st3)) (flat_map (fun r => map canon (okept3 K D r)) (particles st2))) ps2 ps3) as X.
  { clear - M M' HP OK. induction HP as [|st2 st3 l l' H HP IH]; [constructor|]. constructor.
    - apply (oexchange3_ok K D pmls OK rank); [apply M'; left; reflexivity|intros p r; apply M; left; reflexivity|exact H].
    - apply IH; [intros st p r I; apply M; right; exact I|intros st I; apply M'; right; exact I]. }
  split; [|split; [|split; [|split]]].
  - rewrite <- L2. clear - HP. induction HP; cbn [length]; congruence.
  - clear - X. induction X as [|? ? ? ? [H _] X IH]; constructor; assumption.
  - clear - X. induction X as [|? ? ? ? (_ & H & _) X IH]; constructor; assumption.
  - clear - P F L. revert sps L P. induction F as [|st ps [Hst _] F IH] in ps2 |- *; intros [|sp sps0] L P; cbn [length] in L; try lia; cbn [combine] in *.
    + inversion P; subst. constructor.
    + inversion P as [|? st2 ? ps2' P1 P2]; subst. constructor; [apply (opushed3_particles rsqrt D FE FB); assumption|]. apply IH; [lia|exact P2].
  - clear - X. induction X as [|? ? ? ? (_ & _ & H) X IH]; constructor; assumption.
Qed.
End One.
Lemma orow3_species rsqrt FE FB sp sp' r pl dx dy dz dt : same_species sp sp' -> orow3 rsqrt pl dx dy dz dt sp FE FB r = orow3 rsqrt pl dx dy dz dt sp' FE FB r.
Proof. intros [E1 E2]. unfold orow3, oslot3. rewrite E1, E2. reflexivity. Qed.
Lemma ocurrents3_species pl dx dy dz dt pss f g : forall sps sps', Forall2 same_species sps sps' -> ocurrents3 pl dx dy dz dt sps pss f g = ocurrents3 pl dx dy dz dt sps' pss f g.
Proof.
  intros s s' F. unfold ocurrents3. apply q2qc_eq. revert pss. induction F as [|sp sp' s s' [E _] F IH]; intros [|st pss]; try reflexivity. cbn [combine]. rewrite !qsum_cons, IH. cbn [fst snd].
  apply Qplus_comp; [|reflexivity]. apply qsum_ext. intros r _. unfold odep3. rewrite E. reflexivity.
Qed.
Section Two.
Variable rsqrt : Q -> Q.
Hypothesis SUB : subluminal rsqrt.
Variable eps : Qc.
Variable K : layer Qc.
Variables D D' : domain3.
Variables pmls pmls' : nat -> list pml_side.
Hypothesis OK : open3_ok K D pmls.
Hypothesis OK' : open3_ok K D' pmls'.
Hypothesis SD : same_open_domain3 D D'.
Variables sps sps' : list species.
Hypothesis SP : Forall2 same_species sps sps'.
Hypothesis AF : all_fused sps.
Hypothesis AF' : all_fused sps'.
Lemma osame_step3 rank rank' s s' s1 s1' : open_ready3 D sps s -> open_ready3 D' sps' s' -> same_open_state3 D D' pmls pmls' s s' ->
  stepo3 rsqrt eps K D pmls sps rank s s1 -> stepo3 rsqrt eps K D' pmls' sps' rank' s' s1' ->
  same_open_state3 D D' pmls pmls' s1 s1' /\ open_ready3 D sps s1 /\ open_ready3 D' sps' s1'.
Proof.
  intros [L F] [L' F'] ((FE & HE & HE') & (FB & HB & HB') & (FJ & HJ & HJ') & (PE & XE & XE') & (PB & XB & XB') & HP) S S'.
  destruct S as [mE mB mJ pE pB ps mE0 pE1 mE1 mB0 pB1 mB1 ps1 mJ1 ps2 mJ2 ps3 mBi pB2 mB2 mEi pE2 mE2 U1 A1 U2 A2 A3 A4 A5 A6 U3 A7 U4 A8].
  destruct S' as [mE' mB' mJ' pE' pB' ps' mE0' pE1' mE1' mB0' pB1' mB1' ps1' mJ1' ps2' mJ2' ps3' mBi' pB2' mB2' mEi' pE2' mE2' V1 B1 V2 B2 B3 B4 B5 B6 V3 B7 V4 B8].
  cbn [o_E o_B o_J o_pE o_pB o_parts] in *.
  destruct (up_Eo3_ok eps K D pmls OK rank FB FJ FE PE mB mJ mE pE mE0 pE1 mE1 HE HB HJ XE U1 A1) as [HE1 XE1].
  destruct (up_Eo3_ok eps K D' pmls' OK' rank' FB FJ FE PE mB' mJ' mE' pE' mE0' pE1' mE1' HE' HB' HJ' XE' V1 B1) as [HE1' XE1'].
  destruct (oE3_same eps K D D' FB FJ FE PE SD) as [G1 G2].
  apply (shows_ext (Q2Qc 0) _ _ _ _ _ _ _ _ G1) in HE1'. apply (aux3_ext _ _ _ _ _ G2) in XE1'. clear G1 G2.
  set (FE1 := oE3 eps K D FB FJ FE PE) in *. set (PE1 := oPE3 eps K D FB PE) in *. fold (field3_is D' FE1 mE1') in HE1'.
  destruct (up_Bo3_ok eps K D pmls OK rank FE1 FB PB mE1 mB pB mB0 pB1 mB1 HB HE1 XB U2 A2) as [HB1 XB1].
  destruct (up_Bo3_ok eps K D' pmls' OK' rank' FE1 FB PB mE1' mB' pB' mB0' pB1' mB1' HB' HE1' XB' V2 B2) as [HB1' XB1'].
  destruct (oB3_same eps K D D' FE1 FB PB SD) as [G1 G2].
  apply (shows_ext (Q2Qc 0) _ _ _ _ _ _ _ _ G1) in HB1'. apply (aux3_ext _ _ _ _ _ G2) in XB1'. clear G1 G2.
  set (FB1 := oB3 eps K D FE1 FB PB) in *. set (PB1 := oPB3 eps K D FE1 PB) in *. fold (field3_is D' FB1 mB1') in HB1'.
  destruct (forall2_sorted3 D ps ps1 A3 F) as (F1 & L1 & Q1). destruct (forall2_sorted3 D' ps' ps1' B3 F') as (F1' & L1' & Q1').
  destruct (ohalf_step3 rsqrt SUB K D pmls OK sps AF rank FE1 FB1 mE1 mB1 mJ ps1 mJ1 ps2 mJ2 ps3 HE1 HB1 ltac:(lia) F1 A4 A5 A6) as (C & L3 & F3 & _ & G & W).
  destruct (ohalf_step3 rsqrt SUB K D' pmls' OK' sps' AF' rank' FE1 FB1 mE1' mB1' mJ' ps1' mJ1' ps2' mJ2' ps3' HE1' HB1' ltac:(lia) F1' B4 B5 B6) as (C' & L3' & F3' & _ & G' & W').
  pose proof SD as ((_ & _ & _ & X1 & X2 & X3 & X4) & _). pose proof (PL3_same D D' SD) as EPL.
  rewrite <- EPL, <- X1, <- X2, <- X3, <- X4 in C', G'. rewrite <- (okept3_same K D D' SD) in W'.
  assert (Forall2 same_particles ps1 ps1') as HP1.
  { clear - HP Q1 Q1'. revert ps1 ps1' Q1 Q1'. induction HP as [|st st' ps ps' H HP IH]; intros ps1 ps1' Q1 Q1'; inversion Q1; inversion Q1'; subst; constructor; [|apply IH; assumption].
    unfold same_particles in *. eapply perm_trans; [apply Permutation_map, Permutation_sym; eassumption|]. eapply perm_trans; [exact H|]. apply Permutation_map. assumption. }
  assert (Forall2 same_particles ps2 ps2') as HP2.
  { clear - HP1 G G' SP SUB L L' L1 L1'. rewrite <- L1 in L. rewrite <- L1' in L'. clear L1 L1'. revert ps1 ps1' HP1 L L' ps2 ps2' G G'. induction SP as [|sp sp' s s' E SP' IH]; intros ps1 ps1' HP1 L L' ps2 ps2' G G'.
    - cbn [combine] in *. inversion G; inversion G'; subst. constructor.
    - destruct HP1 as [|st st' ps1 ps1' H HP1]; [cbn [length] in L; lia|]. cbn [combine] in *. inversion G as [|? t ? ts T1 T2]; inversion G' as [|? t' ? ts' T1' T2']; subst. constructor.
      + unfold same_particles. cbn [fst snd] in *. rewrite T1, T1'.
        rewrite (map_ext _ _ (fun r => f_equal canon (eq_sym (orow3_species rsqrt FE1 FB1 sp sp' r (PL3 D) (e_dx D) (e_dy D) (e_dz D) (e_dt D) E))) (particles st')).
        apply (through (orow3 rsqrt (PL3 D) (e_dx D) (e_dy D) (e_dz D) (e_dt D) sp FE1 FB1)); [|exact H]. intro r. apply orow3_canon. exact SUB.
      + cbn [length] in L, L'. apply (IH SP' ps1 ps1'); auto. }
  assert (Forall2 same_particles ps3 ps3') as HP3.
  { clear - HP2 W W'. revert ps3 ps3' W W'. induction HP2 as [|st st' ps2 ps2' H HP2 IH]; intros ps3 ps3' W W'; inversion W as [|? t ? ts T1 T2]; inversion W' as [|? t' ? ts' T1' T2']; subst; constructor; [|apply IH; assumption].
    unfold same_particles. rewrite T1, T1'. apply othrough; [|exact H]. intro r. apply okeep3_eq, canon_idem. }
  destruct (oo3_d K D pmls OK) as (D1 & D2 & D3).
  apply (currents_ext3 D' _ (ocurrents3 (PL3 D) (e_dx D) (e_dy D) (e_dz D) (e_dt D) sps ps2)) in C'.
  2:{ intros f g. rewrite (ocurrents3_species _ _ _ _ _ _ _ _ sps sps' SP). symmetry. apply ocurrents3_eq; assumption. }
  set (FJ2 := ocurrents3 (PL3 D) (e_dx D) (e_dy D) (e_dz D) (e_dt D) sps ps2) in *.
  destruct (up_Bo3_ok eps K D pmls OK rank FE1 FB1 PB1 mE1 mB1 pB1 mBi pB2 mB2 HB1 HE1 XB1 U3 A7) as [HB2 XB2].
  destruct (up_Bo3_ok eps K D' pmls' OK' rank' FE1 FB1 PB1 mE1' mB1' pB1' mBi' pB2' mB2' HB1' HE1' XB1' V3 B7) as [HB2' XB2'].
  destruct (oB3_same eps K D D' FE1 FB1 PB1 SD) as [G1 G2].
  apply (shows_ext (Q2Qc 0) _ _ _ _ _ _ _ _ G1) in HB2'. apply (aux3_ext _ _ _ _ _ G2) in XB2'. clear G1 G2.
  set (FB2 := oB3 eps K D FE1 FB1 PB1) in *. set (PB2 := oPB3 eps K D FE1 PB1) in *. fold (field3_is D' FB2 mB2') in HB2'.
  destruct (up_Eo3_ok eps K D pmls OK rank FB2 FJ2 FE1 PE1 mB2 mJ2 mE1 pE1 mEi pE2 mE2 HE1 HB2 C XE1 U4 A8) as [HE2 XE2].
  destruct (up_Eo3_ok eps K D' pmls' OK' rank' FB2 FJ2 FE1 PE1 mB2' mJ2' mE1' pE1' mEi' pE2' mE2' HE1' HB2' C' XE1' V4 B8) as [HE2' XE2'].
  destruct (oE3_same eps K D D' FB2 FJ2 FE1 PE1 SD) as [G1 G2].
  apply (shows_ext (Q2Qc 0) _ _ _ _ _ _ _ _ G1) in HE2'. apply (aux3_ext _ _ _ _ _ G2) in XE2'. clear G1 G2.
  split; [|split; split; assumption].
  split; [eexists; split; [exact HE2|exact HE2']|]. split; [eexists; split; [exact HB2|exact HB2']|]. split; [eexists; split; [exact C|exact C']|].
  split; [eexists; split; [exact XE2|exact XE2']|]. split; [eexists; split; [exact XB2|exact XB2']|exact HP3].
Qed.
Lemma osame_steps3 k : forall s s' s1 s1', open_ready3 D sps s -> open_ready3 D' sps' s' -> same_open_state3 D D' pmls pmls' s s' ->
  stepso3 rsqrt eps K D pmls sps k s s1 -> stepso3 rsqrt eps K D' pmls' sps' k s' s1' ->
  same_open_state3 D D' pmls pmls' s1 s1' /\ open_ready3 D sps s1 /\ open_ready3 D' sps' s1'.
Proof.
  induction k as [|k IH]; intros s s' s1 s1' R R' S T T'; inversion T; inversion T'; subst; [auto|].
  destruct (osame_step3 _ _ _ _ _ _ R R' S ltac:(eassumption) ltac:(eassumption)) as (S2 & R2 & R2'). eapply IH; [exact R2|exact R2'|exact S2|eassumption|eassumption].
Qed.
End Two.
