(** Symmetries in three dimensions, part 3: whole steps. *)
From Coq Require Import QArith Qround Qabs Qcanon Lqa Permutation Setoid Morphisms.
From Verif Require Import Base M_Layout M_PartSync S_PartSync M_FieldSync S_FieldSync S_Maxwell P_Maxwell3 M_Deposit S_Deposit P_Deposit M_Push S_Push M_Step S_Step P_Step1 P_Step2 P_Step3 P_Step4 P_Step5 P_Step6 P_Step7 P_Gauss1 S_Sym P_Sym2 P_Sym4 P_Sym6
  M_Step3D S_Step3D P_StepD2 P_StepD3 P_StepD5 P_StepD6 P_StepD7 S_Gauss3D P_GaussD1 P_GaussD2 S_Sym3D P_SymD1 P_SymD2.
Local Open Scope list_scope.
Local Open Scope Z_scope.

(** * Lists of particles *)
Section Lists.
Variables (y : symmetry3) (D' : domain3).
Definition img3 (l l' : list (prow body)) : Prop := exists m, Permutation l' m /\ Forall2 (image3_row y D') l m.
Lemma img_canon3 l l' l1 l1' : Permutation (map canon l) (map canon l1) -> Permutation (map canon l') (map canon l1') -> img3 l l' -> img3 l1 l1'.
Proof using.
  intros P P' (m & M & F).
  destruct (Permutation_map_inv canon _ P) as (l2 & E2 & P2).
  assert (Permutation (map canon m) (map canon l1')) as Q by (eapply perm_trans; [apply Permutation_map, Permutation_sym; exact M|exact P']).
  destruct (Permutation_map_inv canon _ Q) as (m2 & E3 & P3).
  assert (Forall2 (image3_row y D') l2 m2) as F2.
  { clear - E2 E3 F. revert l2 m2 E2 E3. induction F as [|r r' l m H F IH]; intros [|r2 l2] [|r2' m2] E2 E3; cbn [map] in *; try discriminate; constructor.
    - apply (image_canon3 D' y r r'); [exact (f_equal (hd (canon r)) E2)|exact (f_equal (hd (canon r')) E3)|exact H].
    - apply IH; [exact (f_equal (@tl _) E2)|exact (f_equal (@tl _) E3)]. }
  destruct (Permutation_Forall2 (Permutation_sym P2) F2) as (n & N1 & N2). exists n. split; [|exact N2]. eapply perm_trans; [exact P3|exact N1].
Qed.
Lemma img_map3 (h h' : prow body -> prow body) l l' : (forall r r', image3_row y D' r r' -> image3_row y D' (h r) (h' r')) -> img3 l l' -> img3 (map h l) (map h' l').
Proof using. intros H (m & M & F). exists (map h' m). split; [apply Permutation_map; exact M|]. clear M. induction F; cbn [map]; constructor; auto. Qed.
End Lists.

Section Two.
Variable rsqrt : Q -> Q.
Hypothesis SUB : subluminal rsqrt.
Variable eps : Qc.
Variables D D' : domain3.
Hypothesis OK : domain3_ok D.
Hypothesis OK' : domain3_ok D'.
Variable y : symmetry3.
Hypothesis ID : image3_domain D D'.
Variables sps sps' : list species.
Hypothesis U : all_fused sps. Hypothesis U' : all_fused sps'.
Hypothesis SP : Forall2 (image_species (flat y)) sps sps'.
Local Notation cur D := (gcurrents3 (Vx D) (Vy D) (Vz D) (e_dx D) (e_dy D) (e_dz D) (e_dt D)).

Lemma cur_image3 ps ps' f a b c : slow_all3 ps -> Forall2 (image3_particles y D') ps ps' -> (f < 4)%nat -> 0 <= a < Ex D' -> 0 <= b < Ey D' -> 0 <= c < Ez D' ->
  cur D' sps' ps' f [a; b; c] = image3_E y D' (cur D sps ps) f [a; b; c].
Proof using OK OK' ID SP.
  intros SL F Hf Ha Hb Hc. unfold image3_E, image3. cbv zeta. apply Qc_is_canon. rewrite this_times. unfold gcurrents3. rewrite !this_q2qc.
  change (Vx D) with (Ex D). change (Vy D) with (Ey D). change (Vz D) with (Ez D). change (Vx D') with (Ex D'). change (Vy D') with (Ey D'). change (Vz D') with (Ez D').
  set (a0 := origin_of _ _ _ _ a). set (b0 := origin_of _ _ _ _ b). set (c0 := origin_of _ _ _ _ c).
  pose proof (fun sp sp' r r' S R H => gdep_image3 D D' OK OK' y ID sp sp' r r' f a b c S R H Hf Ha Hb Hc) as K. fold a0 b0 c0 in K. unfold dep3 in K.
  clear U U'. clearbody a0 b0 c0. revert sps sps' SP SL. induction F as [|st st' ps ps' (l & L & H) F IH]; intros s s' SPS SL.
  - destruct SPS; cbn [combine qsum fold_right]; ring.
  - destruct SPS as [|sp sp' s s' E SPS]; [cbn [combine qsum fold_right]; ring|]. cbn [combine]. rewrite !qsum_cons. cbn [fst snd].
    rewrite (IH s s' SPS) by (intros st0 r I; apply SL; right; exact I). rewrite Qmult_plus_distr_r. apply Qplus_comp; [|reflexivity].
    rewrite (qsum_perm _ _ _ L), <- qsum_scale.
    assert (forall r, In r (particles st) -> fast3_ok r) as SS by (intros r Ir; apply (SL st); [left; reflexivity|exact Ir]).
    clear - H K E SS. revert SS. induction H as [|r r' l l' R H IH]; intro SS; [reflexivity|]. rewrite !qsum_cons.
    rewrite IH by (intros; apply SS; right; assumption). apply Qplus_comp; [|reflexivity]. apply K; auto. apply SS. left. reflexivity.
Qed.

Lemma image_step3 rank rank' s s' s1 s1' : ready3 D sps s -> ready3 D' sps' s' -> image3_state y D D' s s' ->
  step3d rsqrt eps D sps rank s s1 -> step3d rsqrt eps D' sps' rank' s' s1' ->
  image3_state y D D' s1 s1' /\ ready3 D sps s1 /\ ready3 D' sps' s1'.
Proof using SUB OK OK' ID SP U U'.
  intros [L F] [L' F'] ((FE & HE & HE') & (FB & HB & HB') & (FJ & HJ & HJ') & HP) S S'.
  destruct S as [mE mB mJ ps mE1 mB1 ps1 mJ1 ps2 mJ2 ps3 mB2 mE2 A1 A2 A3 A4 A5 A6 A7 A8].
  destruct S' as [mE' mB' mJ' ps' mE1' mB1' ps1' mJ1' ps2' mJ2' ps3' mB2' mE2' B1 B2 B3 B4 B5 B6 B7 B8].
  cbn [t_E t_B t_J t_parts] in *.
  pose proof (up_E3_ok eps D OK rank FB FJ FE mB mJ mE mE1 HE HB HJ A1) as HE1.
  pose proof (up_E3_ok eps D' OK' rank' _ _ _ mB' mJ' mE' mE1' HE' HB' HJ' B1) as HE1'.
  apply (field_ext3 D' OK' _ (image3_E y D' (gE3 eps D FB FJ FE))) in HE1'; [|intros f a b c Hf _ _ _; exact (gE_image3 eps D D' OK OK' y ID FB FJ FE f a b c Hf)].
  set (FE1 := gE3 eps D FB FJ FE) in *.
  pose proof (up_B3_ok eps D OK rank FE1 FB mE1 mB mB1 HB HE1 A2) as HB1.
  pose proof (up_B3_ok eps D' OK' rank' _ _ mE1' mB' mB1' HB' HE1' B2) as HB1'.
  apply (field_ext3 D' OK' _ (image3_B y D' (gB3 eps D FE1 FB))) in HB1'; [|intros f a b c Hf _ _ _; exact (gB_image3 eps D D' OK OK' y ID FE1 FB f a b c Hf)].
  set (FB1 := gB3 eps D FE1 FB) in *.
  destruct (forall2_sorted3 D ps ps1 A3 F) as (F1 & L1 & Q1). destruct (forall2_sorted3 D' ps' ps1' B3 F') as (F1' & L1' & Q1').
  assert (length ps1 = length sps) as LL by lia. assert (length ps1' = length sps') as LL' by lia.
  destruct (half_step3 rsqrt SUB D OK sps U rank FE1 FB1 mE1 mB1 mJ ps1 mJ1 ps2 mJ2 ps3 HE1 HB1 LL F1 A4 A5 A6) as (C & L3 & F3 & G & W).
  destruct (half_step3 rsqrt SUB D' OK' sps' U' rank' _ _ mE1' mB1' mJ' ps1' mJ1' ps2' mJ2' ps3' HE1' HB1' LL' F1' B4 B5 B6) as (C' & L3' & F3' & G' & W').
  pose proof (moved_all3 rsqrt SUB D OK sps U FE1 FB1 mE1 mB1 _ ps1 mJ1 ps2 HE1 HB1 LL F1 A4) as SL2.
  assert (Forall2 (image3_particles y D') ps1 ps1') as HP1.
  { refine (f2_two _ _ _ _ _ ps ps' ps1 ps1' HP Q1 Q1'). intros a b c e H1 H2 H3. apply (img_canon3 y D' (particles a) (particles b)); [apply Permutation_map; exact H2|apply Permutation_map; exact H3|exact H1]. }
  assert (Forall2 (image3_particles y D') ps2 ps2') as HP2.
  { clear - HP1 G G' SP SUB OK OK' ID LL LL'. revert ps1 ps1' HP1 LL LL' ps2 ps2' G G'. induction SP as [|sp sp' s s' E SP' IH]; intros ps1 ps1' HP1 L L' ps2 ps2' G G'.
    - cbn [combine] in *. inversion G; inversion G'; subst. constructor.
    - destruct HP1 as [|st st' ps1 ps1' H HP1]; [cbn [length] in L; lia|]. cbn [combine] in *. inversion G as [|? t ? ts T1 T2]; inversion G' as [|? t' ? ts' T1' T2']; subst. constructor.
      + cbn [fst snd] in *. refine (img_canon3 y D' _ _ (particles t) (particles t') _ _ (img_map3 y D' _ _ (particles st) (particles st') (fun r r' => grow_image3 rsqrt SUB D D' OK OK' y ID sp sp' FE1 FB1 r r' E) H)).
        * rewrite T1, map_map. apply Permutation_refl.
        * rewrite T1', map_map. apply Permutation_refl.
      + cbn [length] in L, L'. apply (IH SP' ps1 ps1'); auto. }
  assert (Forall2 (image3_particles y D') ps3 ps3') as HP3.
  { refine (f2_two _ _ _ _ _ ps2 ps2' ps3 ps3' HP2 W W'). intros a b c e H1 H2 H3.
    refine (img_canon3 y D' _ _ (particles c) (particles e) _ _ (img_map3 y D' _ _ (particles a) (particles b) (fun r r' => gwrap_image3 D D' y ID r r') H1)).
    - rewrite map_map. apply Permutation_sym. exact H2.
    - rewrite map_map. apply Permutation_sym. exact H3. }
  apply (currents_ext3b D' OK' _ (image3_E y D' (cur D sps ps2))) in C'; [|intros f a b c Hf Ha Hb Hc; exact (cur_image3 ps2 ps2' f a b c SL2 HP2 Hf Ha Hb Hc)].
  set (FJ2 := cur D sps ps2) in *.
  pose proof (up_B3_ok eps D OK rank FE1 FB1 mE1 mB1 mB2 HB1 HE1 A7) as HB2.
  pose proof (up_B3_ok eps D' OK' rank' _ _ mE1' mB1' mB2' HB1' HE1' B7) as HB2'.
  apply (field_ext3 D' OK' _ (image3_B y D' (gB3 eps D FE1 FB1))) in HB2'; [|intros f a b c Hf _ _ _; exact (gB_image3 eps D D' OK OK' y ID FE1 FB1 f a b c Hf)].
  set (FB2 := gB3 eps D FE1 FB1) in *.
  pose proof (up_E3_ok eps D OK rank FB2 FJ2 FE1 mB2 mJ2 mE1 mE2 HE1 HB2 C A8) as HE2.
  pose proof (up_E3_ok eps D' OK' rank' _ _ _ mB2' mJ2' mE1' mE2' HE1' HB2' C' B8) as HE2'.
  apply (field_ext3 D' OK' _ (image3_E y D' (gE3 eps D FB2 FJ2 FE1))) in HE2'; [|intros f a b c Hf _ _ _; exact (gE_image3 eps D D' OK OK' y ID FB2 FJ2 FE1 f a b c Hf)].
  split; [|split; split; assumption].
  split; [exists (gE3 eps D FB2 FJ2 FE1); split; assumption|]. split; [exists FB2; split; assumption|]. split; [exists FJ2; split; assumption|exact HP3].
Qed.
Lemma image_steps3 k : forall s s' s1 s1', ready3 D sps s -> ready3 D' sps' s' -> image3_state y D D' s s' ->
  steps3d rsqrt eps D sps k s s1 -> steps3d rsqrt eps D' sps' k s' s1' ->
  image3_state y D D' s1 s1' /\ ready3 D sps s1 /\ ready3 D' sps' s1'.
Proof using SUB OK OK' ID SP U U'.
  induction k as [|k IH]; intros s s' s1 s1' R R' S T T'; inversion T; inversion T'; subst; [auto|].
  destruct (image_step3 _ _ _ _ _ _ R R' S ltac:(eassumption) ltac:(eassumption)) as (S2 & R2 & R2'). eapply IH; [exact R2|exact R2'|exact S2|eassumption|eassumption].
Qed.
End Two.
