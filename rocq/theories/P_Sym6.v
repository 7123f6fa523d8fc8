(** Symmetries: whole steps. *)
From Coq Require Import QArith Qround Qabs Qcanon Lqa Permutation Setoid Morphisms.
From Verif Require Import Base M_Layout M_PartSync S_PartSync M_FieldSync S_FieldSync S_Maxwell P_Maxwell3 M_Deposit S_Deposit P_Deposit M_Push S_Push M_Step S_Step
  P_Step2 P_Step3 P_Step4 P_Step5 P_Step6 P_Step7 S_Gauss P_Gauss1 P_Gauss2 S_Sym P_Sym1 P_Sym2 P_Sym3 P_Sym4 P_Sym5.
Local Open Scope list_scope.
Local Open Scope Z_scope.

(** * Lists of particles *)
Section Lists.
Variables (y : symmetry) (D' : domain2).
Definition img (l l' : list (prow body)) : Prop := exists m, Permutation l' m /\ Forall2 (image_row y D') l m.
Lemma img_canon l l' l1 l1' : Permutation (map canon l) (map canon l1) -> Permutation (map canon l') (map canon l1') -> img l l' -> img l1 l1'.
Proof using.
  intros P P' (m & M & F).
  destruct (Permutation_map_inv canon _ P) as (l2 & E2 & P2).
  assert (Permutation (map canon m) (map canon l1')) as Q by (eapply perm_trans; [apply Permutation_map, Permutation_sym; exact M|exact P']).
  destruct (Permutation_map_inv canon _ Q) as (m2 & E3 & P3).
  assert (Forall2 (image_row y D') l2 m2) as F2.
  { clear - E2 E3 F. revert l2 m2 E2 E3. induction F as [|r r' l m H F IH]; intros [|r2 l2] [|r2' m2] E2 E3; cbn [map] in *; try discriminate; constructor.
    - apply (image_canon D' y r r'); [exact (f_equal (hd (canon r)) E2)|exact (f_equal (hd (canon r')) E3)|exact H].
    - apply IH; [exact (f_equal (@tl _) E2)|exact (f_equal (@tl _) E3)]. }
  destruct (Permutation_Forall2 (Permutation_sym P2) F2) as (n & N1 & N2). exists n. split; [|exact N2]. eapply perm_trans; [exact P3|exact N1].
Qed.
Lemma img_map (h h' : prow body -> prow body) l l' : (forall r r', image_row y D' r r' -> image_row y D' (h r) (h' r')) -> img l l' -> img (map h l) (map h' l').
Proof using. intros H (m & M & F). exists (map h' m). split; [apply Permutation_map; exact M|]. clear M. induction F; cbn [map]; constructor; auto. Qed.
End Lists.

Lemma f2_two {A B C E} (P : A -> B -> Prop) (Q : A -> C -> Prop) (R : B -> E -> Prop) (T : C -> E -> Prop) :
  (forall a b c e, P a b -> Q a c -> R b e -> T c e) -> forall la lb lc le, Forall2 P la lb -> Forall2 Q la lc -> Forall2 R lb le -> Forall2 T lc le.
Proof. intros H la lb lc le F. revert lc le. induction F as [|a b la lb X F IH]; intros lc le G K; inversion G; inversion K; subst; constructor; eauto. Qed.

Section Two.
Variable rsqrt : Q -> Q.
Hypothesis SUB : subluminal rsqrt.
Variable eps : Qc.
Variables D D' : domain2.
Hypothesis OK : domain_ok D.
Hypothesis OK' : domain_ok D'.
Variable y : symmetry.
Hypothesis ID : image_domain y D D'.
Variables sps sps' : list species.
Hypothesis SP : Forall2 (image_species y) sps sps'.
Local Notation cur D := (gcurrents (Wx D) (Wy D) (d_dx D) (d_dy D) (d_dt D)).
Local Notation dep D := (gdep (Cx D) (Cy D) (d_dx D) (d_dy D) (d_dt D)).

Lemma cur_image ps ps' f a b : slow_all ps -> Forall2 (image_particles y D') ps ps' -> (f < 4)%nat -> 0 <= a < Cx D' -> 0 <= b < Cy D' ->
  cur D' sps' ps' f [a; b] = image_E y D' (cur D sps ps) f [a; b].
Proof using OK OK' ID SP.
  intros SL F Hf Ha Hb. unfold image_E, image. cbv zeta. apply Qc_is_canon. rewrite this_times. unfold gcurrents. rewrite !this_q2qc.
  change (Wx D) with (Cx D). change (Wy D) with (Cy D). change (Wx D') with (Cx D'). change (Wy D') with (Cy D').
  set (a0 := origin_of _ _ _ _ a). set (b0 := origin_of _ _ _ _ b).
  pose proof (fun sp sp' r r' S R H => gdep_image D D' OK OK' y ID sp sp' r r' f a b S R H Hf Ha Hb) as K. cbv zeta in K. fold a0 b0 in K.
  clearbody a0 b0. revert sps sps' SP SL. induction F as [|st st' ps ps' (l & L & H) F IH]; intros s s' SPS SL.
  - destruct SPS; cbn [combine qsum fold_right]; ring.
  - destruct SPS as [|sp sp' s s' E SPS]; [cbn [combine qsum fold_right]; ring|]. cbn [combine]. rewrite !qsum_cons. cbn [fst snd].
    rewrite (IH s s' SPS) by (intros st0 r I; apply SL; right; exact I). rewrite Qmult_plus_distr_r. apply Qplus_comp; [|reflexivity].
    rewrite (qsum_perm _ _ _ L), <- qsum_scale.
    assert (forall r, In r (particles st) -> fast_ok r) as SS by (intros r Ir; apply (SL st); [left; reflexivity|exact Ir]).
    clear - H K E SS. revert SS. induction H as [|r r' l l' R H IH]; intro SS; [reflexivity|]. rewrite !qsum_cons.
    rewrite IH by (intros; apply SS; right; assumption). apply Qplus_comp; [|reflexivity]. apply K; auto. apply SS. left. reflexivity.
Qed.

Lemma image_step rank rank' s s' s1 s1' : ready D sps s -> ready D' sps' s' -> image_state y D D' s s' ->
  step2 rsqrt eps D sps rank s s1 -> step2 rsqrt eps D' sps' rank' s' s1' ->
  image_state y D D' s1 s1' /\ ready D sps s1 /\ ready D' sps' s1'.
Proof using SUB OK OK' ID SP.
  intros [L F] [L' F'] ((FE & HE & HE') & (FB & HB & HB') & (FJ & HJ & HJ') & HP) S S'.
  destruct S as [mE mB mJ ps mE1 mB1 ps1 mJ1 ps2 mJ2 ps3 mB2 mE2 A1 A2 A3 A4 A5 A6 A7 A8].
  destruct S' as [mE' mB' mJ' ps' mE1' mB1' ps1' mJ1' ps2' mJ2' ps3' mB2' mE2' B1 B2 B3 B4 B5 B6 B7 B8].
  cbn [t_E t_B t_J t_parts] in *.
  pose proof (up_E_ok eps D OK rank FB FJ FE mB mJ mE mE1 HE HB HJ A1) as HE1.
  pose proof (up_E_ok eps D' OK' rank' _ _ _ mB' mJ' mE' mE1' HE' HB' HJ' B1) as HE1'.
  apply (field_ext2 D' OK' _ (image_E y D' (gE eps D FB FJ FE))) in HE1'; [|intros f a b Hf _ _; exact (gE_image eps D D' OK OK' y ID FB FJ FE f a b Hf)].
  set (FE1 := gE eps D FB FJ FE) in *.
  pose proof (up_B_ok eps D OK rank FE1 FB mE1 mB mB1 HB HE1 A2) as HB1.
  pose proof (up_B_ok eps D' OK' rank' _ _ mE1' mB' mB1' HB' HE1' B2) as HB1'.
  apply (field_ext2 D' OK' _ (image_B y D' (gB eps D FE1 FB))) in HB1'; [|intros f a b Hf _ _; exact (gB_image eps D D' OK OK' y ID FE1 FB f a b Hf)].
  set (FB1 := gB eps D FE1 FB) in *.
  destruct (forall2_sorted D ps ps1 A3 F) as (F1 & L1 & Q1). destruct (forall2_sorted D' ps' ps1' B3 F') as (F1' & L1' & Q1').
  assert (length ps1 = length sps) as LL by lia. assert (length ps1' = length sps') as LL' by lia.
  destruct (half_step rsqrt SUB D OK sps rank FE1 FB1 mE1 mB1 mJ ps1 mJ1 ps2 mJ2 ps3 HE1 HB1 LL F1 A4 A5 A6) as (C & L3 & F3 & G & W).
  destruct (half_step rsqrt SUB D' OK' sps' rank' _ _ mE1' mB1' mJ' ps1' mJ1' ps2' mJ2' ps3' HE1' HB1' LL' F1' B4 B5 B6) as (C' & L3' & F3' & G' & W').
  pose proof (moved_all rsqrt SUB D OK sps FE1 FB1 mE1 mB1 _ ps1 mJ1 ps2 HE1 HB1 LL F1 A4) as SL2.
  assert (Forall2 (image_particles y D') ps1 ps1') as HP1.
  { refine (f2_two _ _ _ _ _ ps ps' ps1 ps1' HP Q1 Q1'). intros a b c e H1 H2 H3. apply (img_canon y D' (particles a) (particles b)); [apply Permutation_map; exact H2|apply Permutation_map; exact H3|exact H1]. }
  assert (Forall2 (image_particles y D') ps2 ps2') as HP2.
  { clear - HP1 G G' SP SUB OK OK' ID LL LL'. revert ps1 ps1' HP1 LL LL' ps2 ps2' G G'. induction SP as [|sp sp' s s' E SP' IH]; intros ps1 ps1' HP1 L L' ps2 ps2' G G'.
    - cbn [combine] in *. inversion G; inversion G'; subst. constructor.
    - destruct HP1 as [|st st' ps1 ps1' H HP1]; [cbn [length] in L; lia|]. cbn [combine] in *. inversion G as [|? t ? ts T1 T2]; inversion G' as [|? t' ? ts' T1' T2']; subst. constructor.
      + cbn [fst snd] in *. refine (img_canon y D' _ _ (particles t) (particles t') _ _ (img_map y D' _ _ (particles st) (particles st') (fun r r' => grow_image rsqrt SUB D D' OK OK' y ID sp sp' FE1 FB1 r r' E) H)).
        * rewrite T1, map_map. apply Permutation_refl.
        * rewrite T1', map_map. apply Permutation_refl.
      + cbn [length] in L, L'. apply (IH SP' ps1 ps1'); auto. }
  assert (Forall2 (image_particles y D') ps3 ps3') as HP3.
  { refine (f2_two _ _ _ _ _ ps2 ps2' ps3 ps3' HP2 W W'). intros a b c e H1 H2 H3.
    refine (img_canon y D' _ _ (particles c) (particles e) _ _ (img_map y D' _ _ (particles a) (particles b) (fun r r' => gwrap_image D D' y ID r r') H1)).
    - rewrite map_map. apply Permutation_sym. exact H2.
    - rewrite map_map. apply Permutation_sym. exact H3. }
  apply (currents_ext2 D' OK' _ (image_E y D' (cur D sps ps2))) in C'; [|intros f a b Hf Ha Hb; exact (cur_image ps2 ps2' f a b SL2 HP2 Hf Ha Hb)].
  set (FJ2 := cur D sps ps2) in *.
  pose proof (up_B_ok eps D OK rank FE1 FB1 mE1 mB1 mB2 HB1 HE1 A7) as HB2.
  pose proof (up_B_ok eps D' OK' rank' _ _ mE1' mB1' mB2' HB1' HE1' B7) as HB2'.
  apply (field_ext2 D' OK' _ (image_B y D' (gB eps D FE1 FB1))) in HB2'; [|intros f a b Hf _ _; exact (gB_image eps D D' OK OK' y ID FE1 FB1 f a b Hf)].
  set (FB2 := gB eps D FE1 FB1) in *.
  pose proof (up_E_ok eps D OK rank FB2 FJ2 FE1 mB2 mJ2 mE1 mE2 HE1 HB2 C A8) as HE2.
  pose proof (up_E_ok eps D' OK' rank' _ _ _ mB2' mJ2' mE1' mE2' HE1' HB2' C' B8) as HE2'.
  apply (field_ext2 D' OK' _ (image_E y D' (gE eps D FB2 FJ2 FE1))) in HE2'; [|intros f a b Hf _ _; exact (gE_image eps D D' OK OK' y ID FB2 FJ2 FE1 f a b Hf)].
  split; [|split; split; assumption].
  split; [exists (gE eps D FB2 FJ2 FE1); split; assumption|]. split; [exists FB2; split; assumption|]. split; [exists FJ2; split; assumption|exact HP3].
Qed.
Lemma image_steps k : forall s s' s1 s1', ready D sps s -> ready D' sps' s' -> image_state y D D' s s' ->
  steps2 rsqrt eps D sps k s s1 -> steps2 rsqrt eps D' sps' k s' s1' ->
  image_state y D D' s1 s1' /\ ready D sps s1 /\ ready D' sps' s1'.
Proof using SUB OK OK' ID SP.
  induction k as [|k IH]; intros s s' s1 s1' R R' S T T'; inversion T; inversion T'; subst; [auto|].
  destruct (image_step _ _ _ _ _ _ R R' S ltac:(eassumption) ltac:(eassumption)) as (S2 & R2 & R2'). eapply IH; [exact R2|exact R2'|exact S2|eassumption|eassumption].
Qed.
End Two.
