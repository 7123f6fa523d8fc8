(** Whole time steps, part 7: one step and many steps on two decompositions. *)
From Coq Require Import QArith Qabs Qround Qcanon Permutation Lqa.
From Verif Require Import Base M_Layout S_Layout M_PartSync S_PartSync M_FieldSync S_FieldSync M_Maxwell S_Maxwell M_Deposit S_Deposit M_Push P_Layout P_PartSync P_PartSync2 P_PartSync3 P_FieldSync5 P_Maxwell P_Maxwell2 P_Maxwell3 P_Deposit Properties_FieldSync Properties_PartSync M_Step S_Step P_Step1 P_Step2 P_Step3 P_Step4 P_Step5 P_Step6.
Local Open Scope list_scope.
Local Open Scope Z_scope.

(** * Fields *)
Section Fields.
Variable eps : Qc.
Variable D : domain2.
Hypothesis OK : domain_ok D.
Local Notation axes := [d_ax D; d_ay D]. Local Notation ns := [d_nx D; d_ny D].
Local Notation dx := (Q2Qc (d_dx D)). Local Notation dy := (Q2Qc (d_dy D)).
Definition gE (FB FJ F : nat -> list Z -> Qc) := grid_step (Q2Qc 0) (SE2 (qc_arith eps) dx dy (half D)) axes ns FB FJ F.
Definition gB (FE F : nat -> list Z -> Qc) := grid_step (Q2Qc 0) (SB2 (qc_arith eps) dx dy (half D)) axes ns FE FE F.
Lemma decomp_ok : decomp ns (d_ng D) bounds2 opp2 (npatches2 D) (nbr2 (d_ax D) (d_ay D)) axes (position2 (d_ax D)).
Proof. destruct (ok_n D OK) as [N1 N2]. destruct (ok_g D OK) as (G1 & G2 & G3). apply decomp2; try lia. exact (paired_axes D OK). Qed.
Lemma guards_ok rank m m' : sync_guards D rank m m' -> guards_exchanged bounds2 ns (d_ng D) (npatches2 D) (nbr2 (d_ax D) (d_ay D)) 3 m m'.
Proof. intros (sched & H). destruct (ok_g D OK) as (G1 & G2 & G3). eapply C11_guard_2d; try exact H; try lia. exact (nbr_sym D OK). Qed.
Lemma inside_of F m : currents_are D F m -> shows_inside (Q2Qc 0) axes ns (d_ng D) (npatches2 D) (position2 (d_ax D)) F m.
Proof. intros H f p c Hf Hp Hc. apply H; auto. Qed.
Lemma up_E_ok rank FB FJ F mB mJ m m' : field_is D F m -> field_is D FB mB -> currents_are D FJ mJ -> sync_guards D rank (up_E eps D mB mJ m) m' -> field_is D (gE FB FJ F) m'.
Proof.
  intros H HB HJ S. apply guards_ok in S. destruct (ok_g D OK) as (G1 & G2 & G3).
  apply (step_shows' (Q2Qc 0) _ _ _ _ _ _ _ _ decomp_ok (SE2 (qc_arith eps) dx dy (half D)) FB FJ F mB mJ m (up_E eps D mB mJ m) m'); auto.
  - apply local_SE2.
  - apply inside_of. exact HJ.
  - apply update_efield2_ok; lia.
Qed.
Lemma up_B_ok rank FE F mE m m' : field_is D F m -> field_is D FE mE -> sync_guards D rank (up_B eps D mE m) m' -> field_is D (gB FE F) m'.
Proof.
  intros H HE S. apply guards_ok in S. destruct (ok_g D OK) as (G1 & G2 & G3).
  apply (step_shows' (Q2Qc 0) _ _ _ _ _ _ _ _ decomp_ok (SB2 (qc_arith eps) dx dy (half D)) FE FE F mE mE m (up_B eps D mE m) m'); auto.
  - apply local_SB2.
  - apply shows_here; [lia|exact HE].
  - apply update_bfield2_ok; lia.
Qed.
End Fields.
Lemma same_grids D D' : domain_ok D -> domain_ok D' -> same_domain D D' -> same_grid [d_ax D; d_ay D] [d_nx D; d_ny D] [d_ax D'; d_ay D'] [d_nx D'; d_ny D'].
Proof.
  intros OK OK' (S1 & S2 & _). destruct (ok_px D OK) as [P1 _]. destruct (ok_py D OK) as [P2 _]. destruct (ok_px D' OK') as [P3 _]. destruct (ok_py D' OK') as [P4 _].
  unfold same_grid. cbn [combine]. constructor; [cbn [fst snd]; split; [exact S1|congruence]|]. constructor; [cbn [fst snd]; split; [exact S2|congruence]|constructor].
Qed.
Lemma gE_same eps D D' FB FJ F f g : domain_ok D -> domain_ok D' -> same_domain D D' -> gE eps D' FB FJ F f g = gE eps D FB FJ F f g.
Proof.
  intros OK OK' SD. unfold gE, half. pose proof SD as (_ & _ & <- & <- & <-). symmetry. apply (grid_step_ext (Q2Qc 0)); auto; [apply local_SE2|]. apply same_grids; auto.
Qed.
Lemma gB_same eps D D' FE F f g : domain_ok D -> domain_ok D' -> same_domain D D' -> gB eps D' FE F f g = gB eps D FE F f g.
Proof.
  intros OK OK' SD. unfold gB, half. pose proof SD as (_ & _ & <- & <- & <-). symmetry. apply (grid_step_ext (Q2Qc 0)); auto; [apply local_SB2|]. apply same_grids; auto.
Qed.

(** * Particles *)
Lemma alive_perm (l l' : list prt) : Permutation l l' -> Permutation (S_PartSync.alive l) (S_PartSync.alive l').
Proof.
  intro P. unfold S_PartSync.alive. apply Permutation_map. induction P as [|x l l' P IH|x y l|l l' k P1 IH1 P2 IH2]; cbn [filter].
  - constructor.
  - destruct (negb _); [constructor|]; exact IH.
  - destruct (negb (M_PartSync.dead _ x)), (negb (M_PartSync.dead _ y)); try reflexivity. constructor.
  - etransitivity; eassumption.
Qed.
Lemma sorted_nth st st' p : sorted2 st st' -> Permutation (nth p st []) (nth p st' []).
Proof. intro F. revert p. induction F as [|l l' st st' P F IH]; intros [|p]; cbn [nth]; auto. Qed.
Lemma sorted_length st st' : sorted2 st st' -> length st = length st'.
Proof. induction 1 as [|l l' st st' P F IH]; cbn [length]; congruence. Qed.
Lemma sorted_settled D st st' : settled D st -> sorted2 st st' -> settled D st'.
Proof.
  intros [L H] S. split; [rewrite <- (sorted_length _ _ S); exact L|]. intros p r Hp I. apply (H p r Hp).
  apply (Permutation_in r (Permutation_sym (alive_perm _ _ (sorted_nth _ _ p S)))). exact I.
Qed.
Lemma sorted_particles st st' : sorted2 st st' -> Permutation (particles st) (particles st').
Proof. intro S. unfold particles. induction S as [|l l' st st' P F IH]; cbn [flat_map]; [constructor|]. apply Permutation_app; [apply alive_perm; exact P|exact IH]. Qed.
Lemma through (h : prow body -> prow body) l l' : (forall r, canon (h (canon r)) = canon (h r)) -> Permutation (map canon l) (map canon l') ->
  Permutation (map (fun r => canon (h r)) l) (map (fun r => canon (h r)) l').
Proof.
  intros H P. assert (forall l, map (fun r => canon (h r)) l = map (fun r => canon (h r)) (map canon l)) as E by (intro k; rewrite map_map; apply map_ext; intro r; symmetry; apply H).
  rewrite E, (E l'). apply Permutation_map. exact P.
Qed.
Lemma pushed_particles rsqrt D FE FB sp st st' : length st = npatches2 D -> pushed rsqrt D FE FB sp st st' ->
  map canon (particles st') = map (fun r => canon (grow rsqrt (Wx D) (Wy D) (d_dx D) (d_dy D) (d_dt D) sp FE FB r)) (particles st).
Proof.
  intros L [L' H]. unfold particles. rewrite (flat_map_nth _ [] st), (flat_map_nth _ [] st'), L, L'. rewrite !flat_map_concat_map, !concat_map, !map_map. f_equal.
  apply map_ext_in. intros p Hp. apply in_seq in Hp. apply H. lia.
Qed.

(** * One step *)
Section Two.
Variable rsqrt : Q -> Q.
Hypothesis SUB : subluminal rsqrt.
Variable eps : Qc.
Variables D D' : domain2.
Hypothesis OK : domain_ok D.
Hypothesis OK' : domain_ok D'.
Hypothesis SD : same_domain D D'.
Variables sps sps' : list species.
Hypothesis SP : Forall2 same_species sps sps'.

Lemma push_det D0 sps0 mE mB mJ pss mJ1 pss1 mJ2 pss2 : push_species rsqrt D0 sps0 mE mB mJ pss = Some (mJ1, pss1) -> push_species rsqrt D0 sps0 mE mB mJ pss = Some (mJ2, pss2) -> mJ1 = mJ2 /\ pss1 = pss2.
Proof. intros E1 E2. rewrite E1 in E2. inversion E2. auto. Qed.

(** what a step does to the particles and currents, one decomposition *)
Lemma half_step D0 (OK0 : domain_ok D0) sps0 rank FE FB mE mB mJ ps mJ1 ps2 mJ2 ps3 : field_is D0 FE mE -> field_is D0 FB mB ->
  length ps = length sps0 -> Forall (settled D0) ps ->
  push_species rsqrt D0 sps0 mE mB (reset_currents D0 mJ) ps = Some (mJ1, ps2) -> sync_currents2 D0 rank mJ1 mJ2 -> Forall2 (sync_particles2 D0 rank) ps2 ps3 ->
  currents_are D0 (gcurrents (Wx D0) (Wy D0) (d_dx D0) (d_dy D0) (d_dt D0) sps0 ps2) mJ2 /\
  length ps3 = length sps0 /\ Forall (settled D0) ps3 /\
  Forall2 (fun ss st2 => map canon (particles st2) = map (fun r => canon (grow rsqrt (Wx D0) (Wy D0) (d_dx D0) (d_dy D0) (d_dt D0) (fst ss) FE FB r)) (particles (snd ss))) (combine sps0 ps) ps2 /\
  Forall2 (fun st2 st3 => Permutation (map canon (particles st3)) (map (fun r => canon (gwrap (Wx D0) (Wy D0) (d_dx D0) (d_dy D0) r)) (particles st2))) ps2 ps3.
Proof using SUB.
  intros HE HB L F E HJ HP. destruct (push_species_ok rsqrt SUB D0 OK0 FE FB mE mB HE HB sps0 ps (reset_currents D0 mJ) L F) as (mJ1' & ps2' & E' & P & V).
  destruct (push_det _ _ _ _ _ _ _ _ _ _ E E') as [<- <-]. clear E E'.
  assert (M : forall st p r, In st ps2 -> (p < npatches2 D0)%nat -> In r (S_PartSync.alive (nth p st [])) -> moved D0 p r).
  { intros st p r I Hp Ir. clear - P I Hp Ir. induction P as [|ss st' l l' [_ H] P IH]; [destruct I|]. destruct I as [<-|I]; [exact (proj2 (H p Hp) r Ir)|exact (IH I)]. }
  assert (M' : forall st, In st ps2 -> length st = npatches2 D0).
  { intros st I. clear - P I. induction P as [|ss st' l l' [H _] P IH]; [destruct I|]. destruct I as [<-|I]; [exact H|exact (IH I)]. }
  assert (length ps2 = length sps0) as L2.
  { assert (length (combine sps0 ps) = length ps2) as L2 by (clear - P; induction P; cbn [length]; congruence). rewrite combine_length in L2. lia. }
  split.
  { apply (currents_ok D0 OK0 sps0 ps2 rank mJ1 mJ2 M M'); [|exact HJ]. intros f q o Hf Hq Ho. rewrite (V f q o Hf Hq Ho), reset_value by assumption. cbn [Q2Qc this]. change (Qred 0) with 0%Q. ring. }
  assert (Forall2 (fun st2 st3 => settled D0 st3 /\ Permutation (map canon (particles st3)) (map (fun r => canon (gwrap (Wx D0) (Wy D0) (d_dx D0) (d_dy D0) r)) (particles st2))) ps2 ps3) as X.
  { clear - M M' HP OK0. induction HP as [|st2 st3 l l' H HP IH]; [constructor|]. constructor.
    - apply (exchange_ok D0 OK0 rank); [apply M'; left; reflexivity|intros p r; apply M; left; reflexivity|exact H].
    - apply IH; [intros st p r I; apply M; right; exact I|intros st I; apply M'; right; exact I]. }
  split; [|split; [|split]].
  - rewrite <- L2. clear - HP. induction HP; cbn [length]; congruence.
  - clear - X. induction X as [|? ? ? ? [H _] X IH]; constructor; assumption.
  - clear - P F OK0 L. revert sps0 L P. induction F as [|st ps [Hst _] F IH] in ps2 |- *; intros [|sp sps0] L P; cbn [length] in L; try lia; cbn [combine] in *.
    + inversion P; subst. constructor.
    + inversion P as [|? st2 ? ps2' P1 P2]; subst. constructor; [apply (pushed_particles rsqrt D0 FE FB); assumption|]. apply IH; [lia|exact P2].
  - clear - X. induction X as [|? ? ? ? [_ H] X IH]; constructor; assumption.
Qed.
Lemma grow_species FE FB sp sp' r Nx Ny dx dy dt : same_species sp sp' -> grow rsqrt Nx Ny dx dy dt sp FE FB r = grow rsqrt Nx Ny dx dy dt sp' FE FB r.
Proof using. intros [E1 E2]. unfold grow, gslot. rewrite E1, E2. reflexivity. Qed.
Lemma gcurrents_species Nx Ny dx dy dt pss f g : forall sps sps', Forall2 same_species sps sps' -> gcurrents Nx Ny dx dy dt sps pss f g = gcurrents Nx Ny dx dy dt sps' pss f g.
Proof using.
  intros s s' F. unfold gcurrents. apply q2qc_eq. revert pss. induction F as [|sp sp' s s' [E _] F IH]; intros [|st pss]; try reflexivity. cbn [combine]. rewrite !qsum_cons, IH. cbn [fst snd].
  apply Qplus_comp; [|reflexivity]. apply qsum_ext. intros r _. unfold gdep. rewrite E. reflexivity.
Qed.
Lemma currents_ext D0 F F' m : (forall f g, F f g = F' f g) -> currents_are D0 F m -> currents_are D0 F' m.
Proof using. intros H K f p c Hf Hp Hc. rewrite (K f p c Hf Hp Hc). unfold shown. destruct (place _ _ _ _); auto. Qed.
Lemma forall2_sorted D0 ps ps1 : Forall2 sorted2 ps ps1 -> Forall (settled D0) ps -> Forall (settled D0) ps1 /\ length ps1 = length ps /\ Forall2 (fun st st1 => Permutation (particles st) (particles st1)) ps ps1.
Proof using.
  induction 1 as [|st st1 ps ps1 S F IH]; intro H; [split; [constructor|split; [reflexivity|constructor]]|]. inversion H as [|? ? H1 H2]; subst. destruct (IH H2) as (I1 & I2 & I3).
  split; [constructor; [eapply sorted_settled; eassumption|exact I1]|]. split; [cbn [length]; congruence|]. constructor; [apply sorted_particles; exact S|exact I3].
Qed.

Lemma same_step rank rank' s s' s1 s1' : ready D sps s -> ready D' sps' s' -> same_state D D' s s' ->
  step2 rsqrt eps D sps rank s s1 -> step2 rsqrt eps D' sps' rank' s' s1' ->
  same_state D D' s1 s1' /\ ready D sps s1 /\ ready D' sps' s1'.
Proof using SUB OK OK' SD SP.
  intros [L F] [L' F'] ((FE & HE & HE') & (FB & HB & HB') & (FJ & HJ & HJ') & HP) S S'.
  destruct S as [mE mB mJ ps mE1 mB1 ps1 mJ1 ps2 mJ2 ps3 mB2 mE2 A1 A2 A3 A4 A5 A6 A7 A8].
  destruct S' as [mE' mB' mJ' ps' mE1' mB1' ps1' mJ1' ps2' mJ2' ps3' mB2' mE2' B1 B2 B3 B4 B5 B6 B7 B8].
  cbn [t_E t_B t_J t_parts] in *.
  pose proof (up_E_ok eps D OK rank FB FJ FE mB mJ mE mE1 HE HB HJ A1) as HE1.
  pose proof (up_E_ok eps D' OK' rank' FB FJ FE mB' mJ' mE' mE1' HE' HB' HJ' B1) as HE1'.
  apply (shows_ext (Q2Qc 0) _ _ _ _ _ _ (gE eps D FB FJ FE)) in HE1'; [|intros; apply gE_same; assumption].
  set (FE1 := gE eps D FB FJ FE) in *. fold (field_is D' FE1 mE1') in HE1'.
  pose proof (up_B_ok eps D OK rank FE1 FB mE1 mB mB1 HB HE1 A2) as HB1.
  pose proof (up_B_ok eps D' OK' rank' FE1 FB mE1' mB' mB1' HB' HE1' B2) as HB1'.
  apply (shows_ext (Q2Qc 0) _ _ _ _ _ _ (gB eps D FE1 FB)) in HB1'; [|intros; apply gB_same; assumption].
  set (FB1 := gB eps D FE1 FB) in *. fold (field_is D' FB1 mB1') in HB1'.
  destruct (forall2_sorted D ps ps1 A3 F) as (F1 & L1 & Q1). destruct (forall2_sorted D' ps' ps1' B3 F') as (F1' & L1' & Q1').
  destruct (half_step D OK sps rank FE1 FB1 mE1 mB1 mJ ps1 mJ1 ps2 mJ2 ps3 HE1 HB1 ltac:(lia) F1 A4 A5 A6) as (C & L3 & F3 & G & W).
  destruct (half_step D' OK' sps' rank' FE1 FB1 mE1' mB1' mJ' ps1' mJ1' ps2' mJ2' ps3' HE1' HB1' ltac:(lia) F1' B4 B5 B6) as (C' & L3' & F3' & G' & W').
  pose proof SD as (W1 & W2 & X1 & X2 & X3).
  assert (Forall2 same_particles ps1 ps1') as HP1.
  { clear - HP Q1 Q1'. revert ps1 ps1' Q1 Q1'. induction HP as [|st st' ps ps' H HP IH]; intros ps1 ps1' Q1 Q1'; inversion Q1; inversion Q1'; subst; constructor; [|apply IH; assumption].
    unfold same_particles in *. eapply perm_trans; [apply Permutation_map, Permutation_sym; eassumption|]. eapply perm_trans; [exact H|]. apply Permutation_map. assumption. }
  assert (Forall2 same_particles ps2 ps2') as HP2.
  { clear - HP1 G G' SP SUB W1 W2 X1 X2 X3 L L' L1 L1'. rewrite <- L1 in L. rewrite <- L1' in L'. clear L1 L1'. revert ps1 ps1' HP1 L L' ps2 ps2' G G'. induction SP as [|sp sp' s s' E SP' IH]; intros ps1 ps1' HP1 L L' ps2 ps2' G G'.
    - cbn [combine] in *. inversion G; inversion G'; subst. constructor.
    - destruct HP1 as [|st st' ps1 ps1' H HP1]; [cbn [length] in L; lia|]. cbn [combine] in *. inversion G as [|? t ? ts T1 T2]; inversion G' as [|? t' ? ts' T1' T2']; subst. constructor.
      + unfold same_particles. cbn [fst snd] in *. rewrite T1, T1'. rewrite <- X1, <- X2, <- X3, <- W1, <- W2.
        rewrite (map_ext _ _ (fun r => f_equal canon (eq_sym (grow_species FE1 FB1 sp sp' r (Wx D) (Wy D) (d_dx D) (d_dy D) (d_dt D) E))) (particles st')).
        apply (through (grow rsqrt (Wx D) (Wy D) (d_dx D) (d_dy D) (d_dt D) sp FE1 FB1)); [|exact H]. intro r. apply grow_canon. exact SUB.
      + cbn [length] in L, L'. apply (IH SP' ps1 ps1'); auto. }
  assert (Forall2 same_particles ps3 ps3') as HP3.
  { clear - HP2 W W' W1 W2 X1 X2. revert ps3 ps3' W W'. induction HP2 as [|st st' ps2 ps2' H HP2 IH]; intros ps3 ps3' W W'; inversion W as [|? t ? ts T1 T2]; inversion W' as [|? t' ? ts' T1' T2']; subst; constructor; [|apply IH; assumption].
    unfold same_particles. rewrite T1, T1'. rewrite <- X1, <- X2, <- W1, <- W2. apply through; [|exact H]. intro r. apply gwrap_eq, canon_idem. }
  destruct (ok_d D OK) as [D1 D2].
  apply (currents_ext D' _ (gcurrents (Wx D) (Wy D) (d_dx D) (d_dy D) (d_dt D) sps ps2)) in C'.
  2:{ intros f g. rewrite <- X1, <- X2, <- X3, <- W1, <- W2. rewrite (gcurrents_species _ _ _ _ _ _ _ _ sps sps' SP). symmetry. apply gcurrents_eq; assumption. }
  set (FJ2 := gcurrents (Wx D) (Wy D) (d_dx D) (d_dy D) (d_dt D) sps ps2) in *.
  pose proof (up_B_ok eps D OK rank FE1 FB1 mE1 mB1 mB2 HB1 HE1 A7) as HB2.
  pose proof (up_B_ok eps D' OK' rank' FE1 FB1 mE1' mB1' mB2' HB1' HE1' B7) as HB2'.
  apply (shows_ext (Q2Qc 0) _ _ _ _ _ _ (gB eps D FE1 FB1)) in HB2'; [|intros; apply gB_same; assumption].
  set (FB2 := gB eps D FE1 FB1) in *. fold (field_is D' FB2 mB2') in HB2'.
  pose proof (up_E_ok eps D OK rank FB2 FJ2 FE1 mB2 mJ2 mE1 mE2 HE1 HB2 C A8) as HE2.
  pose proof (up_E_ok eps D' OK' rank' FB2 FJ2 FE1 mB2' mJ2' mE1' mE2' HE1' HB2' C' B8) as HE2'.
  apply (shows_ext (Q2Qc 0) _ _ _ _ _ _ (gE eps D FB2 FJ2 FE1)) in HE2'; [|intros; apply gE_same; assumption].
  split; [|split; split; assumption].
  split; [exists (gE eps D FB2 FJ2 FE1); split; assumption|]. split; [exists FB2; split; assumption|]. split; [exists FJ2; split; assumption|exact HP3].
Qed.
Lemma same_steps k : forall s s' s1 s1', ready D sps s -> ready D' sps' s' -> same_state D D' s s' ->
  steps2 rsqrt eps D sps k s s1 -> steps2 rsqrt eps D' sps' k s' s1' ->
  same_state D D' s1 s1' /\ ready D sps s1 /\ ready D' sps' s1'.
Proof using SUB OK OK' SD SP.
  induction k as [|k IH]; intros s s' s1 s1' R R' S T T'; inversion T; inversion T'; subst; [auto|].
  destruct (same_step _ _ _ _ _ _ R R' S ltac:(eassumption) ltac:(eassumption)) as (S2 & R2 & R2'). eapply IH; [exact R2|exact R2'|exact S2|eassumption|eassumption].
Qed.
End Two.
