(** The cloud of charge in three dimensions, part 2: push, deposition and exchange work on keys; steps. *)
From Coq Require Import QArith Qabs Qround Qcanon Permutation Lqa.
From Verif Require Import Base M_Layout S_Layout M_PartSync S_PartSync M_FieldSync S_FieldSync M_Maxwell S_Maxwell M_Deposit S_Deposit M_Push S_Push P_Deposit P_Interp P_Push P_Maxwell P_Maxwell2 P_Maxwell3 M_Step S_Step P_Step1 P_Step2 P_Step3 P_Step4 P_Step5 P_Step6 P_Step7 P_Cloud P_Cloud2
  M_Step3D S_Step3D P_StepD1 P_StepD2 P_StepD3 P_StepD5 P_StepD6 P_StepD7 S_Cloud3D P_CloudD1.
Local Open Scope list_scope.
Local Open Scope Q_scope.

(** * The push *)
Section Push.
Variable rsqrt : Q -> Q.
Hypothesis SUB : subluminal rsqrt.
Variables (Nx Ny Nz : Z) (dx dy dz dt : Q) (FE FB : nat -> list Z -> Qc).
Local Notation grow3 := (P_StepD2.grow3 rsqrt Nx Ny Nz dx dy dz dt).
Lemma grow_ratio3 sp sp' r : sp_q sp / sp_m sp == sp_q sp' / sp_m sp' -> canon (grow3 sp FE FB r) = canon (grow3 sp' FE FB r).
Proof.
  intro E. unfold P_StepD2.grow3. apply canon_store3; [reflexivity|]. unfold gslot3, one. destruct (skipped _); [split; [apply part_refl|apply same6_refl]|].
  cbv zeta. unfold ginterp3. cbn [obind]. 
  match goal with |- pslot_eq (M_Push.mkSlot (push_position_3d ?c (l_p (push_momentum rsqrt ?q ?m dt ?s))) _) (M_Push.mkSlot (push_position_3d ?c (l_p (push_momentum rsqrt ?q' ?m' dt ?s))) _) =>
    destruct (momentum_ratio rsqrt SUB dt q m q' m' s E) as [M1 M2] end.
  split; cbn [l_p l_f]; [apply (move3_eq rsqrt (proj1 SUB)); exact M1|exact M2].
Qed.
Lemma strip_grow3 sp r : placed r -> strip3 (grow3 sp FE FB r) = strip3 (grow3 sp FE FB (strip3 r)).
Proof.
  intros (x & y & z & E1 & E2 & E3). destruct r as [rx ry rz rb]. destruct rb as [ux uy uz ig w f id]. cbn [px py pz] in E1, E2, E3. subst rx ry rz.
  unfold P_StepD2.grow3, gslot3, one, strip3, load3, store3, rowof, ginterp3, push_momentum. cbn [M_PartSync.row M_PartSync.dead px py pz other b_ux b_uy b_uz b_ig b_w b_f b_id l_p l_f isnan val orb skipped p_dead p_nan obind push_position_3d p_x p_y p_z p_ux p_uy p_uz p_ig p_w].
  unfold skipped. cbn [l_p p_dead p_nan orb]. 
  match goal with |- context [boris_inline ?a ?b ?c ?d ?e ?u ?v ?w] => destruct (boris_inline a b c d e u v w) as [[[u1 u2] u3] g] end. reflexivity.
Qed.
Definition grow_key3 (k : Q * prow body) : Q * prow body := (fst k, canon (strip3 (grow3 (mkSpecies (fst k) 1 true) FE FB (snd k)))).
Lemma grow_keys3 sp r : placed r -> key3 sp (grow3 sp FE FB r) = grow_key3 (key3 sp r).
Proof.
  intro P. unfold key3, grow_key3. cbn [fst snd]. f_equal. rewrite (strip_grow3 sp r P). apply canon_strip3.
  rewrite (P_StepD2.grow3_canon rsqrt SUB). apply grow_ratio3. cbn [sp_q sp_m]. rewrite Qred_correct. unfold Qdiv at 2. change (/ 1) with 1. ring.
Qed.
Lemma grow_w3 sp r : b_w (other _ (grow3 sp FE FB r)) = b_w (other _ r). Proof. reflexivity. Qed.
Lemma grow_placed3 sp r : placed r -> placed (grow3 sp FE FB r).
Proof. intros (x & y & z & E1 & E2 & E3). unfold placed, P_StepD2.grow3, store3, rowof. cbn [M_PartSync.row px py pz]. rewrite E1, E2, E3. cbn [isnan]. eauto 8. Qed.
End Push.

(** * The exchange *)
Section Wrap.
Variables (Nx Ny Nz : Z) (dx dy dz : Q).
Definition wrap_key3 (k : Q * prow body) : Q * prow body := (fst k, canon (gwrap3 Nx Ny Nz dx dy dz (snd k))).
Lemma wrap_keys3 (sp : species) r : key3 sp (gwrap3 Nx Ny Nz dx dy dz r) = wrap_key3 (key3 sp r).
Proof. unfold key3, wrap_key3. cbn [fst snd]. f_equal. rewrite (gwrap3_eq Nx Ny Nz dx dy dz (canon (strip3 r)) (strip3 r) (canon_idem _)). reflexivity. Qed.
Lemma wrap_placed3 r : placed r -> placed (gwrap3 Nx Ny Nz dx dy dz r).
Proof. intros (x & y & z & E1 & E2 & E3). unfold placed, gwrap3. cbn [px py pz]. rewrite E1, E2, E3. cbn [option_map]. eauto 8. Qed.
End Wrap.

(** * Deposition *)
Definition ev_times3 (a : Q) (e e' : ev) : Prop :=
  e_i e = e_i e' /\ e_j e = e_j e' /\ e_k e = e_k e' /\ e_jx e == a * e_jx e' /\ e_jy e == a * e_jy e' /\ e_jz e == a * e_jz e' /\ e_rho e == a * e_rho e'.
Definition wtimes (a : Q) (w w' : Q * Q * Q) : Prop := fst (fst w) == a * fst (fst w') /\ snd (fst w) == a * snd (fst w') /\ snd w == a * snd w'.
Lemma weights_times S0x S0y S0z DSx DSy DSz a f1 f2 f3 f1' f2' f3' : f1 == a * f1' -> f2 == a * f2' -> f3 == a * f3' ->
  forall i j k, wtimes a (weights_fast S0x S0y S0z DSx DSy DSz f1 f2 f3 i j k) (weights_fast S0x S0y S0z DSx DSy DSz f1' f2' f3' i j k).
Proof. intros K1 K2 K3 i j k. unfold wtimes, weights_fast. cbv zeta. cbn [fst snd]. split; [rewrite K1; ring|]. split; [rewrite K2; ring|rewrite K3; ring]. Qed.
Section Scale.
Variables S1x S1y S1z : list Q.
Variables a c c' : Q.
Hypothesis K1 : c == a * c'.
Variables w w' : nat -> nat -> nat -> Q * Q * Q.
Hypothesis KW : forall i j k, wtimes a (w i j k) (w' i j k).
Lemma line3_times i j : forall ks bx bx' by_ by' z z', (forall k l, bx k l == a * bx' k l) -> (forall k, by_ k == a * by' k) -> z == a * z' ->
  let r := line3 S1x S1y S1z c w i j ks bx by_ z in let r' := line3 S1x S1y S1z c' w' i j ks bx' by' z' in
  (forall k l, fst (fst r) k l == a * fst (fst r') k l) /\ (forall k, snd (fst r) k == a * snd (fst r') k) /\ Forall2 (ev_times3 a) (snd r) (snd r').
Proof.
  induction ks as [|k ks IH]; intros bx bx' by_ by' z z' B Y Z; cbv zeta; cbn [line3].
  - split; [exact B|]. split; [exact Y|constructor].
  - pose proof (KW i j k) as (W1 & W2 & W3). destruct (w i j k) as [[wx wy] wz]. destruct (w' i j k) as [[wx' wy'] wz']. cbn [fst snd] in W1, W2, W3.
    assert (forall m l, fset k (fset j (bx k j - wx) (bx k)) bx m l == a * fset k (fset j (bx' k j - wx') (bx' k)) bx' m l) as B'.
    { intros m l. unfold fset. destruct (m =? k)%nat; [|apply B]. destruct (l =? j)%nat; [|apply B]. rewrite (B k j), W1. ring. }
    assert (forall m, fset k (by_ k - wy) by_ m == a * fset k (by' k - wy') by' m) as Y'.
    { intro m. unfold fset. destruct (m =? k)%nat; [|apply Y]. rewrite (Y k), W2. ring. }
    assert (z - wz == a * (z' - wz')) as Z' by (rewrite Z, W3; ring).
    destruct (IH _ _ _ _ _ _ B' Y' Z') as (R1 & R2 & R3). cbv zeta in R1, R2, R3.
    set (u := line3 S1x S1y S1z c w i j ks _ _ _) in *. set (u' := line3 S1x S1y S1z c' w' i j ks _ _ _) in *. destruct u as [[u1 u2] u3], u' as [[v1 v2] v3]. cbn [fst snd] in *.
    split; [exact R1|]. split; [exact R2|]. constructor; [|exact R3]. unfold ev_times3. cbn [e_i e_j e_k e_jx e_jy e_jz e_rho].
    do 3 (split; [reflexivity|]). split; [apply B'|]. split; [apply Y'|]. split; [exact Z'|]. rewrite K1. ring.
Qed.
Lemma zero_times : 0 == a * 0. Proof using. ring. Qed.
Lemma plane3_times i ks : forall js bx bx' by_ by', (forall k l, bx k l == a * bx' k l) -> (forall k, by_ k == a * by' k) ->
  let r := plane3 S1x S1y S1z c w i js ks bx by_ in let r' := plane3 S1x S1y S1z c' w' i js ks bx' by' in
  (forall k l, fst r k l == a * fst r' k l) /\ Forall2 (ev_times3 a) (snd r) (snd r').
Proof.
  induction js as [|j js IH]; intros bx bx' by_ by' B Y; cbv zeta; cbn [plane3]; [split; [exact B|constructor]|].
  destruct (line3_times i j ks bx bx' by_ by' 0 0 B Y ltac:(ring)) as (R1 & R2 & R3). cbv zeta in R1, R2, R3.
  set (u := line3 S1x S1y S1z c w i j ks _ _ _) in *. set (u' := line3 S1x S1y S1z c' w' i j ks _ _ _) in *. destruct u as [[u1 u2] u3], u' as [[v1 v2] v3]. cbn [fst snd] in R1, R2, R3.
  destruct (IH _ _ _ _ R1 R2) as (T1 & T2). cbv zeta in T1, T2.
  set (p := plane3 S1x S1y S1z c w i js ks _ _) in *. set (p' := plane3 S1x S1y S1z c' w' i js ks _ _) in *. destruct p as [p1 p2], p' as [q1 q2]. cbn [fst snd] in *.
  split; [exact T1|]. apply Forall2_app; assumption.
Qed.
Lemma cells3_times js ks : forall is_ bx bx', (forall k l, bx k l == a * bx' k l) -> Forall2 (ev_times3 a) (cells3 S1x S1y S1z c w is_ js ks bx) (cells3 S1x S1y S1z c' w' is_ js ks bx').
Proof.
  induction is_ as [|i is_ IH]; intros bx bx' B; cbn [cells3]; [constructor|].
  destruct (plane3_times i ks js bx bx' (fun _ => 0) (fun _ => 0) B (fun _ => zero_times)) as (T1 & T2). cbv zeta in T1, T2.
  set (p := plane3 S1x S1y S1z c w i js ks _ _) in *. set (p' := plane3 S1x S1y S1z c' w' i js ks _ _) in *. destruct p as [p1 p2], p' as [q1 q2]. cbn [fst snd] in *.
  apply Forall2_app; [exact T2|apply IH; exact T1].
Qed.
End Scale.
Section Dep.
Variables (Nx Ny Nz : Z) (dx dy dz dt : Q).
Hypothesis Dx : 0 < dx. Hypothesis Dy : 0 < dy. Hypothesis Dz : 0 < dz.
Local Notation gdep3 := (gdep3 Nx Ny Nz dx dy dz dt).
Lemma prf_times3 a f e e' : ev_times3 a e e' -> prf f e == a * prf f e'.
Proof. intros (_ & _ & _ & H1 & H2 & H3 & H4). destruct f as [|[|[|f]]]; assumption. Qed.
Lemma kevs_times3 sp r : Forall2 (ev_times3 (sp_q sp * b_w (other _ r))) (mevs (whole3 Nx Ny Nz dx dy dz) dt (sp_q sp) (bare3 r)) (mevs (whole3 Nx Ny Nz dx dy dz) dt 1 (bare3 (strip3 r))).
Proof.
  unfold mevs, m_evs. cbv zeta.
  change (m_ix (whole3 Nx Ny Nz dx dy dz) dt (bare3 (strip3 r))) with (m_ix (whole3 Nx Ny Nz dx dy dz) dt (bare3 r)). change (m_iy (whole3 Nx Ny Nz dx dy dz) dt (bare3 (strip3 r))) with (m_iy (whole3 Nx Ny Nz dx dy dz) dt (bare3 r)).
  change (m_X0 (whole3 Nx Ny Nz dx dy dz) dt (bare3 (strip3 r))) with (m_X0 (whole3 Nx Ny Nz dx dy dz) dt (bare3 r)). change (m_X1 (whole3 Nx Ny Nz dx dy dz) dt (bare3 (strip3 r))) with (m_X1 (whole3 Nx Ny Nz dx dy dz) dt (bare3 r)).
  change (m_Y0 (whole3 Nx Ny Nz dx dy dz) dt (bare3 (strip3 r))) with (m_Y0 (whole3 Nx Ny Nz dx dy dz) dt (bare3 r)). change (m_Y1 (whole3 Nx Ny Nz dx dy dz) dt (bare3 (strip3 r))) with (m_Y1 (whole3 Nx Ny Nz dx dy dz) dt (bare3 r)).
  change (m_Z0 (whole3 Nx Ny Nz dx dy dz) dt (bare3 (strip3 r))) with (m_Z0 (whole3 Nx Ny Nz dx dy dz) dt (bare3 r)). change (m_Z1 (whole3 Nx Ny Nz dx dy dz) dt (bare3 (strip3 r))) with (m_Z1 (whole3 Nx Ny Nz dx dy dz) dt (bare3 r)).
  change (m_iz (whole3 Nx Ny Nz dx dy dz) dt (bare3 (strip3 r))) with (m_iz (whole3 Nx Ny Nz dx dy dz) dt (bare3 r)).
  change (p_w (bare3 (strip3 r))) with 1. change (p_w (bare3 r)) with (b_w (other _ r)).
  apply cells3_times; [unfold Qdiv; ring| |intros; ring].
  apply weights_times; unfold Qdiv; ring.
Qed.
Lemma gdep_times3 sp r f g : gdep3 sp r f g == sp_q sp * b_w (other _ r) * gdep3 unit_sp (canon (strip3 r)) f g.
Proof.
  rewrite (gdep3_canon Nx Ny Nz dx dy dz dt unit_sp (canon (strip3 r)) (strip3 r) f g Dx Dy Dz (canon_idem _)). unfold P_StepD5.gdep3. rewrite <- qsum_scale. cbn [unit_sp sp_q].
  apply (qsum_forall2 (ev_times3 (sp_q sp * b_w (other _ r)))); [apply kevs_times3|]. intros e e' _ H. pose proof H as (Ei & Ej & Ek & _). rewrite <- Ei, <- Ej, <- Ek.
  change (m_ix (whole3 Nx Ny Nz dx dy dz) dt (bare3 (strip3 r))) with (m_ix (whole3 Nx Ny Nz dx dy dz) dt (bare3 r)). change (m_iy (whole3 Nx Ny Nz dx dy dz) dt (bare3 (strip3 r))) with (m_iy (whole3 Nx Ny Nz dx dy dz) dt (bare3 r)).
  change (m_iz (whole3 Nx Ny Nz dx dy dz) dt (bare3 (strip3 r))) with (m_iz (whole3 Nx Ny Nz dx dy dz) dt (bare3 r)).
  destruct (list_eqb _ _); [apply prf_times3; exact H|ring].
Qed.
Lemma gcurrents_key3 f g : forall sps pss, length pss = length sps ->
  qsum (fun ss => qsum (fun r => gdep3 (fst ss) r f g) (particles (snd ss))) (combine sps pss) ==
  qsum (fun x => fst x * qsum (fun r => (fun k => gdep3 unit_sp (snd k) f g) (key3 (fst (snd x)) r) * b_w (other _ r)) (particles (snd (snd x)))) (combine (map sp_q sps) (combine sps pss)).
Proof.
  induction sps as [|sp sps IH]; intros [|st pss] L; cbn [length] in L; try lia; [reflexivity|]. cbn [map combine]. rewrite !qsum_cons, IH by lia. cbn [fst snd]. apply Qplus_comp; [|reflexivity].
  rewrite <- qsum_scale. apply qsum_ext. intros r _. refine (Qeq_trans _ _ _ (gdep_times3 sp r f g) _). apply mul_swap.
Qed.
Lemma gcurrents_cloud3 sps pss sps' pss' f g : length pss = length sps -> length pss' = length sps' -> all_placed3 pss -> all_placed3 pss' -> same_cloud3 sps sps' pss pss' ->
  gcurrents3 Nx Ny Nz dx dy dz dt sps pss f g = gcurrents3 Nx Ny Nz dx dy dz dt sps' pss' f g.
Proof.
  intros L L' P P' E. unfold gcurrents3. apply q2qc_eq. rewrite (gcurrents_key3 f g sps pss L), (gcurrents_key3 f g sps' pss' L'). apply (cloud_sum3 _ _ _ _ _ _ (fun k => gdep3 unit_sp (snd k) f g) P P' E).
Qed.
End Dep.

(** * Steps *)
Section Two.
Variable rsqrt : Q -> Q.
Hypothesis SUB : subluminal rsqrt.
Variable eps : Qc.
Variables D D' : domain3.
Hypothesis OK : domain3_ok D.
Hypothesis OK' : domain3_ok D'.
Hypothesis SD : same_domain3 D D'.
Variables sps sps' : list species.
Hypothesis U : all_fused sps. Hypothesis U' : all_fused sps'.
Lemma settled_placed3 D0 ps : Forall (settled3 D0) ps -> all_placed3 ps.
Proof.
  intros F st r I Ir. rewrite Forall_forall in F. destruct (F st I) as [L H]. unfold particles in Ir. apply in_flat_map in Ir. destruct Ir as (l & Il & Ir). destruct (In_nth _ _ [] Il) as (p & Hp & <-).
  destruct (H p r ltac:(lia) Ir) as (x & y & z & E1 & E2 & E3 & _). exists x, y, z. auto.
Qed.
Lemma sorted_spread3 k : forall sps0 coef ps ps1, Forall2 (fun st st1 => Permutation (particles st) (particles st1)) ps ps1 -> spread3 coef sps0 ps1 k == spread3 coef sps0 ps k.
Proof.
  intros s coef ps ps1 F. revert s coef. induction F as [|st st1 ps ps1 P F IH]; intros [|sp s] [|c coef]; try reflexivity. unfold spread3 in *. cbn [combine]. rewrite !qsum_cons, IH. cbn [fst snd].
  rewrite (qsum_perm _ _ _ P). reflexivity.
Qed.
(** a map of rows that does not look at the species *)
Lemma carried_any3 (h : prow body -> prow body) : forall sps0 pss pss', length pss = length sps0 ->
  Forall2 (fun st st' => Permutation (map canon (particles st')) (map (fun r => canon (h r)) (particles st))) pss pss' -> carried_by3 (fun _ => h) sps0 pss pss'.
Proof.
  intros s pss pss' L F. unfold carried_by3. revert s L. induction F as [|st st' pss pss' P F IH]; intros [|sp s] L; cbn [length] in L; try lia; cbn [combine]; constructor; [exact P|apply IH; lia].
Qed.
Lemma step_cloud3 rank rank' s s' s1 s1' : ready3 D sps s -> ready3 D' sps' s' -> same_fields3 D D' s s' -> same_cloud3 sps sps' (t_parts s) (t_parts s') ->
  step3d rsqrt eps D sps rank s s1 -> step3d rsqrt eps D' sps' rank' s' s1' ->
  same_fields3 D D' s1 s1' /\ ready3 D sps s1 /\ ready3 D' sps' s1' /\
  (forall coef coef', (forall k, spread3 coef sps (t_parts s) k == spread3 coef' sps' (t_parts s') k) -> forall k, spread3 coef sps (t_parts s1) k == spread3 coef' sps' (t_parts s1') k).
Proof using SUB OK OK' SD U U'.
  intros [L F] [L' F'] ((FE & HE & HE') & (FB & HB & HB') & (FJ & HJ & HJ')) HC S S'.
  destruct S as [mE mB mJ ps mE1 mB1 ps1 mJ1 ps2 mJ2 ps3 mB2 mE2 A1 A2 A3 A4 A5 A6 A7 A8].
  destruct S' as [mE' mB' mJ' ps' mE1' mB1' ps1' mJ1' ps2' mJ2' ps3' mB2' mE2' B1 B2 B3 B4 B5 B6 B7 B8].
  cbn [t_E t_B t_J t_parts] in *.
  pose proof (up_E3_ok eps D OK rank FB FJ FE mB mJ mE mE1 HE HB HJ A1) as HE1.
  pose proof (up_E3_ok eps D' OK' rank' FB FJ FE mB' mJ' mE' mE1' HE' HB' HJ' B1) as HE1'.
  apply (shows_ext (Q2Qc 0) _ _ _ _ _ _ (gE3 eps D FB FJ FE)) in HE1'; [|intros; apply gE3_same; assumption].
  set (FE1 := gE3 eps D FB FJ FE) in *. fold (field3_is D' FE1 mE1') in HE1'.
  pose proof (up_B3_ok eps D OK rank FE1 FB mE1 mB mB1 HB HE1 A2) as HB1.
  pose proof (up_B3_ok eps D' OK' rank' FE1 FB mE1' mB' mB1' HB' HE1' B2) as HB1'.
  apply (shows_ext (Q2Qc 0) _ _ _ _ _ _ (gB3 eps D FE1 FB)) in HB1'; [|intros; apply gB3_same; assumption].
  set (FB1 := gB3 eps D FE1 FB) in *. fold (field3_is D' FB1 mB1') in HB1'.
  destruct (forall2_sorted3 D ps ps1 A3 F) as (F1 & L1 & Q1). destruct (forall2_sorted3 D' ps' ps1' B3 F') as (F1' & L1' & Q1').
  destruct (half_step3 rsqrt SUB D OK sps U rank FE1 FB1 mE1 mB1 mJ ps1 mJ1 ps2 mJ2 ps3 HE1 HB1 ltac:(lia) F1 A4 A5 A6) as (C & L3 & F3 & G & W).
  destruct (half_step3 rsqrt SUB D' OK' sps' U' rank' FE1 FB1 mE1' mB1' mJ' ps1' mJ1' ps2' mJ2' ps3' HE1' HB1' ltac:(lia) F1' B4 B5 B6) as (C' & L3' & F3' & G' & W').
  pose proof SD as (W1 & W2 & W3 & X1 & X2 & X3 & X4). rewrite <- W1, <- W2, <- W3, <- X1, <- X2, <- X3, <- X4 in G', C'. rewrite <- W1, <- W2, <- W3, <- X1, <- X2, <- X3 in W'.
  pose proof (settled_placed3 D ps1 F1) as P1. pose proof (settled_placed3 D' ps1' F1') as P1'.
  set (h := fun sp r => P_StepD2.grow3 rsqrt (Vx D) (Vy D) (Vz D) (e_dx D) (e_dy D) (e_dz D) (e_dt D) sp FE1 FB1 r).
  assert (forall s p p2, Forall2 (fun ss st2 => map canon (particles st2) = map (fun r => canon (h (fst ss) r)) (particles (snd ss))) (combine s p) p2 -> carried_by3 h s p p2) as KG.
  { intros s p p2 X. unfold carried_by3. induction X as [|ss st2 l l' E X IH]; constructor; [rewrite E; reflexivity|exact IH]. }
  apply KG in G. apply KG in G'. clear KG.
  assert (forall sp r, placed r -> placed (h sp r)) as hp by (intros sp r P; unfold h; exact (grow_placed3 rsqrt (Vx D) (Vy D) (Vz D) (e_dx D) (e_dy D) (e_dz D) (e_dt D) FE1 FB1 sp r P)).
  assert (forall sp r, placed r -> key3 sp (h sp r) = grow_key3 rsqrt (Vx D) (Vy D) (Vz D) (e_dx D) (e_dy D) (e_dz D) (e_dt D) FE1 FB1 (key3 sp r)) as hk by (intros sp r P; unfold h; exact (grow_keys3 rsqrt SUB (Vx D) (Vy D) (Vz D) (e_dx D) (e_dy D) (e_dz D) (e_dt D) FE1 FB1 sp r P)).
  assert (forall sp r, b_w (other _ (h sp r)) = b_w (other _ r)) as hw by (intros sp r; unfold h; apply grow_w3).
  pose proof (carried_placed3 h hp sps ps1 ps2 G P1) as P2. pose proof (carried_placed3 h hp sps' ps1' ps2' G' P1') as P2'.
  assert (forall s p p2, carried_by3 h s p p2 -> length p = length s -> length p2 = length s) as LC.
  { intros s p p2 X Lp. assert (length p2 = length (combine s p)) as -> by (clear - X; induction X; cbn [length]; congruence). rewrite combine_length. lia. }
  pose proof (LC _ _ _ G ltac:(lia)) as L2. pose proof (LC _ _ _ G' ltac:(lia)) as L2'. clear LC.
  assert (forall coef coef', (forall k, spread3 coef sps ps k == spread3 coef' sps' ps' k) -> forall k, spread3 coef sps ps2 k == spread3 coef' sps' ps2' k) as T2.
  { intros coef coef' E. apply (carry3 h _ hk hw hp coef sps ps1 ps2 coef' sps' ps1' ps2'); auto; try lia. intro k. rewrite (sorted_spread3 k sps coef ps ps1 Q1), (sorted_spread3 k sps' coef' ps' ps1' Q1'). apply E. }
  clearbody h. clear G G' hk hw hp.
  pose proof (carried_any3 _ sps ps2 ps3 L2 W) as Y. pose proof (carried_any3 _ sps' ps2' ps3' L2' W') as Y'.
  destruct (ok3_d D OK) as (D1 & D2 & D3).
  apply (currents_ext3 D' _ (gcurrents3 (Vx D) (Vy D) (Vz D) (e_dx D) (e_dy D) (e_dz D) (e_dt D) sps ps2)) in C'.
  2:{ intros f g. symmetry. apply (gcurrents_cloud3 _ _ _ _ _ _ _ D1 D2 D3 sps ps2 sps' ps2' f g L2 L2' P2 P2'). exact (T2 (map sp_q sps) (map sp_q sps') HC). }
  set (FJ2 := gcurrents3 (Vx D) (Vy D) (Vz D) (e_dx D) (e_dy D) (e_dz D) (e_dt D) sps ps2) in *.
  pose proof (up_B3_ok eps D OK rank FE1 FB1 mE1 mB1 mB2 HB1 HE1 A7) as HB2.
  pose proof (up_B3_ok eps D' OK' rank' FE1 FB1 mE1' mB1' mB2' HB1' HE1' B7) as HB2'.
  apply (shows_ext (Q2Qc 0) _ _ _ _ _ _ (gB3 eps D FE1 FB1)) in HB2'; [|intros; apply gB3_same; assumption].
  set (FB2 := gB3 eps D FE1 FB1) in *. fold (field3_is D' FB2 mB2') in HB2'.
  pose proof (up_E3_ok eps D OK rank FB2 FJ2 FE1 mB2 mJ2 mE1 mE2 HE1 HB2 C A8) as HE2.
  pose proof (up_E3_ok eps D' OK' rank' FB2 FJ2 FE1 mB2' mJ2' mE1' mE2' HE1' HB2' C' B8) as HE2'.
  apply (shows_ext (Q2Qc 0) _ _ _ _ _ _ (gE3 eps D FB2 FJ2 FE1)) in HE2'; [|intros; apply gE3_same; assumption].
  split; [|split; [split; assumption|split; [split; assumption|]]].
  - split; [exists (gE3 eps D FB2 FJ2 FE1); split; assumption|]. split; [exists FB2; split; assumption|]. exists FJ2; split; assumption.
  - intros coef coef' E. apply (carry3 _ (wrap_key3 (Vx D) (Vy D) (Vz D) (e_dx D) (e_dy D) (e_dz D)) (fun sp r _ => wrap_keys3 _ _ _ _ _ _ sp r) (fun _ _ => eq_refl) (fun _ => wrap_placed3 _ _ _ _ _ _) coef sps ps2 ps3 coef' sps' ps2' ps3'); auto.
Qed.
Lemma steps_cloud3 n : forall s s' s1 s1', ready3 D sps s -> ready3 D' sps' s' -> same_fields3 D D' s s' -> same_cloud3 sps sps' (t_parts s) (t_parts s') ->
  steps3d rsqrt eps D sps n s s1 -> steps3d rsqrt eps D' sps' n s' s1' ->
  same_fields3 D D' s1 s1' /\ same_cloud3 sps sps' (t_parts s1) (t_parts s1') /\
  (forall coef coef', (forall k, spread3 coef sps (t_parts s) k == spread3 coef' sps' (t_parts s') k) -> forall k, spread3 coef sps (t_parts s1) k == spread3 coef' sps' (t_parts s1') k).
Proof using SUB OK OK' SD U U'.
  induction n as [|n IH]; intros s s' s1 s1' R R' E C T T'; inversion T; inversion T'; subst; [auto|].
  destruct (step_cloud3 _ _ _ _ _ _ R R' E C ltac:(eassumption) ltac:(eassumption)) as (E2 & R2 & R2' & C2).
  destruct (IH _ _ _ _ R2 R2' E2 (C2 _ _ C) ltac:(eassumption) ltac:(eassumption)) as (E3 & C3 & K3). split; [exact E3|]. split; [exact C3|]. intros coef coef' H. apply K3. apply C2. exact H.
Qed.
End Two.
