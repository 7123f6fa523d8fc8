(** The cloud of charge, part 2: push, deposition and exchange work on keys; steps. *)
From Coq Require Import QArith Qabs Qround Qcanon Permutation Lqa.
From Verif Require Import Base M_Layout S_Layout M_PartSync S_PartSync M_FieldSync S_FieldSync M_Maxwell S_Maxwell M_Deposit S_Deposit M_Push S_Push P_Deposit P_Interp P_Push P_Maxwell P_Maxwell2 P_Maxwell3 M_Step S_Step P_Step1 P_Step2 P_Step3 P_Step4 P_Step5 P_Step6 P_Step7 S_Cloud P_Cloud.
Local Open Scope list_scope.
Local Open Scope Q_scope.

(** * The push *)
Section Push.
Variable rsqrt : Q -> Q.
Hypothesis SUB : subluminal rsqrt.
Variables (Nx Ny : Z) (dx dy dt : Q) (FE FB : nat -> list Z -> Qc).
Local Notation grow := (P_Step2.grow rsqrt Nx Ny dx dy dt).
Lemma ratio_e q m q' m' : q / m == q' / m' -> q * dt / (2 * m * LIGHT_SPEED) == q' * dt / (2 * m' * LIGHT_SPEED) /\ q * dt / (2 * m) == q' * dt / (2 * m').
Proof.
  intro E. assert (forall a b, a * dt / (2 * b * LIGHT_SPEED) == a / b * (dt / (2 * LIGHT_SPEED))) as K1 by (intros a b; unfold Qdiv; rewrite !Qinv_mult_distr; ring).
  assert (forall a b, a * dt / (2 * b) == a / b * (dt / 2)) as K2 by (intros a b; unfold Qdiv; rewrite !Qinv_mult_distr; ring).
  rewrite !K1, !K2, E. split; reflexivity.
Qed.
Lemma same6_refl (f : six Q) : same6 f f. Proof. repeat split; reflexivity. Qed.
Lemma part_refl p : part_eq p p. Proof. repeat split; reflexivity. Qed.
Lemma momentum_ratio q m q' m' s : q / m == q' / m' -> pslot_eq (push_momentum rsqrt q m dt s) (push_momentum rsqrt q' m' dt s).
Proof.
  intro E. destruct (ratio_e q m q' m' E) as [E1 E2]. unfold push_momentum, boris_inline. cbv zeta.
  match goal with |- pslot_eq (let '(_, _) := ?a in _) (let '(_, _) := ?b in _) => assert (same_push a b) as B by (apply (boris_eq rsqrt (proj1 SUB)); first [exact E1|exact E2|reflexivity]);
    destruct a as [[[x y] z] g], b as [[[x' y'] z'] g'] end.
  destruct B as (B1 & B2 & B3 & B4). unfold pslot_eq, part_eq. cbn [l_p l_f p_x p_y p_z p_ux p_uy p_uz p_ig p_w p_dead p_nan].
  split; [|apply same6_refl]. repeat (split; [first [assumption|reflexivity]|]). reflexivity.
Qed.
Lemma grow_ratio sp sp' r : sp_q sp / sp_m sp == sp_q sp' / sp_m sp' -> canon (grow sp FE FB r) = canon (grow sp' FE FB r).
Proof.
  intro E. unfold grow, P_Step2.grow. apply canon_store; [reflexivity|]. unfold gslot, one. destruct (skipped _); [split; [apply part_refl|apply same6_refl]|].
  cbv zeta. unfold ginterp. cbn [obind]. 
  match goal with |- pslot_eq (M_Push.mkSlot (push_position_2d ?c (l_p (push_momentum rsqrt ?q ?m dt ?s))) _) (M_Push.mkSlot (push_position_2d ?c (l_p (push_momentum rsqrt ?q' ?m' dt ?s))) _) =>
    destruct (momentum_ratio q m q' m' s E) as [M1 M2] end.
  split; cbn [l_p l_f]; [apply move_eq; exact M1|exact M2].
Qed.
Lemma strip_grow sp r : placed r -> strip (grow sp FE FB r) = strip (grow sp FE FB (strip r)).
Proof.
  intros (x & y & E1 & E2). destruct r as [rx ry rz rb]. destruct rb as [ux uy uz ig w f id]. cbn [px py] in E1, E2. subst rx ry.
  unfold P_Step2.grow, gslot, one, strip, load, store, rowof, ginterp, push_momentum. cbn [M_PartSync.row M_PartSync.dead px py pz other b_ux b_uy b_uz b_ig b_w b_f b_id l_p l_f isnan val orb skipped p_dead p_nan obind push_position_2d p_x p_y p_z p_ux p_uy p_uz p_ig p_w].
  unfold skipped. cbn [l_p p_dead p_nan orb]. 
  match goal with |- context [boris_inline ?a ?b ?c ?d ?e ?u ?v ?w] => destruct (boris_inline a b c d e u v w) as [[[u1 u2] u3] g] end. reflexivity.
Qed.
Definition grow_key (k : Q * prow body) : Q * prow body := (fst k, canon (strip (grow (mkSpecies (fst k) 1 true) FE FB (snd k)))).
Lemma grow_keys sp r : placed r -> key sp (grow sp FE FB r) = grow_key (key sp r).
Proof.
  intro P. unfold key, grow_key. cbn [fst snd]. f_equal. rewrite (strip_grow sp r P). apply canon_strip.
  rewrite (P_Step2.grow_canon rsqrt SUB). apply grow_ratio. cbn [sp_q sp_m]. rewrite Qred_correct. unfold Qdiv at 2. change (/ 1) with 1. ring.
Qed.
Lemma grow_w sp r : b_w (other _ (grow sp FE FB r)) = b_w (other _ r). Proof. reflexivity. Qed.
Lemma grow_placed sp r : placed r -> placed (grow sp FE FB r).
Proof. intros (x & y & E1 & E2). unfold placed, P_Step2.grow, store, rowof. cbn [M_PartSync.row px py]. rewrite E1, E2. cbn [isnan]. eauto. Qed.
End Push.

(** * The exchange *)
Section Wrap.
Variables (Nx Ny : Z) (dx dy : Q).
Definition wrap_key (k : Q * prow body) : Q * prow body := (fst k, canon (gwrap Nx Ny dx dy (snd k))).
Lemma wrap_keys (sp : species) r : key sp (gwrap Nx Ny dx dy r) = wrap_key (key sp r).
Proof. unfold key, wrap_key. cbn [fst snd]. f_equal. rewrite (gwrap_eq Nx Ny dx dy (canon (strip r)) (strip r) (canon_idem _)). reflexivity. Qed.
Lemma wrap_placed r : placed r -> placed (gwrap Nx Ny dx dy r).
Proof. intros (x & y & E1 & E2). unfold placed, gwrap. cbn [px py]. rewrite E1, E2. cbn [option_map]. eauto. Qed.
End Wrap.

(** * Deposition *)
Definition ev_times (a : Q) (e e' : ev) : Prop :=
  e_i e = e_i e' /\ e_j e = e_j e' /\ e_jx e == a * e_jx e' /\ e_jy e == a * e_jy e' /\ e_jz e == a * e_jz e' /\ e_rho e == a * e_rho e'.
Section Scale.
Variables S0x S0y S1x S1y DSx DSy : list Q.
Variables a c f1 f2 f3 c' f1' f2' f3' : Q.
Hypothesis K1 : c == a * c'. Hypothesis K2 : f1 == a * f1'. Hypothesis K3 : f2 == a * f2'. Hypothesis K4 : f3 == a * f3'.
Lemma row2_times i : forall js b b' y y', (forall k, b k == a * b' k) -> y == a * y' ->
  let r := row2 S0x S0y S1x S1y DSx DSy c f1 f2 f3 i js b y in let r' := row2 S0x S0y S1x S1y DSx DSy c' f1' f2' f3' i js b' y' in
  (forall k, fst r k == a * fst r' k) /\ Forall2 (ev_times a) (snd r) (snd r').
Proof.
  induction js as [|j js IH]; intros b b' y y' B Y; cbv zeta; cbn [row2].
  - split; [exact B|constructor].
  - assert (forall k, fset j (b j - f1 * at5 DSx i * (at5 S0y j + (1#2) * at5 DSy j)) b k == a * fset j (b' j - f1' * at5 DSx i * (at5 S0y j + (1#2) * at5 DSy j)) b' k) as B'.
    { intro k. unfold fset. destruct (k =? j)%nat; [|apply B]. rewrite (B j), K2. ring. }
    assert (y - f2 * (at5 DSy j * (at5 S0x i + (1#2) * at5 DSx i)) == a * (y' - f2' * (at5 DSy j * (at5 S0x i + (1#2) * at5 DSx i)))) as Y' by (rewrite Y, K3; ring).
    destruct (IH _ _ _ _ B' Y') as [R1 R2]. cbv zeta in R1, R2. cbn [fst snd]. split; [exact R1|]. constructor; [|exact R2].
    unfold ev_times. cbn [e_i e_j e_jx e_jy e_jz e_rho]. split; [reflexivity|]. split; [reflexivity|].
    split; [apply B'|]. split; [exact Y'|]. split; [rewrite K4|rewrite K1]; ring.
Qed.
Lemma rows2_times js : forall is_ b b', (forall k, b k == a * b' k) ->
  Forall2 (ev_times a) (rows2 S0x S0y S1x S1y DSx DSy c f1 f2 f3 is_ js b) (rows2 S0x S0y S1x S1y DSx DSy c' f1' f2' f3' is_ js b').
Proof.
  induction is_ as [|i is_ IH]; intros b b' B; cbn [rows2]; [constructor|].
  destruct (row2_times i js b b' 0 0 B ltac:(ring)) as [R1 R2]. cbv zeta in R1, R2. apply Forall2_app; [exact R2|]. apply IH. exact R1.
Qed.
End Scale.
Definition unit_sp : species := mkSpecies 1 1 true.
Section Dep.
Variables (Nx Ny : Z) (dx dy dt : Q).
Hypothesis Dx : 0 < dx. Hypothesis Dy : 0 < dy.
Local Notation gdep := (gdep Nx Ny dx dy dt).
Lemma prf_times a f e e' : ev_times a e e' -> prf f e == a * prf f e'.
Proof. intros (_ & _ & H1 & H2 & H3 & H4). destruct f as [|[|[|f]]]; assumption. Qed.
Lemma kevs_times sp r : Forall2 (ev_times (sp_q sp * b_w (other _ r))) (kevs (whole Nx Ny dx dy) dt (sp_q sp) (bare r)) (kevs (whole Nx Ny dx dy) dt 1 (bare (strip r))).
Proof.
  unfold kevs, k_evs. cbv zeta.
  change (k_ix (whole Nx Ny dx dy) dt (bare (strip r))) with (k_ix (whole Nx Ny dx dy) dt (bare r)). change (k_iy (whole Nx Ny dx dy) dt (bare (strip r))) with (k_iy (whole Nx Ny dx dy) dt (bare r)).
  change (k_X0 (whole Nx Ny dx dy) dt (bare (strip r))) with (k_X0 (whole Nx Ny dx dy) dt (bare r)). change (k_X1 (whole Nx Ny dx dy) dt (bare (strip r))) with (k_X1 (whole Nx Ny dx dy) dt (bare r)).
  change (k_Y0 (whole Nx Ny dx dy) dt (bare (strip r))) with (k_Y0 (whole Nx Ny dx dy) dt (bare r)). change (k_Y1 (whole Nx Ny dx dy) dt (bare (strip r))) with (k_Y1 (whole Nx Ny dx dy) dt (bare r)).
  change (p_w (bare (strip r))) with 1. change (p_w (bare r)) with (b_w (other _ r)). change (p_uz (bare (strip r))) with (p_uz (bare r)). change (p_ig (bare (strip r))) with (p_ig (bare r)).
  apply rows2_times; unfold Qdiv; [ring|ring|ring|ring|intro; ring].
Qed.
Lemma gdep_times sp r f g : gdep sp r f g == sp_q sp * b_w (other _ r) * gdep unit_sp (canon (strip r)) f g.
Proof.
  rewrite (gdep_canon Nx Ny dx dy dt unit_sp (canon (strip r)) (strip r) f g Dx Dy (canon_idem _)). unfold P_Step5.gdep. rewrite <- qsum_scale. cbn [unit_sp sp_q].
  apply (qsum_forall2 (ev_times (sp_q sp * b_w (other _ r)))); [apply kevs_times|]. intros e e' _ H. pose proof H as (Ei & Ej & _). rewrite <- Ei, <- Ej.
  change (k_ix (whole Nx Ny dx dy) dt (bare (strip r))) with (k_ix (whole Nx Ny dx dy) dt (bare r)). change (k_iy (whole Nx Ny dx dy) dt (bare (strip r))) with (k_iy (whole Nx Ny dx dy) dt (bare r)).
  destruct (list_eqb _ _); [apply prf_times; exact H|ring].
Qed.
Lemma mul_swap a b c : a * b * c == a * (c * b). Proof. ring. Qed.
Lemma gcurrents_key f g : forall sps pss, length pss = length sps ->
  qsum (fun ss => qsum (fun r => gdep (fst ss) r f g) (particles (snd ss))) (combine sps pss) ==
  qsum (fun x => fst x * qsum (fun r => (fun k => gdep unit_sp (snd k) f g) (key (fst (snd x)) r) * b_w (other _ r)) (particles (snd (snd x)))) (combine (map sp_q sps) (combine sps pss)).
Proof.
  induction sps as [|sp sps IH]; intros [|st pss] L; cbn [length] in L; try lia; [reflexivity|]. cbn [map combine]. rewrite !qsum_cons, IH by lia. cbn [fst snd]. apply Qplus_comp; [|reflexivity].
  rewrite <- qsum_scale. apply qsum_ext. intros r _. refine (Qeq_trans _ _ _ (gdep_times sp r f g) _). apply mul_swap.
Qed.
Lemma gcurrents_cloud sps pss sps' pss' f g : length pss = length sps -> length pss' = length sps' -> all_placed pss -> all_placed pss' -> same_cloud sps sps' pss pss' ->
  gcurrents Nx Ny dx dy dt sps pss f g = gcurrents Nx Ny dx dy dt sps' pss' f g.
Proof.
  intros L L' P P' E. unfold gcurrents. apply q2qc_eq. rewrite (gcurrents_key f g sps pss L), (gcurrents_key f g sps' pss' L'). apply (cloud_sum _ _ _ _ _ _ (fun k => gdep unit_sp (snd k) f g) P P' E).
Qed.
End Dep.

(** * Steps *)
Section Two.
Variable rsqrt : Q -> Q.
Hypothesis SUB : subluminal rsqrt.
Variable eps : Qc.
Variables D D' : domain2.
Hypothesis OK : domain_ok D.
Hypothesis OK' : domain_ok D'.
Hypothesis SD : same_domain D D'.
Variables sps sps' : list species.
Lemma settled_placed D0 ps : Forall (settled D0) ps -> all_placed ps.
Proof.
  intros F st r I Ir. rewrite Forall_forall in F. destruct (F st I) as [L H]. unfold particles in Ir. apply in_flat_map in Ir. destruct Ir as (l & Il & Ir). destruct (In_nth _ _ [] Il) as (p & Hp & <-).
  destruct (H p r ltac:(lia) Ir) as (x & y & E1 & E2 & _). exists x, y. auto.
Qed.
Lemma sorted_spread k : forall sps0 coef ps ps1, Forall2 (fun st st1 => Permutation (particles st) (particles st1)) ps ps1 -> spread coef sps0 ps1 k == spread coef sps0 ps k.
Proof.
  intros s coef ps ps1 F. revert s coef. induction F as [|st st1 ps ps1 P F IH]; intros [|sp s] [|c coef]; try reflexivity. unfold spread in *. cbn [combine]. rewrite !qsum_cons, IH. cbn [fst snd].
  rewrite (qsum_perm _ _ _ P). reflexivity.
Qed.
(** a map of rows that does not look at the species *)
Lemma carried_any (h : prow body -> prow body) : forall sps0 pss pss', length pss = length sps0 ->
  Forall2 (fun st st' => Permutation (map canon (particles st')) (map (fun r => canon (h r)) (particles st))) pss pss' -> carried_by (fun _ => h) sps0 pss pss'.
Proof.
  intros s pss pss' L F. unfold carried_by. revert s L. induction F as [|st st' pss pss' P F IH]; intros [|sp s] L; cbn [length] in L; try lia; cbn [combine]; constructor; [exact P|apply IH; lia].
Qed.
Lemma step_cloud rank rank' s s' s1 s1' : ready D sps s -> ready D' sps' s' -> same_fields D D' s s' -> same_cloud sps sps' (t_parts s) (t_parts s') ->
  step2 rsqrt eps D sps rank s s1 -> step2 rsqrt eps D' sps' rank' s' s1' ->
  same_fields D D' s1 s1' /\ ready D sps s1 /\ ready D' sps' s1' /\
  (forall coef coef', (forall k, spread coef sps (t_parts s) k == spread coef' sps' (t_parts s') k) -> forall k, spread coef sps (t_parts s1) k == spread coef' sps' (t_parts s1') k).
Proof using SUB OK OK' SD.
  intros [L F] [L' F'] ((FE & HE & HE') & (FB & HB & HB') & (FJ & HJ & HJ')) HC S S'.
  destruct S as [mE mB mJ ps mE1 mB1 ps1 mJ1 ps2 mJ2 ps3 mB2 mE2 A1 A2 A3 A4 A5 A6 A7 A8].
  destruct S' as [mE' mB' mJ' ps' mE1' mB1' ps1' mJ1' ps2' mJ2' ps3' mB2' mE2' B1 B2 B3 B4 B5 B6 B7 B8].
  cbn [t_E t_B t_J t_parts] in *.
  pose proof (up_E_ok eps D OK rank FB FJ FE mB mJ mE mE1 HE HB HJ A1) as HE1.
  pose proof (up_E_ok eps D' OK' rank' FB FJ FE mB' mJ' mE' mE1' HE' HB' HJ' B1) as HE1'.
  apply (shows_ext (Q2Qc 0) _ _ _ _ _ _ (gE eps D FB FJ FE)) in HE1'; [|intros; apply gE_same; assumption].
  set (FE1 := gE eps D FB FJ FE) in *. fold (field_is D' FE1 mE1') in HE1'.
  pose proof (up_B_ok eps D OK rank FE1 FB mE1 mB mB1 HB HE1 A2) as HB1.
  pose proof (up_B_ok eps D' OK' rank' FE1 FB mE1' mB' mB1' HB' HE1' B2) as HB1'.
  apply (shows_ext (Q2Qc 0) _ _ _ _ _ _ (gB eps D FE1 FB)) in HB1'; [|intros; apply gB_same; assumption].
  set (FB1 := gB eps D FE1 FB) in *. fold (field_is D' FB1 mB1') in HB1'.
  destruct (forall2_sorted D ps ps1 A3 F) as (F1 & L1 & Q1). destruct (forall2_sorted D' ps' ps1' B3 F') as (F1' & L1' & Q1').
  destruct (half_step rsqrt SUB D OK sps rank FE1 FB1 mE1 mB1 mJ ps1 mJ1 ps2 mJ2 ps3 HE1 HB1 ltac:(lia) F1 A4 A5 A6) as (C & L3 & F3 & G & W).
  destruct (half_step rsqrt SUB D' OK' sps' rank' FE1 FB1 mE1' mB1' mJ' ps1' mJ1' ps2' mJ2' ps3' HE1' HB1' ltac:(lia) F1' B4 B5 B6) as (C' & L3' & F3' & G' & W').
  pose proof SD as (W1 & W2 & X1 & X2 & X3). rewrite <- W1, <- W2, <- X1, <- X2, <- ?X3 in G', C'. rewrite <- W1, <- W2, <- X1, <- X2 in W'.
  pose proof (settled_placed D ps1 F1) as P1. pose proof (settled_placed D' ps1' F1') as P1'.
  set (h := fun sp r => P_Step2.grow rsqrt (Wx D) (Wy D) (d_dx D) (d_dy D) (d_dt D) sp FE1 FB1 r).
  assert (forall s p p2, Forall2 (fun ss st2 => map canon (particles st2) = map (fun r => canon (h (fst ss) r)) (particles (snd ss))) (combine s p) p2 -> carried_by h s p p2) as KG.
  { intros s p p2 X. unfold carried_by. induction X as [|ss st2 l l' E X IH]; constructor; [rewrite E; reflexivity|exact IH]. }
  apply KG in G. apply KG in G'. clear KG.
  assert (forall sp r, placed r -> placed (h sp r)) as hp by (intros sp r P; unfold h; exact (grow_placed rsqrt (Wx D) (Wy D) (d_dx D) (d_dy D) (d_dt D) FE1 FB1 sp r P)).
  assert (forall sp r, placed r -> key sp (h sp r) = grow_key rsqrt (Wx D) (Wy D) (d_dx D) (d_dy D) (d_dt D) FE1 FB1 (key sp r)) as hk by (intros sp r P; unfold h; exact (grow_keys rsqrt SUB (Wx D) (Wy D) (d_dx D) (d_dy D) (d_dt D) FE1 FB1 sp r P)).
  assert (forall sp r, b_w (other _ (h sp r)) = b_w (other _ r)) as hw by (intros sp r; unfold h; apply grow_w).
  pose proof (carried_placed h hp sps ps1 ps2 G P1) as P2. pose proof (carried_placed h hp sps' ps1' ps2' G' P1') as P2'.
  assert (forall s p p2, carried_by h s p p2 -> length p = length s -> length p2 = length s) as LC.
  { intros s p p2 X Lp. assert (length p2 = length (combine s p)) as -> by (clear - X; induction X; cbn [length]; congruence). rewrite combine_length. lia. }
  pose proof (LC _ _ _ G ltac:(lia)) as L2. pose proof (LC _ _ _ G' ltac:(lia)) as L2'. clear LC.
  assert (forall coef coef', (forall k, spread coef sps ps k == spread coef' sps' ps' k) -> forall k, spread coef sps ps2 k == spread coef' sps' ps2' k) as T2.
  { intros coef coef' E. apply (carry h _ hk hw hp coef sps ps1 ps2 coef' sps' ps1' ps2'); auto; try lia. intro k. rewrite (sorted_spread k sps coef ps ps1 Q1), (sorted_spread k sps' coef' ps' ps1' Q1'). apply E. }
  clearbody h. clear G G' hk hw hp.
  pose proof (carried_any _ sps ps2 ps3 L2 W) as Y. pose proof (carried_any _ sps' ps2' ps3' L2' W') as Y'.
  destruct (ok_d D OK) as [D1 D2].
  apply (currents_ext D' _ (gcurrents (Wx D) (Wy D) (d_dx D) (d_dy D) (d_dt D) sps ps2)) in C'.
  2:{ intros f g. symmetry. apply (gcurrents_cloud _ _ _ _ _ D1 D2 sps ps2 sps' ps2' f g L2 L2' P2 P2'). exact (T2 (map sp_q sps) (map sp_q sps') HC). }
  set (FJ2 := gcurrents (Wx D) (Wy D) (d_dx D) (d_dy D) (d_dt D) sps ps2) in *.
  pose proof (up_B_ok eps D OK rank FE1 FB1 mE1 mB1 mB2 HB1 HE1 A7) as HB2.
  pose proof (up_B_ok eps D' OK' rank' FE1 FB1 mE1' mB1' mB2' HB1' HE1' B7) as HB2'.
  apply (shows_ext (Q2Qc 0) _ _ _ _ _ _ (gB eps D FE1 FB1)) in HB2'; [|intros; apply gB_same; assumption].
  set (FB2 := gB eps D FE1 FB1) in *. fold (field_is D' FB2 mB2') in HB2'.
  pose proof (up_E_ok eps D OK rank FB2 FJ2 FE1 mB2 mJ2 mE1 mE2 HE1 HB2 C A8) as HE2.
  pose proof (up_E_ok eps D' OK' rank' FB2 FJ2 FE1 mB2' mJ2' mE1' mE2' HE1' HB2' C' B8) as HE2'.
  apply (shows_ext (Q2Qc 0) _ _ _ _ _ _ (gE eps D FB2 FJ2 FE1)) in HE2'; [|intros; apply gE_same; assumption].
  split; [|split; [split; assumption|split; [split; assumption|]]].
  - split; [exists (gE eps D FB2 FJ2 FE1); split; assumption|]. split; [exists FB2; split; assumption|]. exists FJ2; split; assumption.
  - intros coef coef' E. apply (carry _ (wrap_key (Wx D) (Wy D) (d_dx D) (d_dy D)) (fun sp r _ => wrap_keys _ _ _ _ sp r) (fun _ _ => eq_refl) (fun _ => wrap_placed _ _ _ _) coef sps ps2 ps3 coef' sps' ps2' ps3'); auto.
Qed.
Lemma steps_cloud n : forall s s' s1 s1', ready D sps s -> ready D' sps' s' -> same_fields D D' s s' -> same_cloud sps sps' (t_parts s) (t_parts s') ->
  steps2 rsqrt eps D sps n s s1 -> steps2 rsqrt eps D' sps' n s' s1' ->
  same_fields D D' s1 s1' /\ same_cloud sps sps' (t_parts s1) (t_parts s1') /\
  (forall coef coef', (forall k, spread coef sps (t_parts s) k == spread coef' sps' (t_parts s') k) -> forall k, spread coef sps (t_parts s1) k == spread coef' sps' (t_parts s1') k).
Proof using SUB OK OK' SD.
  induction n as [|n IH]; intros s s' s1 s1' R R' E C T T'; inversion T; inversion T'; subst; [auto|].
  destruct (step_cloud _ _ _ _ _ _ R R' E C ltac:(eassumption) ltac:(eassumption)) as (E2 & R2 & R2' & C2).
  destruct (IH _ _ _ _ R2 R2' E2 (C2 _ _ C) ltac:(eassumption) ltac:(eassumption)) as (E3 & C3 & K3). split; [exact E3|]. split; [exact C3|]. intros coef coef' H. apply K3. apply C2. exact H.
Qed.
End Two.
