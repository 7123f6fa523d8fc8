(** Steps with collisions and QED events, part 2: one step, many steps, existence. *)
From Coq Require Import QArith Qabs Qround Qcanon Permutation Lqa.
From Verif Require Import Base M_Layout S_Layout M_PartSync S_PartSync M_FieldSync S_FieldSync M_Maxwell S_Maxwell M_Deposit S_Deposit M_Push P_Layout P_Deposit P_Deposit2 P_Deposit5 P_Deposit9 P_FieldGeo P_Maxwell P_Maxwell3 M_Step S_Step P_Interp P_Push P_Step1 P_Step2 P_Step3 P_Step4 P_Step5 P_Step6 P_Step7 P_Step8 S_Gauss P_Gauss1 P_Gauss2 P_Gauss3 M_StepR S_StepR P_StepR.
Local Open Scope list_scope.
Local Open Scope Z_scope.

Section R.
Variable rsqrt : Q -> Q.
Hypothesis SUB : subluminal rsqrt.
Variable eps : Qc.
Variable D : domain2.
Hypothesis OK : domain_ok D.
Variable pairs : list (nat * nat).
Variable sps : list species.
Local Notation Nx := (cells_x D). Local Notation Ny := (cells_y D).
Local Notation A := (qc_arith eps).
Local Notation dx := (Q2Qc (d_dx D)). Local Notation dy := (Q2Qc (d_dy D)).
Local Notation sv F := (shown (Q2Qc 0) [d_ax D; d_ay D] [d_nx D; d_ny D] (position2 (d_ax D)) F 0).
Local Notation cur := (gcurrents Nx Ny (d_dx D) (d_dy D) (d_dt D) sps).

Lemma around_slow pss : around D pss -> slow_all pss.
Proof.
  intros H st r I Ir. destruct (H st I) as [L K]. unfold particles in Ir. apply in_flat_map in Ir. destruct Ir as (l & Il & Ir).
  destruct (In_nth _ _ [] Il) as (p & Hp & <-). destruct (K p r ltac:(lia) Ir) as (x & y & E1 & E2 & V1 & V2 & _). split; [exists x, y; auto|auto].
Qed.
Lemma pushed_around FE FB pss : forall ps2, Forall2 (fun ss st' => pushed rsqrt D FE FB (fst ss) (snd ss) st') (combine sps pss) ps2 -> around D ps2.
Proof.
  intros ps2 P st I. induction P as [|ss st' l l' [H K] P IH]; [destruct I|]. destruct I as [<-|I]; [|exact (IH I)].
  split; [exact H|]. intros p r Hp Ir. apply (moved_near D OK). exact (proj2 (K p Hp) r Ir).
Qed.
(** push, deposition, events and exchange *)
Lemma half_stepR rank FE FB mE mB mJ ps mJ1 ps2 psq mJ2 ps3 : field_is D FE mE -> field_is D FB mB ->
  length ps = length sps -> Forall (settled D) ps ->
  push_species rsqrt D sps mE mB (reset_currents D mJ) ps = Some (mJ1, ps2) -> qed_stage rsqrt D pairs ps2 psq ->
  sync_currents2 D rank mJ1 mJ2 -> Forall2 (sync_particles2 D rank) psq ps3 ->
  currents_are D (cur ps2) mJ2 /\ length ps2 = length sps /\ around D ps2 /\ around D psq /\
  length ps3 = length sps /\ Forall (settled D) ps3 /\
  Forall2 (fun ss st2 => map canon (particles st2) = map (fun r => canon (grow rsqrt Nx Ny (d_dx D) (d_dy D) (d_dt D) (fst ss) FE FB r)) (particles (snd ss))) (combine sps ps) ps2 /\
  Forall2 (fun st2 st3 => Permutation (map canon (particles st3)) (map (fun r => canon (gwrap Nx Ny (d_dx D) (d_dy D) r)) (particles st2))) psq ps3.
Proof.
  intros HE HB L F E HQ HJ HP.
  assert (exists ps3', Forall2 (sync_particles2 D rank) ps2 ps3') as [ps3' HP'].
  { destruct (push_species_ok rsqrt SUB D OK FE FB mE mB HE HB sps ps (reset_currents D mJ) L F) as (mJ1' & ps2' & E' & P & V).
    rewrite E in E'. apply some_eq in E'. assert (ps2' = ps2) as -> by congruence. apply forall2_exists. intros st I. apply particles_exist; [exact OK|]. exact (proj1 (pushed_around FE FB ps ps2 P st I)). }
  destruct (half_step rsqrt SUB D OK sps rank FE FB mE mB mJ ps mJ1 ps2 mJ2 ps3' HE HB L F E HJ HP') as (C & _ & _ & G & _).
  assert (around D ps2) as A2.
  { destruct (push_species_ok rsqrt SUB D OK FE FB mE mB HE HB sps ps (reset_currents D mJ) L F) as (mJ1' & ps2' & E' & P & V).
    rewrite E in E'. apply some_eq in E'. assert (ps2' = ps2) as -> by congruence. exact (pushed_around FE FB ps ps2 P). }
  destruct (stage_around rsqrt SUB D OK pairs ps2 psq A2 HQ) as [Aq Lq].
  assert (length ps2 = length sps) as L2.
  { pose proof (forall2_len _ _ _ G) as X. rewrite combine_length in X. lia. }
  assert (Forall2 (fun st2 st3 => settled D st3 /\ Permutation (map canon (particles st3)) (map (fun r => canon (gwrap Nx Ny (d_dx D) (d_dy D) r)) (particles st2))) psq ps3) as X.
  { clear - HP Aq OK. induction HP as [|st2 st3 l l' H HP IH]; [constructor|]. constructor.
    - destruct (Aq st2 (or_introl eq_refl)) as [L K]. exact (exchange_near D OK rank st2 st3 L K H).
    - apply IH. intros st I. apply Aq. right. exact I. }
  split; [exact C|]. split; [exact L2|]. split; [exact A2|]. split; [exact Aq|]. split; [|split; [|split]].
  - rewrite <- (forall2_len _ _ _ X). lia.
  - clear - X. induction X as [|? ? ? ? [H _] X IH]; constructor; assumption.
  - exact G.
  - clear - X. induction X as [|? ? ? ? [_ H] X IH]; constructor; assumption.
Qed.
Lemma charge_push FE FB ps1 ps2 i j : length ps1 = length sps -> slow_all ps1 -> slow_all ps2 ->
  Forall2 (fun ss st2 => map canon (particles st2) = map (fun r => canon (grow rsqrt Nx Ny (d_dx D) (d_dy D) (d_dt D) (fst ss) FE FB r)) (particles (snd ss))) (combine sps ps1) ps2 ->
  charge D sps ps2 i j = (charge D sps ps1 i j - Q2Qc (d_dt D) * divE2 A (sv (cur ps2)) dx dy i j)%Qc.
Proof.
  intros L H1 H2 G. destruct (cells_pos D OK) as [P1 P2]. apply Qc_is_canon. rewrite this_minus, this_mult. unfold divE2. cbn [plus_ minus_ over_ qc_arith].
  rewrite this_plus, !this_div, !this_minus, !(cur_this D OK sps), !this_q2qc. unfold charge. rewrite !this_q2qc.
  change (csum D sps (1#2) i j ps2 == csum D sps (1#2) i j ps1 - d_dt D * ((jsum D sps 0 [i mod Nx; j mod Ny] ps2 - jsum D sps 0 [(i - 1) mod Nx; j mod Ny] ps2) / d_dx D
    + (jsum D sps 1 [i mod Nx; j mod Ny] ps2 - jsum D sps 1 [i mod Nx; (j - 1) mod Ny] ps2) / d_dy D))%Q.
  rewrite <- (csum_grown D OK rsqrt FE FB sps i j ps1 ps2 L H1 G).
  pose proof (all_continuity D OK sps ps2 (i mod Nx) (j mod Ny) H2 (Z.mod_pos_bound _ _ P1) (Z.mod_pos_bound _ _ P2)) as C.
  rewrite !csum_mod in C. rewrite !Zminus_mod_idemp_l in C. unfold Qdiv in *. lra.
Qed.
Lemma charge_wrapped psq ps3 i j : slow_all psq ->
  Forall2 (fun st2 st3 => Permutation (map canon (particles st3)) (map (fun r => canon (gwrap Nx Ny (d_dx D) (d_dy D) r)) (particles st2))) psq ps3 ->
  charge D sps ps3 i j = charge D sps psq i j.
Proof. intros H W. unfold charge. apply q2qc_eq. symmetry. exact (csum_wrapped D OK sps (1#2) i j psq ps3 H W). Qed.

Lemma defect_stepR rank t s s' i j : ready D sps s -> consistent D s -> stepR rsqrt eps D pairs sps rank t s s' ->
  defect eps D sps s' i j = (defect eps D sps s i j - shifted D sps t i j / eps)%Qc /\
  divB2 A (on_domain D (t_B s')) dx dy i j = divB2 A (on_domain D (t_B s)) dx dy i j /\
  (opposite sps pairs -> wtotal D sps (t_parts s') == wtotal D sps (t_parts s))%Q /\
  (opposite sps pairs -> wtotal D sps (after_collisions t) == wtotal D sps (before_collisions t) /\ wtotal D sps (after_qed t) == wtotal D sps (before_qed t))%Q /\
  ready D sps s' /\ consistent D s'.
Proof.
  intros [L F] ((FE & HE) & (FB & HB) & FJ & HJ) S.
  destruct S as [mE mB mJ ps mE1 mB1 ps1 psc mJ1 ps2 psq mJ2 ps3 mB2 mE2 A1 A2 A3 Ac A4 Aq A5 A6 A7 A8]. cbn [t_E t_B t_J t_parts] in *.
  pose proof (up_E_ok eps D OK rank FB FJ FE mB mJ mE mE1 HE HB HJ A1) as HE1. set (FE1 := gE eps D FB FJ FE) in *.
  pose proof (up_B_ok eps D OK rank FE1 FB mE1 mB mB1 HB HE1 A2) as HB1. set (FB1 := gB eps D FE1 FB) in *.
  destruct (forall2_sorted D ps ps1 A3 F) as (F1 & L1 & Q1). pose proof (collided_all rsqrt SUB D ps1 psc F1 Ac) as Fc. pose proof (forall2_len _ _ _ Ac) as Lc.
  destruct (half_stepR rank FE1 FB1 mE1 mB1 mJ psc mJ1 ps2 psq mJ2 ps3 HE1 HB1 ltac:(lia) Fc A4 Aq A5 A6) as (C & L2 & N2 & Nq & L3 & F3 & G & W).
  set (FJ2 := cur ps2) in *.
  pose proof (up_B_ok eps D OK rank FE1 FB1 mE1 mB1 mB2 HB1 HE1 A7) as HB2. set (FB2 := gB eps D FE1 FB1) in *.
  pose proof (up_E_ok eps D OK rank FB2 FJ2 FE1 mB2 mJ2 mE1 mE2 HE1 HB2 C A8) as HE2.
  split; [|split; [|split; [|split; [|split]]]].
  - unfold defect, gauss. cbn [t_E t_J t_parts].
    rewrite (read_divE D OK eps _ mE2 i j HE2), (read_divE D OK eps _ mE i j HE), (read_divJ D OK eps _ mJ2 i j C), (read_divJ D OK eps _ mJ i j HJ).
    unfold FE1 in *. rewrite !div_gE by exact OK.
    rewrite (charge_wrapped psq ps3 i j (around_slow _ Nq) W). unfold shifted. cbn [before_collisions after_collisions before_qed after_qed].
    rewrite (charge_push FE1 FB1 psc ps2 i j ltac:(lia) (settled_slow D psc Fc) (around_slow _ N2) G).
    assert (charge D sps ps1 i j = charge D sps ps i j) as ->.
    { unfold charge. apply q2qc_eq. apply (csum_sorted D sps (1#2) i j). clear - Q1. induction Q1; constructor; [apply Permutation_sym; assumption|assumption]. }
    fold FJ2. assert (Q2Qc (d_dt D) = half D + half D)%Qc as ->.
    { unfold half. apply Qc_is_canon. rewrite this_plus, !this_q2qc. ring. }
    unfold Qcdiv. ring.
  - rewrite (read_divB D OK eps _ mB2 i j HB2), (read_divB D OK eps _ mB i j HB). unfold FB2, FB1. rewrite !div_gB by exact OK. reflexivity.
  - intro O. rewrite <- (wtotal_wrapped D sps psq ps3 W), (stage_weight rsqrt D pairs sps ps2 psq L2 O Aq), (wtotal_grown D rsqrt _ _ sps psc ps2 ltac:(lia) G), (collided_weight rsqrt D sps ps1 psc Ac).
    symmetry. apply wtotal_sorted. exact Q1.
  - intro O. cbn [before_collisions after_collisions before_qed after_qed]. split; [exact (collided_weight rsqrt D sps ps1 psc Ac)|exact (stage_weight rsqrt D pairs sps ps2 psq L2 O Aq)].
  - split; assumption.
  - split; [eexists; exact HE2|]. split; eexists; eassumption.
Qed.
Lemma defect_stepsR : forall ts s s' i j, ready D sps s -> consistent D s -> stepsR rsqrt eps D pairs sps ts s s' ->
  defect eps D sps s' i j = (defect eps D sps s i j - shifted_all D sps ts i j / eps)%Qc /\
  divB2 A (on_domain D (t_B s')) dx dy i j = divB2 A (on_domain D (t_B s)) dx dy i j /\
  (opposite sps pairs -> wtotal D sps (t_parts s') == wtotal D sps (t_parts s))%Q /\
  ready D sps s' /\ consistent D s'.
Proof.
  induction ts as [|t ts IH]; intros s s' i j R C T; inversion T as [|t' ts' rank s0 s1 s2 T1 T2]; subst.
  { split; [unfold shifted_all; cbn [fold_right]; unfold Qcdiv; ring|]. split; [reflexivity|]. split; [reflexivity|]. auto. }
  destruct (defect_stepR rank t s s1 i j R C T1) as (E1 & E2 & E3 & _ & R1 & C1). destruct (IH s1 s' i j R1 C1 T2) as (E4 & E5 & E6 & R2 & C2).
  split; [rewrite E4, E1; unfold shifted_all; cbn [fold_right]; unfold Qcdiv; ring|]. split; [congruence|]. split; [intro O; rewrite (E6 O); exact (E3 O)|auto].
Qed.
(** the shift of a run adds up to nothing *)
Lemma shifted_total : forall ts s s', ready D sps s -> consistent D s -> stepsR rsqrt eps D pairs sps ts s s' -> opposite sps pairs ->
  (qsum (fun i => qsum (fun j => this (shifted_all D sps ts i j)) (points Ny)) (points Nx) == 0)%Q.
Proof.
  induction ts as [|t ts IH]; intros s s' R C T O; inversion T as [|t' ts' rank s0 s1 s2 T1 T2]; subst.
  { rewrite (qsum_ext _ (fun _ => 0%Q)); [apply qsum_zero; reflexivity|]. intros i _. apply qsum_zero. reflexivity. }
  destruct (defect_stepR rank t s s1 0 0 R C T1) as (_ & _ & _ & E & R1 & C1). destruct (E O) as [E1 E2]. specialize (IH s1 s' R1 C1 T2 O).
  rewrite (qsum_ext _ (fun i => qsum (fun j => csum D sps (1#2) i j (after_collisions t)) (points Ny) + -1 * qsum (fun j => csum D sps (1#2) i j (before_collisions t)) (points Ny)
    + (qsum (fun j => csum D sps (1#2) i j (after_qed t)) (points Ny) + -1 * qsum (fun j => csum D sps (1#2) i j (before_qed t)) (points Ny))
    + qsum (fun j => this (shifted_all D sps ts i j)) (points Ny))%Q).
  { rewrite !qsum_add, !qsum_scale, !csum_total, IH by exact OK. rewrite E1, E2. ring. }
  intros i _. rewrite <- !qsum_scale, <- !qsum_add. apply qsum_ext. intros j _. unfold shifted_all. cbn [fold_right]. rewrite this_plus. unfold shifted. rewrite this_plus, !this_minus. unfold charge. rewrite !this_q2qc. unfold csum. ring.
Qed.

(** ** every such step can be carried out *)
Lemma stepR_exists FE FB FJ FE1 FB1 rank s ps1 psc : ready D sps s -> field_is D FE (t_E s) -> field_is D FB (t_B s) -> currents_are D FJ (t_J s) ->
  (forall f g, gE eps D FB FJ FE f g = FE1 f g) -> (forall f g, gB eps D FE1 FB f g = FB1 f g) ->
  Forall2 sorted2 (t_parts s) ps1 -> Forall2 (collided rsqrt) ps1 psc ->
  exists ps2, Forall2 (fun ss st' => pushed rsqrt D FE1 FB1 (fst ss) (snd ss) st') (combine sps psc) ps2 /\
  forall psq, qed_stage rsqrt D pairs ps2 psq ->
  exists s', stepR rsqrt eps D pairs sps rank (mkTurn ps1 psc ps2 psq) s s' /\ ready D sps s' /\ consistent D s'.
Proof.
  intros R HE HB HJ XE XB S K. pose proof R as [L F].
  assert (consistent D s) as C by (split; [exists FE; exact HE|]; split; [exists FB; exact HB|exists FJ; exact HJ]). destruct s as [mE mB mJ ps]. cbn [t_E t_B t_J t_parts] in *.
  destruct (guards_exist D OK rank (up_E eps D mB mJ mE)) as [mE1 A1]. pose proof (up_E_ok eps D OK rank FB FJ FE mB mJ mE mE1 HE HB HJ A1) as HE1.
  apply (shows_ext (Q2Qc 0) _ _ _ _ _ _ FE1) in HE1; [|exact XE]. fold (field_is D FE1 mE1) in HE1.
  destruct (guards_exist D OK rank (up_B eps D mE1 mB)) as [mB1 A2]. pose proof (up_B_ok eps D OK rank _ FB mE1 mB mB1 HB HE1 A2) as HB1.
  apply (shows_ext (Q2Qc 0) _ _ _ _ _ _ FB1) in HB1; [|exact XB]. fold (field_is D FB1 mB1) in HB1.
  destruct (forall2_sorted D ps ps1 S F) as (F1 & L1 & _). pose proof (collided_all rsqrt SUB D ps1 psc F1 K) as Fc. pose proof (forall2_len _ _ _ K) as Lc.
  destruct (push_species_ok rsqrt SUB D OK _ _ mE1 mB1 HE1 HB1 sps psc (reset_currents D mJ) ltac:(lia) Fc) as (mJ1 & ps2 & A4 & P & _).
  exists ps2. split; [exact P|]. intros psq Q.
  destruct (currents_exist D OK rank mJ1) as [mJ2 A5].
  destruct (stage_around rsqrt SUB D OK pairs ps2 psq (pushed_around _ _ psc ps2 P) Q) as [Nq _].
  destruct (forall2_exists _ (sync_particles2 D rank) psq) as [ps3 A6]; [intros st I; apply particles_exist; [exact OK|exact (proj1 (Nq st I))]|].
  destruct (guards_exist D OK rank (up_B eps D mE1 mB1)) as [mB2 A7].
  destruct (guards_exist D OK rank (up_E eps D mB2 mJ2 mE1)) as [mE2 A8].
  exists (mkState2 mE2 mB2 mJ2 ps3).
  assert (stepR rsqrt eps D pairs sps rank (mkTurn ps1 psc ps2 psq) (mkState2 mE mB mJ ps) (mkState2 mE2 mB2 mJ2 ps3)) as T by (econstructor; eassumption).
  split; [exact T|]. destruct (defect_stepR rank _ _ _ 0 0 R C T) as (_ & _ & _ & _ & X). exact X.
Qed.
End R.

(** * Free flight *)
Section Free.
Variable rsqrt : Q -> Q.
Hypothesis SUB : subluminal rsqrt.
Variables (Nx Ny : Z) (dx dy dt : Q).
Let none (_ : nat) (_ : list Z) : Qc := Q2Qc 0.
Lemma gat_none X Y : let v := gat (gget Nx Ny none) (gget Nx Ny none) X Y in
  (s_ex v == 0 /\ s_ey v == 0 /\ s_ez v == 0 /\ s_bx v == 0 /\ s_by v == 0 /\ s_bz v == 0)%Q.
Proof.
  cbv zeta. unfold gat. cbv zeta. cbn [s_ex s_ey s_ez s_bx s_by s_bz].
  assert (forall f d e ix iy, gfield (gget Nx Ny none f) (get_gx d) (get_gx e) ix iy == 0)%Q as K.
  { intros f d e ix iy. unfold gfield, gget, none, get_gx, P_Interp.comb. change (this (Q2Qc 0)) with 0%Q. ring. }
  repeat split; apply K.
Qed.
Lemma boris_free ef bf ux uy uz e1 e2 e3 b1 b2 b3 : (e1 == 0 -> e2 == 0 -> e3 == 0 -> b1 == 0 -> b2 == 0 -> b3 == 0 ->
  let '((x, y, z), ig) := boris_core (Qnums rsqrt) ef bf (ux, uy, uz) (e1, e2, e3) (b1, b2, b3) in
  x == ux /\ y == uy /\ z == uz /\ ig == rsqrt (1 + (ux * ux + uy * uy + uz * uz)))%Q.
Proof.
  intros E1 E2 E3 B1 B2 B3. unfold boris_core. cbv zeta. cbn [Qnums n_add n_sub n_mul n_div n_1 n_2 n_rsqrt].
  set (g := rsqrt (one_plus_sq _ _)). set (t := (2 / one_plus_sq _ _)%Q). clearbody g t.
  match goal with |- (?x == _ /\ ?y == _ /\ ?z == _ /\ _)%Q => assert (x == ux)%Q as X by (rewrite E1, B1, B2, B3; ring); assert (y == uy)%Q as Y by (rewrite E2, B1, B2, B3; ring); assert (z == uz)%Q as Z by (rewrite E3, B1, B2, B3; ring) end.
  split; [exact X|]. split; [exact Y|]. split; [exact Z|]. apply (proj1 SUB). unfold one_plus_sq. cbn [Qnums n_add n_mul n_1]. rewrite X, Y, Z. ring.
Qed.
Lemma free_flight sp r x y : px _ r = Some x -> py _ r = Some y ->
  let g := grow rsqrt Nx Ny dx dy dt sp none none r in let b := other _ r in let b' := other _ g in
  let ig := rsqrt (1 + (b_ux b * b_ux b + b_uy b * b_uy b + b_uz b * b_uz b)) in
  (val (px _ g) == x + LIGHT_SPEED * (1#2) * dt * (b_ig b + ig) * b_ux b /\ val (py _ g) == y + LIGHT_SPEED * (1#2) * dt * (b_ig b + ig) * b_uy b /\
   b_ux b' == b_ux b /\ b_uy b' == b_uy b /\ b_uz b' == b_uz b /\ b_ig b' == ig /\ b_w b' = b_w b)%Q.
Proof.
  intros E1 E2 g b b' ig. unfold b', g, grow, gslot, one.
  assert (skipped (load (live r)) = false) as S.
  { unfold skipped, load. cbn [l_p p_dead p_nan M_PartSync.row M_PartSync.dead]. rewrite E1, E2. reflexivity. }
  rewrite S. cbv zeta. unfold ginterp. cbn [obind].
  unfold push_momentum. cbv zeta. cbn [l_p l_f].
  set (v := gat _ _ _ _). pose proof (gat_none (p_x (push_position_2d (LIGHT_SPEED * (1 # 2) * dt) (l_p (load (live r)))) / dx) (p_y (push_position_2d (LIGHT_SPEED * (1 # 2) * dt) (l_p (load (live r)))) / dy)) as Hv.
  cbv zeta in Hv. fold v in Hv. clearbody v. destruct Hv as (V1 & V2 & V3 & V4 & V5 & V6).
  cbn [push_position_2d p_ux p_uy p_uz p_x p_y p_ig load l_p M_PartSync.row]. fold b. rewrite E1, E2. cbn [val].
  unfold boris_inline. match goal with |- context [boris_core ?N ?ef ?bf _ _ _] => pose proof (boris_free ef bf (b_ux b) (b_uy b) (b_uz b) _ _ _ _ _ _ V1 V2 V3 V4 V5 V6) as K end.
  destruct (boris_core _ _ _ _ _ _) as [[[ux uy] uz] g']. destruct K as (K1 & K2 & K3 & K4).
  unfold rowof, store. cbn [push_position_2d M_PartSync.row px py pz other l_p l_f p_x p_y p_ux p_uy p_uz p_ig b_ux b_uy b_uz b_ig b_w]. rewrite E1, E2. cbn [isnan val].
  fold b. fold ig in K4. clearbody ig b.
  split; [rewrite K1; rewrite K4; ring|]. split; [rewrite K2; rewrite K4; ring|]. repeat (split; [assumption|]). reflexivity.
Qed.
End Free.
