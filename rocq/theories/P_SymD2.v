(** Symmetries in three dimensions, part 2: the push of one particle and what it adds to the currents. *)
From Coq Require Import QArith Qabs Qround Qcanon Permutation Lqa.
From Verif Require Import Base M_Layout S_Layout M_PartSync S_PartSync M_FieldSync S_FieldSync M_Maxwell S_Maxwell M_Deposit S_Deposit P_Deposit P_Deposit2 P_Deposit3 P_Deposit4 P_Deposit5 P_Deposit6 P_Deposit7 P_Deposit8 P_Deposit9 M_Push S_Push P_Interp P_Push M_Step S_Step P_Step1 P_Step2 P_Step3 P_Step4 P_Step5 P_Step6 S_Gauss P_Gauss1 S_Sym P_Sym1 P_Sym2 P_Sym3 P_Sym4 P_Sym5
  M_Step3D S_Step3D P_StepD1 P_StepD2 P_StepD3 P_StepD5 P_StepD6 P_StepD7 S_Gauss3D P_GaussD1 S_Sym3D P_SymD1.
Local Open Scope list_scope.
Local Open Scope Q_scope.

Section Push.
Variable rsqrt : Q -> Q.
Hypothesis SUB : subluminal rsqrt.
Variables D D' : domain3.
Hypothesis OK : domain3_ok D.
Hypothesis OK' : domain3_ok D'.
Variable y : symmetry3.
Hypothesis ID : image3_domain D D'.
Definition moved_part3 (p p' : part) : Prop :=
  (exists k, p_x p' == sgn (z_fx y) * p_x p + inject_Z (z_ax y + k * Ex D') * e_dx D') /\
  (exists k, p_y p' == sgn (z_fy y) * p_y p + inject_Z (z_ay y + k * Ey D') * e_dy D') /\
  (exists k, p_z p' == sgn (z_fz y) * p_z p + inject_Z (z_az y + k * Ez D') * e_dz D') /\
  p_ux p' == sgn (z_fx y) * p_ux p /\ p_uy p' == sgn (z_fy y) * p_uy p /\ p_uz p' == sgn (z_fz y) * p_uz p /\ p_ig p' == p_ig p /\ p_w p' == p_w p.
Definition moved_slot3 (s s' : M_Push.slot) : Prop := moved_part3 (l_p s) (l_p s') /\ same6 (l_f s') (image6 (flat y) (l_f s)).
Lemma moved_position3 c p p' : moved_part3 p p' -> moved_part3 (push_position_3d c p) (push_position_3d c p').
Proof using.
  intros ((k & A1) & (l & A2) & (m & A0) & A3 & A4 & A5 & A6 & A7). unfold moved_part3, push_position_3d. cbn [p_x p_y p_z p_ux p_uy p_uz p_ig p_w].
  split; [exists k; rewrite A1, A3, A6; ring|]. split; [exists l; rewrite A2, A4, A6; ring|]. split; [exists m; rewrite A0, A5, A6; ring|]. auto 10.
Qed.
Lemma moved_fields3 FE FB p p' : moved_part3 p p' ->
  same6 (gat3 (gget3 (Vx D') (Vy D') (Vz D') (image3_E y D' FE)) (gget3 (Vx D') (Vy D') (Vz D') (image3_B y D' FB)) (p_x p' / e_dx D') (p_y p' / e_dy D') (p_z p' / e_dz D'))
        (image6 (flat y) (gat3 (gget3 (Vx D) (Vy D) (Vz D) FE) (gget3 (Vx D) (Vy D) (Vz D) FB) (p_x p / e_dx D) (p_y p / e_dy D) (p_z p / e_dz D))).
Proof using OK OK' ID.
  intros ((k & A1) & (l & A2) & (m & A3) & _). destruct (ok3_d D' OK') as (P1 & P2 & P3). pose proof ID as (_ & _ & _ & I1 & I2 & I3 & _).
  apply (gat_image3 D D' OK OK' y ID FE FB k l m).
  - rewrite (in_cells_units _ _ _ _ _ P1 A1), I1. reflexivity.
  - rewrite (in_cells_units _ _ _ _ _ P2 A2), I2. reflexivity.
  - rewrite (in_cells_units _ _ _ _ _ P3 A3), I3. reflexivity.
Qed.
Lemma factor_image3 c q q' m m' t : q' == sgn c * q -> m' == m -> q' * e_dt D' / (2 * m' * t) == sgn c * (q * e_dt D / (2 * m * t)).
Proof using ID. intros H K. rewrite H, K. destruct ID as (_ & _ & _ & _ & _ & _ & ->). unfold Qdiv. ring. Qed.
Lemma factor_image31 c q q' m m' : q' == sgn c * q -> m' == m -> q' * e_dt D' / (2 * m') == sgn c * (q * e_dt D / (2 * m)).
Proof using ID. intros H K. rewrite H, K. destruct ID as (_ & _ & _ & _ & _ & _ & ->). unfold Qdiv. ring. Qed.
Lemma moved_momentum3 sp sp' s s' : image_species (flat y) sp sp' -> moved_slot3 s s' ->
  moved_slot3 (push_momentum rsqrt (sp_q sp) (sp_m sp) (e_dt D) s) (push_momentum rsqrt (sp_q sp') (sp_m sp') (e_dt D') s').
Proof using SUB ID.
  intros [S1 S2] [((k & A1) & (l & A2) & (m & A0) & A3 & A4 & A5 & A6 & A7) (F1 & F2 & F3 & F4 & F5 & F6)]. unfold push_momentum, boris_inline. cbv zeta. cbn [n_mul n_div n_2 Qnums].
  pose proof (boris_image0 rsqrt (proj1 SUB) false (z_fx y) (z_fy y) (z_fz y) (z_conj y) (sp_q sp * e_dt D / (2 * sp_m sp * LIGHT_SPEED)) (sp_q sp * e_dt D / (2 * sp_m sp))
    (p_ux (l_p s)) (p_uy (l_p s)) (p_uz (l_p s)) (s_ex (l_f s)) (s_ey (l_f s)) (s_ez (l_f s)) (s_bx (l_f s)) (s_by (l_f s)) (s_bz (l_f s))) as B. cbv zeta in B.
  pose proof (factor_image3 (z_conj y) _ _ _ _ LIGHT_SPEED S1 S2) as G1. pose proof (factor_image31 (z_conj y) _ _ _ _ S1 S2) as G2.
  unfold image6, sign_B, sign_E, improper, rev_, flat in F1, F2, F3, F4, F5, F6. cbv zeta in F1, F2, F3, F4, F5, F6. cbn [s_ex s_ey s_ez s_bx s_by s_bz y_swap y_fx y_fy y_fz y_conj] in F1, F2, F3, F4, F5, F6.
  pose proof (boris_eq rsqrt (proj1 SUB) _ _ _ _ _ _ _ _ _ _ _ _ _ _ _ _ _ _ _ _ _ _ G1 G2 A3 A4 A5 F1 F2 F3 F4 F5 F6) as C.
  destruct (boris_core (Qnums rsqrt) (sp_q sp * e_dt D / (2 * sp_m sp * LIGHT_SPEED)) _ _ _ _) as [[[x1 y1] z1] g1].
  match type of C with same_push ?a ?b => destruct a as [[[x2 y2] z2] g2]; destruct b as [[[x3 y3] z3] g3] end.
  destruct B as (B1 & B2 & B3 & B4). destruct C as (C1 & C2 & C3 & C4).
  split; [|unfold same6, image6, sign_B, sign_E, improper, rev_, flat; cbv zeta; cbn [l_f s_ex s_ey s_ez s_bx s_by s_bz y_swap y_fx y_fy y_fz y_conj]; auto 10].
  unfold moved_part3. cbn [l_p p_x p_y p_z p_ux p_uy p_uz p_ig p_w].
  split; [exists k; exact A1|]. split; [exists l; exact A2|]. split; [exists m; exact A0|]. rewrite C1, C2, C3, C4. auto 10.
Qed.
Lemma grow_skip3 Nx Ny Nz dx dy dz dt sp FE FB r : isnan (px _ r) || isnan (py _ r) || isnan (pz _ r) = true -> P_StepD2.grow3 rsqrt Nx Ny Nz dx dy dz dt sp FE FB r = r.
Proof using.
  intro H. unfold P_StepD2.grow3, gslot3, one.
  assert (skipped (load3 (live r)) = true) as ->.
  { unfold skipped, load3. cbn [l_p p_dead p_nan M_PartSync.row M_PartSync.dead orb]. exact H. }
  rewrite store_load3. reflexivity.
Qed.
Lemma grow_image3 sp sp' FE FB r r' : image_species (flat y) sp sp' -> image3_row y D' r r' ->
  image3_row y D' (P_StepD2.grow3 rsqrt (Vx D) (Vy D) (Vz D) (e_dx D) (e_dy D) (e_dz D) (e_dt D) sp FE FB r) (P_StepD2.grow3 rsqrt (Vx D') (Vy D') (Vz D') (e_dx D') (e_dy D') (e_dz D') (e_dt D') sp' (image3_E y D' FE) (image3_B y D' FB) r').
Proof using SUB OK OK' ID.
  intros S R. pose proof R as (R1 & R2 & R0 & R3 & R4 & R5 & R6 & R7 & R8 & R9).
  destruct (carried_some _ _ _ _ _ _ R1) as [N1 K1]. destruct (carried_some _ _ _ _ _ _ R2) as [N2 K2]. destruct (carried_some _ _ _ _ _ _ R0) as [N3 K3].
  destruct (isnan (px _ r) || isnan (py _ r) || isnan (pz _ r)) eqn:N.
  - rewrite !grow_skip3; [exact R|rewrite N1, N2, N3; exact N|exact N].
  - assert (isnan (px _ r') || isnan (py _ r') || isnan (pz _ r') = false) as N' by (rewrite N1, N2, N3; exact N).
    pose proof N as M0. apply orb_false_iff in M0. destruct M0 as [M0 Nz]. apply orb_false_iff in M0. destruct M0 as [Nx Ny].
    pose proof N' as M0. apply orb_false_iff in M0. destruct M0 as [M0 Nz']. apply orb_false_iff in M0. destruct M0 as [Nx' Ny'].
    assert (moved_slot3 (load3 (live r)) (load3 (live r'))) as M.
    { split; [|exact R8]. unfold moved_part3, load3. cbn [l_p p_x p_y p_z p_ux p_uy p_uz p_ig p_w M_PartSync.row].
      split; [apply K1; assumption|]. split; [apply K2; assumption|]. split; [apply K3; assumption|]. auto 10. }
    assert (exists t t', gslot3 rsqrt (Vx D) (Vy D) (Vz D) (e_dx D) (e_dy D) (e_dz D) (e_dt D) sp FE FB (load3 (live r)) = t /\ gslot3 rsqrt (Vx D') (Vy D') (Vz D') (e_dx D') (e_dy D') (e_dz D') (e_dt D') sp' (image3_E y D' FE) (image3_B y D' FB) (load3 (live r')) = t' /\ moved_slot3 t t') as (t & t' & T & T' & MT).
    { unfold gslot3, one. assert (skipped (load3 (live r)) = false) as -> by (unfold skipped, load3; cbn [l_p p_dead p_nan M_PartSync.row M_PartSync.dead orb]; exact N).
      assert (skipped (load3 (live r')) = false) as -> by (unfold skipped, load3; cbn [l_p p_dead p_nan M_PartSync.row M_PartSync.dead orb]; exact N').
      cbv zeta. unfold ginterp3 at 1 2. cbn [obind]. eexists. eexists. split; [reflexivity|]. split; [reflexivity|].
      assert (LIGHT_SPEED * (1 # 2) * e_dt D' = LIGHT_SPEED * (1 # 2) * e_dt D) as -> by (destruct ID as (_ & _ & _ & _ & _ & _ & ->); reflexivity).
      set (c := LIGHT_SPEED * (1 # 2) * e_dt D). pose proof (moved_position3 c _ _ (proj1 M)) as M1. pose proof (moved_fields3 FE FB _ _ M1) as M2.
      match goal with |- context [push_momentum rsqrt (sp_q sp) (sp_m sp) (e_dt D) ?s] => match goal with |- context [push_momentum rsqrt (sp_q sp') (sp_m sp') (e_dt D') ?s'] =>
        pose proof (moved_momentum3 sp sp' s s' S (conj M1 M2)) as M3 end end.
      destruct M3 as [M3 M4]. split; cbn [l_p l_f]; [apply moved_position3; exact M3|exact M4]. }
    unfold P_StepD2.grow3. rewrite T, T'. destruct MT as [((k & B1) & (l & B2) & (m & B0) & B3 & B4 & B5 & B6 & B7) B8]. clear - Nx Ny Nz Nx' Ny' Nz' B0 B1 B2 B3 B4 B5 B6 B8 R7 R9.
    unfold image3_row, rowof, store3. cbn [M_PartSync.row px py pz other b_ux b_uy b_uz b_ig b_w b_f b_id]. rewrite Nx, Ny, Nz, Nx', Ny', Nz'.
    split; [exists k; exact B1|]. split; [exists l; exact B2|]. split; [exists m; exact B0|]. repeat (split; [assumption|]). assumption.
Qed.
Lemma gwrap_image3 r r' : image3_row y D' r r' -> image3_row y D' (gwrap3 (Vx D) (Vy D) (Vz D) (e_dx D) (e_dy D) (e_dz D) r) (gwrap3 (Vx D') (Vy D') (Vz D') (e_dx D') (e_dy D') (e_dz D') r').
Proof using ID.
  intros (R1 & R2 & R3 & R). unfold gwrap3. destruct ID as (I1 & I2 & I3 & I4 & I5 & I6 & _).
  split; [cbn [px]; apply carried_wrap; auto|]. split; [cbn [py]; apply carried_wrap; auto|]. split; [cbn [pz]; apply carried_wrap; auto|exact R].
Qed.
Lemma image_canon3 r r' r1 r1' : canon r = canon r1 -> canon r' = canon r1' -> image3_row y D' r r' -> image3_row y D' r1 r1'.
Proof using.
  intros H H' (R1 & R2 & R0 & R3 & R4 & R5 & R6 & R7 & R8 & R9).
  assert (forall a b, Qred a = Qred b -> a == b) as RD by (intros a b E; rewrite <- (Qred_correct a), <- (Qred_correct b), E; reflexivity).
  assert (forall rev A N d x x' x1 x1', option_map Qred x = option_map Qred x1 -> option_map Qred x' = option_map Qred x1' -> carried rev A N d x x' -> carried rev A N d x1 x1') as K.
  { intros rev A N d [v|] [v'|] [v1|] [v1'|] E E'; cbn [option_map carried] in *; try discriminate; auto. intros (k & E2). exists k. injection E as E. injection E' as E'. rewrite <- (RD _ _ E), <- (RD _ _ E'). exact E2. }
  destruct r as [x z0 z b], r1 as [x1 z01 z1 b1], r' as [x' z0' z' b'], r1' as [x1' z01' z1' b1']. unfold canon in H, H'. cbn [px py pz other] in *.
  injection H as Hx Hy Hz Hux Huy Huz Hig Hw H1 H2 H3 H4 H5 H6 Hid. injection H' as Hx' Hy' Hz' Hux' Huy' Huz' Hig' Hw' H1' H2' H3' H4' H5' H6' Hid'.
  destruct R8 as (F1 & F2 & F3 & F4 & F5 & F6). unfold image6, flat in F1, F2, F3, F4, F5, F6. cbv zeta in *. cbn [s_ex s_ey s_ez s_bx s_by s_bz y_swap] in F1, F2, F3, F4, F5, F6.
  split; [exact (K _ _ _ _ _ _ _ _ Hx Hx' R1)|]. split; [exact (K _ _ _ _ _ _ _ _ Hy Hy' R2)|]. split; [exact (K _ _ _ _ _ _ _ _ Hz Hz' R0)|]. cbn [other].
  rewrite <- (RD _ _ Hux'), <- (RD _ _ Huy'), <- (RD _ _ Huz'), <- (RD _ _ Hig'), <- (RD _ _ Hw'), <- (RD _ _ Hux), <- (RD _ _ Huy), <- (RD _ _ Huz), <- (RD _ _ Hig), <- (RD _ _ Hw).
  split; [exact R3|]. split; [exact R4|]. split; [exact R5|]. split; [exact R6|]. split; [exact R7|]. split; [|congruence].
  unfold same6, image6, flat. cbv zeta. cbn [s_ex s_ey s_ez s_bx s_by s_bz y_swap].
  rewrite <- (RD _ _ H1'), <- (RD _ _ H2'), <- (RD _ _ H3'), <- (RD _ _ H4'), <- (RD _ _ H5'), <- (RD _ _ H6'), <- (RD _ _ H1), <- (RD _ _ H2), <- (RD _ _ H3), <- (RD _ _ H4), <- (RD _ _ H5), <- (RD _ _ H6).
  auto 10.
Qed.
End Push.

(** * Deposition *)
Definition dep3 (D : domain3) := gdep3 (Ex D) (Ey D) (Ez D) (e_dx D) (e_dy D) (e_dz D) (e_dt D).
Definition dep_form3 (dx dy dz cd dt : Q) (Px Py Pz A0 A1 B0 B1 C0 C1 : Q) (f : nat) : Q :=
  match f with
  | 0%nat => - (cd * dx / dt * Px * T2 B0 (B1 - B0) C0 (C1 - C0))
  | 1%nat => - (cd * dy / dt * Py * T2 A0 (A1 - A0) C0 (C1 - C0))
  | 2%nat => - (cd * dz / dt * Pz * T2 A0 (A1 - A0) B0 (B1 - B0))
  | _ => cd * A1 * B1 * C1
  end.
Local Notation wh D := (whole3 (Ex D) (Ey D) (Ez D) (e_dx D) (e_dy D) (e_dz D)).
Lemma gdep_form3 D (OK : domain3_ok D) sp r : fast3_ok r ->
  let G := wh D in let p := bare3 r in
  exists ix0 iy0 iz0 S0x S1x DSx S0y S1y DSy S0z S1z DSz dcx dcy dcz,
    axis_ok S0x S1x DSx ix0 dcx (X3 G (e_dt D) (-1#2) p) (X3 G (e_dt D) (1#2) p) /\
    axis_ok S0y S1y DSy iy0 dcy (Y3 G (e_dt D) (-1#2) p) (Y3 G (e_dt D) (1#2) p) /\
    axis_ok S0z S1z DSz iz0 dcz (Z3 G (e_dt D) (-1#2) p) (Z3 G (e_dt D) (1#2) p) /\
    forall f a b c, (0 <= a < Ex D)%Z -> (0 <= b < Ey D)%Z -> (0 <= c < Ez D)%Z ->
      dep3 D sp r f [a; b; c] ==
      dep_form3 (e_dx D) (e_dy D) (e_dz D) (sp_q sp * p_w p / (e_dx D * e_dy D * e_dz D)) (e_dt D)
        (foldp ix0 (Ex D) a (fun i => psum (at5 DSx) 0 i)) (foldp iy0 (Ey D) b (fun i => psum (at5 DSy) 0 i)) (foldp iz0 (Ez D) c (fun i => psum (at5 DSz) 0 i))
        (foldp ix0 (Ex D) a (at5 S0x)) (foldp ix0 (Ex D) a (at5 S1x)) (foldp iy0 (Ey D) b (at5 S0y)) (foldp iy0 (Ey D) b (at5 S1y)) (foldp iz0 (Ez D) c (at5 S0z)) (foldp iz0 (Ez D) c (at5 S1z)) f.
Proof.
  intros F G p. destruct (one3_fused G (e_dt D) (sp_q sp) p (whole3_ok D OK) (not_zero_dt3 D OK) (slow3_ok D OK r F) reset_current)
    as (ix0 & iy0 & iz0 & S0x & S1x & DSx & S0y & S1y & DSy & S0z & S1z & DSz & dcx & dcy & dcz & OKx & OKy & OKz & E).
  exists ix0, iy0, iz0, S0x, S1x, DSx, S0y, S1y, DSy, S0z, S1z, DSz, dcx, dcy, dcz. split; [exact OKx|]. split; [exact OKy|]. split; [exact OKz|]. intros f a b c Ha Hb Hc.
  pose proof (gdep3_kernel D OK sp r f a b c Ha Hb Hc) as K. change (cells3_x D) with (Ex D) in K. change (cells3_y D) with (Ey D) in K. change (cells3_z D) with (Ez D) in K.
  unfold dep3. rewrite K. fold G p. destruct (E a b c Ha Hb Hc) as (E1 & E2 & E3 & E4).
  unfold G in E1, E2, E3, E4 |- *. cbn [h_dx h_dy h_dz h_nx h_ny h_nz whole3] in E1, E2, E3, E4 |- *.
  destruct f as [|[|[|f]]]; cbn [arrf dep_form3]; [rewrite E2|rewrite E3|rewrite E4|rewrite E1]; cbn [reset_current a_jx a_jy a_jz a_rho]; ring.
Qed.
Lemma T2_comp a b c d a' b' c' d' : a' == a -> b' == b -> c' == c -> d' == d -> T2 a' (b' - a') c' (d' - c') == T2 a (b - a) c (d - c).
Proof. intros E1 E2 E3 E4. unfold T2. rewrite E1, E2, E3, E4. reflexivity. Qed.

Section One.
Variables D D' : domain3.
Hypothesis OK : domain3_ok D.
Hypothesis OK' : domain3_ok D'.
Variable y : symmetry3.
Hypothesis ID : image3_domain D D'.
Lemma fast_image3 r r' : image3_row y D' r r' -> fast3_ok r -> fast3_ok r'.
Proof using.
  intros (R1 & R2 & R0 & R3 & R4 & R5 & R6 & _) ((x & z & u & E1 & E2 & E3) & V1 & V2 & V3).
  assert (forall s u, Qabs (sgn s * u) == Qabs u) as AB by (intros [|] v; cbn [sgn]; [rewrite <- (Qabs_opp v)|]; apply Qabs_wd; ring).
  split; [|split; [|split]].
  - rewrite E1 in R1. rewrite E2 in R2. rewrite E3 in R0. destruct (px _ r') as [a|] eqn:A1, (py _ r') as [b|] eqn:A2, (pz _ r') as [c|] eqn:A3; cbn [carried] in *; try contradiction. exists a, b, c. auto.
  - rewrite R3, R6, <- Qmult_assoc, AB. assumption.
  - rewrite R4, R6, <- Qmult_assoc, AB. assumption.
  - rewrite R5, R6, <- Qmult_assoc, AB. assumption.
Qed.
Lemma gdep_image3 sp sp' r r' f a b c : image_species (flat y) sp sp' -> image3_row y D' r r' -> fast3_ok r -> (f < 4)%nat -> (0 <= a < Ex D')%Z -> (0 <= b < Ey D')%Z -> (0 <= c < Ez D')%Z ->
  dep3 D' sp' r' f [a; b; c] == sgn (sign_E (flat y) f) * dep3 D sp r f
    [origin_of (z_fx y) (z_ax y) (Ex D') (half_Ex f) a; origin_of (z_fy y) (z_ay y) (Ey D') (half_Ey f) b; origin_of (z_fz y) (z_az y) (Ez D') (half_Ez f) c].
Proof using OK OK' ID.
  intros S R F Hf Ha Hb Hc. pose proof (fast_image3 _ _ R F) as F'.
  destruct (gdep_form3 D OK sp r F) as (ix & iy & iz & S0x & S1x & DSx & S0y & S1y & DSy & S0z & S1z & DSz & dcx & dcy & dcz & AX & AY & AZ & FORM).
  destruct (gdep_form3 D' OK' sp' r' F') as (ix' & iy' & iz' & S0x' & S1x' & DSx' & S0y' & S1y' & DSy' & S0z' & S1z' & DSz' & dcx' & dcy' & dcz' & AX' & AY' & AZ' & FORM').
  destruct (widths3 D' OK') as (W1 & W2 & W3). destruct (ok3_d D' OK') as (P1 & P2 & P3).
  rewrite (FORM' f a b c Ha Hb Hc). clear FORM'.
  destruct R as (R1 & R2 & R0 & R3 & R4 & R5 & R6 & R7 & _). destruct S as [S1 S2]. destruct F as ((x & z & u & E1 & E2 & E3) & _). destruct F' as ((x' & z' & u' & E1' & E2' & E3') & _).
  rewrite E1, E1' in R1. rewrite E2, E2' in R2. rewrite E3, E3' in R0. cbn [carried] in R1, R2, R0. destruct R1 as (k & R1). destruct R2 as (l & R2). destruct R0 as (m & R0).
  destruct ID as (J1 & J2 & J3 & J4 & J5 & J6 & J7).
  assert (sp_q sp' * p_w (bare3 r') / (e_dx D' * e_dy D' * e_dz D') == sgn (z_conj y) * (sp_q sp * p_w (bare3 r) / (e_dx D * e_dy D * e_dz D))) as CD.
  { unfold bare3, load3. cbn [l_p p_w M_PartSync.row]. rewrite S1, R7, <- J4, <- J5, <- J6. cbn [flat y_conj]. unfold Qdiv. ring. }
  assert (forall h, X3 (wh D') (e_dt D') h (bare3 r') == sgn (z_fx y) * X3 (wh D) (e_dt D) h (bare3 r) + inject_Z (z_ax y + k * Ex D')) as QX.
  { intro h. unfold X3. cbn [whole3 h_dx h_x0 bare3 load3 l_p p_x p_ux p_ig M_PartSync.row]. rewrite E1', E1, <- J4. cbn [val]. apply scaled_move_to; auto. }
  assert (forall h, Y3 (wh D') (e_dt D') h (bare3 r') == sgn (z_fy y) * Y3 (wh D) (e_dt D) h (bare3 r) + inject_Z (z_ay y + l * Ey D')) as QY.
  { intro h. unfold Y3. cbn [whole3 h_dy h_y0 bare3 load3 l_p p_y p_uy p_ig M_PartSync.row]. rewrite E2', E2, <- J5. cbn [val]. apply scaled_move_to; auto. }
  assert (forall h, Z3 (wh D') (e_dt D') h (bare3 r') == sgn (z_fz y) * Z3 (wh D) (e_dt D) h (bare3 r) + inject_Z (z_az y + m * Ez D')) as QZ.
  { intro h. unfold Z3. cbn [whole3 h_dz h_z0 bare3 load3 l_p p_z p_uz p_ig M_PartSync.row]. rewrite E3', E3, <- J6. cbn [val]. apply scaled_move_to; auto. }
  pose proof (origin_in (z_fx y) (z_ax y) (Ex D') (half_Ex f) a W1) as Oa. pose proof (origin_in (z_fy y) (z_ay y) (Ey D') (half_Ey f) b W2) as Ob. pose proof (origin_in (z_fz y) (z_az y) (Ez D') (half_Ez f) c W3) as Oc.
  rewrite FORM by (rewrite <- ?J1, <- ?J2, <- ?J3; assumption). clear FORM. rewrite <- J1, <- J2, <- J3, <- J4, <- J5, <- J6, <- J7 in *.
  pose proof (foldD_move _ _ _ _ _ _ _ _ _ _ _ _ _ _ AX AX' (z_fx y) (z_ax y) k (Ex D') W1 (QX _) (QX _) a Ha) as MX.
  pose proof (foldD_move _ _ _ _ _ _ _ _ _ _ _ _ _ _ AY AY' (z_fy y) (z_ay y) l (Ey D') W2 (QY _) (QY _) b Hb) as MY.
  pose proof (foldD_move _ _ _ _ _ _ _ _ _ _ _ _ _ _ AZ AZ' (z_fz y) (z_az y) m (Ez D') W3 (QZ _) (QZ _) c Hc) as MZ.
  pose proof (fold0_move _ _ _ _ _ _ _ _ _ _ _ _ _ _ AX AX' (z_fx y) (z_ax y) k (Ex D') W1 (QX _) a Ha) as X0. pose proof (fold1_move _ _ _ _ _ _ _ _ _ _ _ _ _ _ AX AX' (z_fx y) (z_ax y) k (Ex D') W1 (QX _) a Ha) as X1.
  pose proof (fold0_move _ _ _ _ _ _ _ _ _ _ _ _ _ _ AY AY' (z_fy y) (z_ay y) l (Ey D') W2 (QY _) b Hb) as Y0. pose proof (fold1_move _ _ _ _ _ _ _ _ _ _ _ _ _ _ AY AY' (z_fy y) (z_ay y) l (Ey D') W2 (QY _) b Hb) as Y1.
  pose proof (fold0_move _ _ _ _ _ _ _ _ _ _ _ _ _ _ AZ AZ' (z_fz y) (z_az y) m (Ez D') W3 (QZ _) c Hc) as Z0. pose proof (fold1_move _ _ _ _ _ _ _ _ _ _ _ _ _ _ AZ AZ' (z_fz y) (z_az y) m (Ez D') W3 (QZ _) c Hc) as Z1.
  clear - CD MX MY MZ X0 X1 Y0 Y1 Z0 Z1 Hf.
  assert (forall a b, sgn (xorb a b) == sgn a * sgn b) as SX by (intros [|] [|]; reflexivity). unfold sign_E. rewrite SX. unfold flat, rev_. cbn [y_conj y_fx y_fy y_fz].
  destruct f as [|[|[|[|f]]]]; [| | | |lia]; cbn [dep_form3 half_Ex half_Ey half_Ez Nat.eqb].
  - rewrite (T2_comp _ _ _ _ _ _ _ _ Y0 Y1 Z0 Z1), CD, MX. unfold Qdiv. ring.
  - rewrite (T2_comp _ _ _ _ _ _ _ _ X0 X1 Z0 Z1), CD, MY. unfold Qdiv. ring.
  - rewrite (T2_comp _ _ _ _ _ _ _ _ X0 X1 Y0 Y1), CD, MZ. unfold Qdiv. ring.
  - rewrite CD, X1, Y1, Z1. cbn [sgn]. ring.
Qed.
End One.
