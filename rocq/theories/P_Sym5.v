(** Symmetries: what a particle and its image add to the currents. *)
From Coq Require Import QArith Qround Qabs Qcanon Lqa Permutation Setoid Morphisms.
From Verif Require Import Base M_Layout M_PartSync S_PartSync M_FieldSync S_Maxwell M_Deposit S_Deposit P_Deposit P_Deposit2 P_Deposit3 P_Deposit4 P_Deposit5 M_Push S_Push M_Step S_Step
  P_Step2 P_Step3 P_Step5 S_Gauss P_Gauss1 S_Sym P_Sym1 P_Sym2 P_Sym3 P_Sym4.
Local Open Scope list_scope.
Local Open Scope Q_scope.

Lemma scaled_move_to rev A N d dt dt' x u ig x' u' ig' h : 0 < d -> dt' = dt -> x' == sgn rev * x + inject_Z (A + N) * d -> u' == sgn rev * u -> ig' == ig ->
  scaled x' u' ig' 0 d dt' h == sgn rev * scaled x u ig 0 d dt h + inject_Z (A + N).
Proof. intros P -> E1 E2 E3. unfold scaled. rewrite E1, E2, E3. field. lra. Qed.
Lemma form_plain G G' c rx ry rz cd cd' dt dt' vz vz' Px Py A0 A1 B0 B1 Px' Py' A0' A1' B0' B1' PxB PyA f : (f < 4)%nat -> g_dx G' = g_dx G -> g_dy G' = g_dy G -> dt' = dt ->
  cd' == sgn c * cd -> vz' == sgn rz * vz -> (f = 0%nat -> Px' == sgn rx * Px) -> (f = 1%nat -> Py' == sgn ry * Py) ->
  (f <> 0%nat -> A0' == A0 /\ A1' == A1) -> (f <> 1%nat -> B0' == B0 /\ B1' == B1) ->
  (f = 0%nat -> PxB = Px) -> (f = 1%nat -> PyA = Py) ->
  dep_form G' cd' dt' vz' Px' Py' A0' A1' B0' B1' f == sgn (xorb c (match f with 0%nat => rx | 1%nat => ry | 2%nat => rz | _ => false end)) * dep_form G cd dt vz PxB PyA A0 A1 B0 B1 f.
Proof.
  intros Hf Ex Ey -> Ec Ez H0 H1 HA HB K0 K1. assert (forall a b, sgn (xorb a b) == sgn a * sgn b) as SX by (intros [|] [|]; reflexivity). rewrite SX.
  destruct f as [|[|[|[|f]]]]; [| | | |lia]; cbn [dep_form].
  - destruct (HB ltac:(discriminate)) as [-> ->]. rewrite (H0 eq_refl), Ec, Ex, (K0 eq_refl). unfold Qdiv. ring.
  - destruct (HA ltac:(discriminate)) as [-> ->]. rewrite (H1 eq_refl), Ec, Ey, (K1 eq_refl). unfold Qdiv. ring.
  - destruct (HA ltac:(discriminate)) as [-> ->]. destruct (HB ltac:(discriminate)) as [-> ->]. rewrite Ec, Ez. ring.
  - destruct (HA ltac:(discriminate)) as [_ ->]. destruct (HB ltac:(discriminate)) as [_ ->]. rewrite Ec. cbn [sgn]. ring.
Qed.
Lemma form_swap G G' cd dt vz Px Py A0 A1 B0 B1 f : (f < 4)%nat -> g_dx G' = g_dy G -> g_dy G' = g_dx G ->
  dep_form G' cd dt vz Px Py A0 A1 B0 B1 f == dep_form G cd dt vz Py Px B0 B1 A0 A1 (match f with 0%nat => 1%nat | 1%nat => 0%nat | _ => f end).
Proof. intros Hf E1 E2. destruct f as [|[|[|[|f]]]]; [| | | |lia]; cbn [dep_form]; rewrite ?E1, ?E2; unfold Qdiv; ring. Qed.

Section One.
Variables D D' : domain2.
Hypothesis OK : domain_ok D.
Hypothesis OK' : domain_ok D'.
Variable y : symmetry.
Hypothesis ID : image_domain y D D'.
Local Notation dep D := (gdep (Cx D) (Cy D) (d_dx D) (d_dy D) (d_dt D)).
Lemma fast_image r r' : image_row y D' r r' -> fast_ok r -> fast_ok r'.
Proof using.
  intros (R1 & R2 & R3 & R4 & _ & R6 & _) ((x & z & E1 & E2) & V1 & V2).
  assert (forall s u, Qabs (sgn s * u) == Qabs u) as AB by (intros [|] u; cbn [sgn]; [rewrite <- (Qabs_opp u)|]; apply Qabs_wd; ring).
  split; [|split].
  - rewrite E1, E2 in R1, R2. destruct (px _ r') as [a|], (py _ r') as [b|], (y_swap y); cbn [carried] in *; try contradiction; exists a, b; auto.
  - rewrite R3, R6, <- Qmult_assoc, AB. destruct (y_swap y); assumption.
  - rewrite R4, R6, <- Qmult_assoc, AB. destruct (y_swap y); assumption.
Qed.
Lemma origin_in rev A N h a : (0 < N)%Z -> (0 <= origin_of rev A N h a < N)%Z.
Proof using. intro P. apply Z.mod_pos_bound. exact P. Qed.
Lemma same_axes f : half_Ex f = (f =? 0)%nat /\ half_Ey f = (f =? 1)%nat. Proof using. split; reflexivity. Qed.

Lemma gdep_image sp sp' r r' f a b : image_species y sp sp' -> image_row y D' r r' -> fast_ok r -> (f < 4)%nat -> (0 <= a < Cx D')%Z -> (0 <= b < Cy D')%Z ->
  let a0 := origin_of (y_fx y) (y_ax y) (Cx D') (half_Ex f) a in let b0 := origin_of (y_fy y) (y_ay y) (Cy D') (half_Ey f) b in
  dep D' sp' r' f [a; b] == sgn (sign_E y f) * dep D sp r (comp y f) (if y_swap y then [b0; a0] else [a0; b0]).
Proof using OK OK' ID.
  intros S R F Hf Ha Hb a0 b0. pose proof (fast_image _ _ R F) as F'.
  destruct (gdep_form D OK sp r F) as (ix & iy & S0x & S1x & DSx & S0y & S1y & DSy & dcx & dcy & AX & AY & FORM).
  destruct (gdep_form D' OK' sp' r' F') as (ix' & iy' & S0x' & S1x' & DSx' & S0y' & S1y' & DSy' & dcx' & dcy' & AX' & AY' & FORM').
  destruct (widths D OK) as [W1 W2]. destruct (widths D' OK') as [W1' W2']. destruct (ok_d D' OK') as [P1 P2]. destruct (ok_d D OK) as [Q1 Q2].
  assert (0 <= a0 < Cx D')%Z as Ha0 by (apply origin_in; exact W1'). assert (0 <= b0 < Cy D')%Z as Hb0 by (apply origin_in; exact W2').
  rewrite (FORM' f a b Ha Hb).
  destruct R as (R1 & R2 & R3 & R4 & R5 & R6 & R7 & _). destruct S as [S1 S2]. destruct F as ((x & z & E1 & E2) & _). destruct F' as ((x' & z' & E1' & E2') & _).
  rewrite E1, E2, E1' in R1. rewrite E1, E2, E2' in R2.
  destruct ID as [I1 I2].
  assert (vel (p_uz (bare r')) (p_ig (bare r')) == sgn (y_fz y) * vel (p_uz (bare r)) (p_ig (bare r))) as VZ.
  { unfold vel, bare, load. cbn [l_p p_uz p_ig M_PartSync.row]. rewrite R5, R6. ring. }
  assert (sp_q sp' * p_w (bare r') / (d_dx D' * d_dy D') == sgn (y_conj y) * (sp_q sp * p_w (bare r) / (d_dx D * d_dy D))) as CD.
  { unfold bare, load. cbn [l_p p_w M_PartSync.row]. rewrite S1, R7. destruct (y_swap y), I1 as (_ & _ & -> & ->); field; lra. }
  assert (rev_ y f = match f with 0%nat => y_fx y | 1%nat => y_fy y | 2%nat => y_fz y | _ => false end) as RV by reflexivity.
  unfold sign_E. rewrite RV. unfold comp.
  destruct (y_swap y).
  - destruct I1 as (J1 & J2 & J3 & J4). rewrite FORM by (rewrite <- ?J1, <- ?J2; assumption). cbn [carried] in R1, R2.
    destruct R1 as (k & R1). destruct R2 as (l & R2).
    assert (forall h, X2 (whole (Cx D') (Cy D') (d_dx D') (d_dy D')) (d_dt D') h (bare r') == sgn (y_fx y) * Y2 (whole (Cx D) (Cy D) (d_dx D) (d_dy D)) (d_dt D) h (bare r) + inject_Z (y_ax y + k * Cx D')) as EX.
    { intro h. unfold X2, Y2. cbn [whole g_dx g_dy g_x0 g_y0 bare load l_p p_x p_y p_ux p_uy p_ig M_PartSync.row]. rewrite E1', E2, <- J3. cbn [val]. apply scaled_move_to; auto. }
    assert (forall h, Y2 (whole (Cx D') (Cy D') (d_dx D') (d_dy D')) (d_dt D') h (bare r') == sgn (y_fy y) * X2 (whole (Cx D) (Cy D) (d_dx D) (d_dy D)) (d_dt D) h (bare r) + inject_Z (y_ay y + l * Cy D')) as EY.
    { intro h. unfold X2, Y2. cbn [whole g_dx g_dy g_x0 g_y0 bare load l_p p_x p_y p_ux p_uy p_ig M_PartSync.row]. rewrite E2', E1, <- J4. cbn [val]. apply scaled_move_to; auto. }
    pose proof (form_swap (whole (Cx D) (Cy D) (d_dx D) (d_dy D)) (whole (Cy D) (Cx D) (d_dy D) (d_dx D))) as SW.
    rewrite <- (SW _ _ _ _ _ _ _ _ _ f Hf eq_refl eq_refl).
    rewrite <- J1, <- J2. unfold a0, b0, half_Ex, half_Ey.
    eapply (form_plain _ _ (y_conj y) (y_fx y) (y_fy y) (y_fz y)); [exact Hf|exact J3|exact J4|exact I2|exact CD|exact VZ|..].
    + intros ->. cbn [Nat.eqb]. exact (foldD_move _ _ _ _ _ _ _ _ _ _ _ _ _ _ AY AX' (y_fx y) (y_ax y) k (Cx D') W1' (EX _) (EX _) a Ha).
    + intros ->. cbn [Nat.eqb]. exact (foldD_move _ _ _ _ _ _ _ _ _ _ _ _ _ _ AX AY' (y_fy y) (y_ay y) l (Cy D') W2' (EY _) (EY _) b Hb).
    + intro N. rewrite (proj2 (Nat.eqb_neq f 0) N). split.
      * exact (fold0_move _ _ _ _ _ _ _ _ _ _ _ _ _ _ AY AX' (y_fx y) (y_ax y) k (Cx D') W1' (EX _) a Ha).
      * exact (fold1_move _ _ _ _ _ _ _ _ _ _ _ _ _ _ AY AX' (y_fx y) (y_ax y) k (Cx D') W1' (EX _) a Ha).
    + intro N. rewrite (proj2 (Nat.eqb_neq f 1) N). split.
      * exact (fold0_move _ _ _ _ _ _ _ _ _ _ _ _ _ _ AX AY' (y_fy y) (y_ay y) l (Cy D') W2' (EY _) b Hb).
      * exact (fold1_move _ _ _ _ _ _ _ _ _ _ _ _ _ _ AX AY' (y_fy y) (y_ay y) l (Cy D') W2' (EY _) b Hb).
    + intros ->. reflexivity.
    + intros ->. reflexivity.
  - destruct I1 as (J1 & J2 & J3 & J4). rewrite FORM by (rewrite <- ?J1, <- ?J2; assumption). cbn [carried] in R1, R2.
    destruct R1 as (k & R1). destruct R2 as (l & R2).
    assert (forall h, X2 (whole (Cx D') (Cy D') (d_dx D') (d_dy D')) (d_dt D') h (bare r') == sgn (y_fx y) * X2 (whole (Cx D) (Cy D) (d_dx D) (d_dy D)) (d_dt D) h (bare r) + inject_Z (y_ax y + k * Cx D')) as EX.
    { intro h. unfold X2, Y2. cbn [whole g_dx g_dy g_x0 g_y0 bare load l_p p_x p_y p_ux p_uy p_ig M_PartSync.row]. rewrite E1', E1, <- J3. cbn [val]. apply scaled_move_to; auto. }
    assert (forall h, Y2 (whole (Cx D') (Cy D') (d_dx D') (d_dy D')) (d_dt D') h (bare r') == sgn (y_fy y) * Y2 (whole (Cx D) (Cy D) (d_dx D) (d_dy D)) (d_dt D) h (bare r) + inject_Z (y_ay y + l * Cy D')) as EY.
    { intro h. unfold X2, Y2. cbn [whole g_dx g_dy g_x0 g_y0 bare load l_p p_x p_y p_ux p_uy p_ig M_PartSync.row]. rewrite E2', E2, <- J4. cbn [val]. apply scaled_move_to; auto. }
    rewrite <- J1, <- J2. unfold a0, b0, half_Ex, half_Ey.
    eapply (form_plain _ _ (y_conj y) (y_fx y) (y_fy y) (y_fz y)); [exact Hf|exact J3|exact J4|exact I2|exact CD|exact VZ|..].
    + intros ->. cbn [Nat.eqb]. exact (foldD_move _ _ _ _ _ _ _ _ _ _ _ _ _ _ AX AX' (y_fx y) (y_ax y) k (Cx D') W1' (EX _) (EX _) a Ha).
    + intros ->. cbn [Nat.eqb]. exact (foldD_move _ _ _ _ _ _ _ _ _ _ _ _ _ _ AY AY' (y_fy y) (y_ay y) l (Cy D') W2' (EY _) (EY _) b Hb).
    + intro N. rewrite (proj2 (Nat.eqb_neq f 0) N). split.
      * exact (fold0_move _ _ _ _ _ _ _ _ _ _ _ _ _ _ AX AX' (y_fx y) (y_ax y) k (Cx D') W1' (EX _) a Ha).
      * exact (fold1_move _ _ _ _ _ _ _ _ _ _ _ _ _ _ AX AX' (y_fx y) (y_ax y) k (Cx D') W1' (EX _) a Ha).
    + intro N. rewrite (proj2 (Nat.eqb_neq f 1) N). split.
      * exact (fold0_move _ _ _ _ _ _ _ _ _ _ _ _ _ _ AY AY' (y_fy y) (y_ay y) l (Cy D') W2' (EY _) b Hb).
      * exact (fold1_move _ _ _ _ _ _ _ _ _ _ _ _ _ _ AY AY' (y_fy y) (y_ay y) l (Cy D') W2' (EY _) b Hb).
    + intros ->. reflexivity.
    + intros ->. reflexivity.
Qed.
End One.
