(** Symmetries in three dimensions, part 1: the updates of the fields, and interpolation. *)
From Coq Require Import QArith Qabs Qround Qcanon Permutation Lqa.
From Verif Require Import Base M_Layout S_Layout M_PartSync S_PartSync M_FieldSync S_FieldSync M_Maxwell S_Maxwell M_Deposit S_Deposit M_Push S_Push P_Deposit P_Interp P_Push P_Maxwell P_Maxwell2 P_Maxwell3 M_Step S_Step P_Step1 P_Step2 P_Step7 S_Sym P_Sym1 P_Sym2 P_Sym3
  M_Step3D S_Step3D P_StepD1 P_StepD2 P_StepD7 S_Sym3D.
Local Open Scope list_scope.
Local Open Scope Z_scope.

Lemma widths3 D : domain3_ok D -> 0 < Ex D /\ 0 < Ey D /\ 0 < Ez D.
Proof. intro OK. destruct (ok3_n D OK) as (N1 & N2 & N3), (ok3_g D OK) as (G1 & G2 & G3 & G4). unfold Ex, Ey, Ez. nia. Qed.
Lemma place_zeros3 D (OK : domain3_ok D) a b c : place [e_ax D; e_ay D; e_az D] [e_nx D; e_ny D; e_nz D] (zeros [e_nx D; e_ny D; e_nz D]) [a; b; c] = Some [a mod Ex D; b mod Ey D; c mod Ez D].
Proof.
  cbn [zeros map place]. rewrite !place1_wrap by (apply (ok3_px D OK) || apply (ok3_py D OK) || apply (ok3_pz D OK)). reflexivity.
Qed.
Lemma within_three ng a b d c : within ng [a; b; d] c -> exists x y z, c = [x; y; z].
Proof. intro W. inversion W as [|? x ? l _ W2]; subst. inversion W2 as [|? z ? l2 _ W3]; subst. inversion W3 as [|? u ? l3 _ W4]; subst. inversion W4; subst. eauto. Qed.
Lemma field_ext3 D (OK : domain3_ok D) F F' m : (forall f a b c, (f < 3)%nat -> 0 <= a < Ex D -> 0 <= b < Ey D -> 0 <= c < Ez D -> F f [a; b; c] = F' f [a; b; c]) -> field3_is D F m -> field3_is D F' m.
Proof.
  intros H K f p c Hf Hp Hc. rewrite (K f p c Hf Hp Hc). destruct (within_three _ _ _ _ c Hc) as (x & z & u & ->).
  unfold shown. rewrite (place3_wrap D OK). destruct (widths3 D OK) as (W1 & W2 & W3). apply H; [exact Hf| | |]; apply Z.mod_pos_bound; assumption.
Qed.
Lemma currents_ext3b D (OK : domain3_ok D) F F' m : (forall f a b c, (f < 4)%nat -> 0 <= a < Ex D -> 0 <= b < Ey D -> 0 <= c < Ez D -> F f [a; b; c] = F' f [a; b; c]) -> currents3_are D F m -> currents3_are D F' m.
Proof.
  intros H K f p c Hf Hp Hc. rewrite (K f p c Hf Hp Hc).
  assert (exists x z u, c = [x; z; u]) as (x & z & u & ->).
  { inversion Hc as [|? x ? l _ W2]; subst. inversion W2 as [|? z ? l2 _ W3]; subst. inversion W3 as [|? u ? l3 _ W4]; subst. inversion W4; subst. eauto. }
  unfold shown. rewrite (place3_wrap D OK). destruct (widths3 D OK) as (W1 & W2 & W3). apply H; [exact Hf| | |]; apply Z.mod_pos_bound; assumption.
Qed.

Section Fields.
Variable eps : Qc.
Variables D D' : domain3.
Hypothesis OK : domain3_ok D.
Hypothesis OK' : domain3_ok D'.
Variable y : symmetry3.
Hypothesis ID : image3_domain D D'.
Local Notation imE := (image3_E y D'). Local Notation imB := (image3_B y D').

Ltac bases a b c :=
  set (bx := base (z_fx y) (z_ax y) a); set (by_ := base (z_fy y) (z_ay y) b); set (bz := base (z_fz y) (z_az y) c);
  assert (forall d, origin_of (z_fx y) (z_ax y) (Ex D') d a = (bx + off (z_fx y) d 0) mod Ex D') as Ea by (intro; apply origin_base);
  assert (forall d, origin_of (z_fy y) (z_ay y) (Ey D') d b = (by_ + off (z_fy y) d 0) mod Ey D') as Eb by (intro; apply origin_base);
  assert (forall d, origin_of (z_fz y) (z_az y) (Ez D') d c = (bz + off (z_fz y) d 0) mod Ez D') as Ec by (intro; apply origin_base);
  assert (forall h d, origin_of (z_fx y) (z_ax y) (Ex D') h ((a + d) mod Ex D') = (bx + off (z_fx y) h d) mod Ex D') as Fa by (intros; apply origin_off; assumption);
  assert (forall h d, origin_of (z_fy y) (z_ay y) (Ey D') h ((b + d) mod Ey D') = (by_ + off (z_fy y) h d) mod Ey D') as Fb by (intros; apply origin_off; assumption);
  assert (forall h d, origin_of (z_fz y) (z_az y) (Ez D') h ((c + d) mod Ez D') = (bz + off (z_fz y) h d) mod Ez D') as Fc by (intros; apply origin_off; assumption);
  clearbody bx by_ bz.
Ltac crunch OKD OKD' :=
  cbn [add]; rewrite ?(place_zeros3 D' OKD'); unfold image3; rewrite ?sgn_c;
  unfold sign_B, sign_E, improper, rev_, flat in *; cbn [y_swap y_fx y_fy y_fz y_conj] in *.

Lemma gE_image3 FB FJ F f a b c : (f < 3)%nat -> gE3 eps D' (imB FB) (imE FJ) (imE F) f [a; b; c] = imE (gE3 eps D FB FJ F) f [a; b; c].
Proof using OK OK' ID.
  intro Hf. destruct (widths3 D OK) as (P1 & P2 & P3). destruct (widths3 D' OK') as (P1' & P2' & P3').
  unfold gE3, image3_E, image3_B. unfold image3 at 4. unfold grid_step. unfold half3. destruct ID as (J1 & J2 & J3 & -> & -> & -> & ->).
  bases a b c.
  destruct f as [|[|[|f]]]; [| | |lia]; clear Hf; unfold SE3; crunch OK OK';
  rewrite ?Ea, ?Eb, ?Ec, ?Fa, ?Fb, ?Fc; clear Ea Eb Ec Fa Fb Fc; cbn [add]; rewrite ?(place_zeros3 D OK), <- ?J1, <- ?J2, <- ?J3, ?mod_add by assumption;
  cbn [plus_ minus_ times_ over_ minus1_ csq eps0 qc_arith]; cbn [half_Ex half_Ey half_Ez half_Bx half_By half_Bz Nat.eqb orb];
  destruct (z_conj y), (z_fx y), (z_fy y), (z_fz y); cbn [xorb off Z.add Z.opp Z.sub Z.pos_sub Pos.pred_double Pos.add]; unfold Qcdiv; ring.
Qed.
Lemma gB_image3 FE F f a b c : (f < 3)%nat -> gB3 eps D' (imE FE) (imB F) f [a; b; c] = imB (gB3 eps D FE F) f [a; b; c].
Proof using OK OK' ID.
  intro Hf. destruct (widths3 D OK) as (P1 & P2 & P3). destruct (widths3 D' OK') as (P1' & P2' & P3').
  unfold gB3, image3_E, image3_B. unfold image3 at 4. unfold grid_step. unfold half3. destruct ID as (J1 & J2 & J3 & -> & -> & -> & ->).
  bases a b c.
  destruct f as [|[|[|f]]]; [| | |lia]; clear Hf; unfold SB3; crunch OK OK';
  rewrite ?Ea, ?Eb, ?Ec, ?Fa, ?Fb, ?Fc; clear Ea Eb Ec Fa Fb Fc; cbn [add]; rewrite ?(place_zeros3 D OK), <- ?J1, <- ?J2, <- ?J3, ?mod_add by assumption;
  cbn [plus_ minus_ times_ over_ minus1_ csq eps0 qc_arith]; cbn [half_Ex half_Ey half_Ez half_Bx half_By half_Bz Nat.eqb orb];
  destruct (z_conj y), (z_fx y), (z_fy y), (z_fz y); cbn [xorb off Z.add Z.opp Z.sub Z.pos_sub Pos.pred_double Pos.add]; unfold Qcdiv; ring.
Qed.
End Fields.

(** * Interpolation *)
Local Open Scope Q_scope.
Definition I3 (get : Z -> Z -> Z -> Q) (hx hy hz_ : bool) (X Y Z : Q) : Q := I1 (fun k => I2 (fun i j => get i j k) hx hy X Y) (Z - hq hz_).
Lemma I3_eq get get' hx hy hz_ X Y Z : (forall i j k, get i j k == get' i j k) -> I3 get hx hy hz_ X Y Z == I3 get' hx hy hz_ X Y Z.
Proof. intro H. unfold I3. apply I1_eq; [reflexivity|]. intro k. apply I2_eq. intros i j. apply H. Qed.
Lemma I3_scale c get hx hy hz_ X Y Z : I3 (fun i j k => c * get i j k) hx hy hz_ X Y Z == c * I3 get hx hy hz_ X Y Z.
Proof. unfold I3. rewrite <- I1_scale. apply I1_eq; [reflexivity|]. intro k. apply (I2_scale c (fun i j => get i j k)). Qed.
Lemma I3_move get rx ry rz A B C hx hy hz_ X Y Z X' Y' Z' : X' == sgn rx * X + inject_Z A -> Y' == sgn ry * Y + inject_Z B -> Z' == sgn rz * Z + inject_Z C ->
  I3 get hx hy hz_ X' Y' Z' == I3 (fun i j k => get (to_ rx A hx i) (to_ ry B hy j) (to_ rz C hz_ k)) hx hy hz_ X Y Z.
Proof.
  intros H K L. unfold I3. rewrite (I1_move _ Z Z' rz C hz_ L). apply I1_eq; [reflexivity|]. intro k.
  exact (I2_move (fun i j => get i j (to_ rz C hz_ k)) rx ry A B hx hy X Y X' Y' H K).
Qed.
Lemma comb_I1 (h : bool) (Z0 : Q) g : comb (get_gx (if h then inject_Z (Qfloor Z0) - Z0 + (1#2) else inject_Z (Qfloor (Z0 + (1#2))) - Z0)) (g ((if h then Qfloor Z0 else Qfloor (Z0 + (1#2))) - 1)%Z) (g (if h then Qfloor Z0 else Qfloor (Z0 + (1#2)))) (g ((if h then Qfloor Z0 else Qfloor (Z0 + (1#2))) + 1)%Z) == I1 g (Z0 - hq h).
Proof.
  unfold I1. cbv zeta. destruct h; cbn [hq].
  - rewrite P_Sym2.floor_half. apply comb_eq; try reflexivity. ring.
  - assert (Qfloor (Z0 - 0 + (1#2)) = Qfloor (Z0 + (1#2))) as -> by (apply Qfloor_comp; ring). apply comb_eq; try reflexivity. ring.
Qed.
Lemma gfield_I2 get (hx hy : bool) X Y : gfield get (get_gx (if hx then inject_Z (Qfloor X) - X + (1#2) else inject_Z (Qfloor (X + (1#2))) - X)) (get_gx (if hy then inject_Z (Qfloor Y) - Y + (1#2) else inject_Z (Qfloor (Y + (1#2))) - Y))
     (if hx then Qfloor X else Qfloor (X + (1#2))) (if hy then Qfloor Y else Qfloor (Y + (1#2))) == I2 get hx hy X Y.
Proof.
  unfold gfield, I2. cbv zeta. rewrite (comb_I1 hy Y (fun j => comb _ (get _ j) (get _ j) (get _ j))). apply I1_eq; [reflexivity|]. intro j. apply (comb_I1 hx X (fun i => get i j)).
Qed.
Lemma gfield_I3 get (hx hy hz_ : bool) X Y Z : gfield3 get (get_gx (if hx then inject_Z (Qfloor X) - X + (1#2) else inject_Z (Qfloor (X + (1#2))) - X)) (get_gx (if hy then inject_Z (Qfloor Y) - Y + (1#2) else inject_Z (Qfloor (Y + (1#2))) - Y))
     (get_gx (if hz_ then inject_Z (Qfloor Z) - Z + (1#2) else inject_Z (Qfloor (Z + (1#2))) - Z))
     (if hx then Qfloor X else Qfloor (X + (1#2))) (if hy then Qfloor Y else Qfloor (Y + (1#2))) (if hz_ then Qfloor Z else Qfloor (Z + (1#2))) == I3 get hx hy hz_ X Y Z.
Proof.
  unfold gfield3, I3. rewrite (comb_I1 hz_ Z (fun k => gfield (fun a b => get a b k) _ _ _ _)). apply I1_eq; [reflexivity|]. intro k. apply (gfield_I2 (fun i j => get i j k)).
Qed.
Lemma gat_I3 E B X Y Z : same6 (gat3 E B X Y Z)
  (mkSix (I3 (E 0%nat) true false false X Y Z) (I3 (E 1%nat) false true false X Y Z) (I3 (E 2%nat) false false true X Y Z)
         (I3 (B 0%nat) false true true X Y Z) (I3 (B 1%nat) true false true X Y Z) (I3 (B 2%nat) true true false X Y Z)).
Proof.
  unfold gat3. cbv zeta. unfold same6. cbn [s_ex s_ey s_ez s_bx s_by s_bz]. repeat split.
  - apply (gfield_I3 (E 0%nat) true false false).
  - apply (gfield_I3 (E 1%nat) false true false).
  - apply (gfield_I3 (E 2%nat) false false true).
  - apply (gfield_I3 (B 0%nat) false true true).
  - apply (gfield_I3 (B 1%nat) true false true).
  - apply (gfield_I3 (B 2%nat) true true false).
Qed.
Section Image.
Variables D D' : domain3.
Hypothesis OK : domain3_ok D.
Hypothesis OK' : domain3_ok D'.
Variable y : symmetry3.
Hypothesis ID : image3_domain D D'.
Lemma gget_image3 sign hx hy hz_ F f k l m i j n :
  gget3 (Vx D') (Vy D') (Vz D') (image3 y D' sign hx hy hz_ F) f (to_ (z_fx y) (z_ax y + k * Ex D') (hx f) i) (to_ (z_fy y) (z_ay y + l * Ey D') (hy f) j) (to_ (z_fz y) (z_az y + m * Ez D') (hz_ f) n)
  == sgn (sign f) * gget3 (Vx D) (Vy D) (Vz D) F f i j n.
Proof using OK OK' ID.
  destruct (widths3 D' OK') as (P1 & P2 & P3). unfold gget3, image3. fold (Ex D) (Ey D) (Ez D) (Ex D') (Ey D') (Ez D'). rewrite !origin_to by assumption. rewrite this_times.
  destruct ID as (-> & -> & -> & _). reflexivity.
Qed.
Lemma I3_image sign hx hy hz_ F f k l m X Y Z X' Y' Z' :
  X' == sgn (z_fx y) * X + inject_Z (z_ax y + k * Ex D') -> Y' == sgn (z_fy y) * Y + inject_Z (z_ay y + l * Ey D') -> Z' == sgn (z_fz y) * Z + inject_Z (z_az y + m * Ez D') ->
  I3 (gget3 (Vx D') (Vy D') (Vz D') (image3 y D' sign hx hy hz_ F) f) (hx f) (hy f) (hz_ f) X' Y' Z' ==
  sgn (sign f) * I3 (gget3 (Vx D) (Vy D) (Vz D) F f) (hx f) (hy f) (hz_ f) X Y Z.
Proof using OK OK' ID.
  intros H K L. rewrite (I3_move _ _ _ _ _ _ _ _ _ _ _ _ _ _ _ _ H K L). rewrite (I3_eq _ _ _ _ _ _ _ _ (gget_image3 sign hx hy hz_ F f k l m)). apply I3_scale.
Qed.
Lemma gat_image3 FE FB k l m X Y Z X' Y' Z' :
  X' == sgn (z_fx y) * X + inject_Z (z_ax y + k * Ex D') -> Y' == sgn (z_fy y) * Y + inject_Z (z_ay y + l * Ey D') -> Z' == sgn (z_fz y) * Z + inject_Z (z_az y + m * Ez D') ->
  same6 (gat3 (gget3 (Vx D') (Vy D') (Vz D') (image3_E y D' FE)) (gget3 (Vx D') (Vy D') (Vz D') (image3_B y D' FB)) X' Y' Z')
        (image6 (flat y) (gat3 (gget3 (Vx D) (Vy D) (Vz D) FE) (gget3 (Vx D) (Vy D) (Vz D) FB) X Y Z)).
Proof using OK OK' ID.
  intros H K L. destruct (gat_I3 (gget3 (Vx D') (Vy D') (Vz D') (image3_E y D' FE)) (gget3 (Vx D') (Vy D') (Vz D') (image3_B y D' FB)) X' Y' Z') as (A1 & A2 & A3 & A4 & A5 & A6).
  destruct (gat_I3 (gget3 (Vx D) (Vy D) (Vz D) FE) (gget3 (Vx D) (Vy D) (Vz D) FB) X Y Z) as (B1 & B2 & B3 & B4 & B5 & B6). cbn [s_ex s_ey s_ez s_bx s_by s_bz] in *.
  unfold same6, image6. cbv zeta. cbn [s_ex s_ey s_ez s_bx s_by s_bz flat y_swap]. fold (flat y). rewrite A1, A2, A3, A4, A5, A6, B1, B2, B3, B4, B5, B6.
  split; [exact (I3_image (sign_E (flat y)) half_Ex half_Ey half_Ez FE 0 k l m X Y Z X' Y' Z' H K L)|].
  split; [exact (I3_image (sign_E (flat y)) half_Ex half_Ey half_Ez FE 1 k l m X Y Z X' Y' Z' H K L)|].
  split; [exact (I3_image (sign_E (flat y)) half_Ex half_Ey half_Ez FE 2 k l m X Y Z X' Y' Z' H K L)|].
  split; [exact (I3_image (sign_B (flat y)) half_Bx half_By half_Bz FB 0 k l m X Y Z X' Y' Z' H K L)|].
  split; [exact (I3_image (sign_B (flat y)) half_Bx half_By half_Bz FB 1 k l m X Y Z X' Y' Z' H K L)|].
  exact (I3_image (sign_B (flat y)) half_Bx half_By half_Bz FB 2 k l m X Y Z X' Y' Z' H K L).
Qed.
End Image.
