(** Symmetries, part 2: interpolation and push. *)
From Coq Require Import QArith Qabs Qround Qcanon Permutation Lqa.
From Verif Require Import Base M_Layout S_Layout M_PartSync S_PartSync M_FieldSync S_FieldSync M_Maxwell S_Maxwell M_Deposit S_Deposit M_Push S_Push P_Deposit P_Interp P_Push M_Step S_Step P_Step1 P_Step2 P_Step4 P_Step6 S_Sym P_Sym1.
Local Open Scope list_scope.
Local Open Scope Q_scope.

(** * Interpolation along one axis *)
Definition I1 (get : Z -> Q) (X : Q) : Q :=
  let ix := Qfloor (X + (1#2)) in comb (get_gx (inject_Z ix - X)) (get (ix - 1)%Z) (get ix) (get (ix + 1)%Z).
Lemma I1_eq get get' X X' : X == X' -> (forall i, get i == get' i) -> I1 get X == I1 get' X'.
Proof.
  intros H K. unfold I1. cbv zeta. assert (X + (1#2) == X' + (1#2)) as H1 by (rewrite H; reflexivity). rewrite (Qfloor_comp _ _ H1). apply comb_eq; auto. rewrite H. reflexivity.
Qed.
Lemma I1_shift get X A : I1 get (X + inject_Z A) == I1 (fun i => get (i + A)%Z) X.
Proof.
  unfold I1. cbv zeta. assert (Qfloor (X + inject_Z A + (1#2)) = Qfloor (X + (1#2)) + A)%Z as E by (rewrite <- floor_shift; apply Qfloor_comp; ring).
  rewrite E. set (ix := Qfloor _). clearbody ix. replace (ix + A - 1)%Z with (ix - 1 + A)%Z by ring. replace (ix + A + 1)%Z with (ix + 1 + A)%Z by ring.
  apply comb_eq; try reflexivity. rewrite inject_Z_plus. ring.
Qed.
Lemma I1_flip get X : I1 get (- X) == I1 (fun i => get (- i)%Z) X.
Proof.
  unfold I1. cbv zeta. destruct (floor_bounds (X + (1#2))) as [L U]. set (ix := Qfloor (X + (1#2))) in *. clearbody ix.
  destruct (Qlt_le_dec (inject_Z ix) (X + (1#2))) as [G|G].
  - assert (Qfloor (- X + (1#2)) = (- ix)%Z) as -> by (apply floor_unique; rewrite inject_Z_opp; lra).
    replace (- ix - 1)%Z with (- (ix + 1))%Z by ring. replace (- ix + 1)%Z with (- (ix - 1))%Z by ring. rewrite inject_Z_opp. unfold comb, get_gx. ring.
  - assert (inject_Z ix == X + (1#2)) as E by lra.
    assert (Qfloor (- X + (1#2)) = (- ix + 1)%Z) as -> by (apply floor_unique; rewrite inject_Z_plus, inject_Z_opp; change (inject_Z 1) with 1; lra).
    replace (- ix + 1 - 1)%Z with (- ix)%Z by ring. rewrite inject_Z_plus, inject_Z_opp. change (inject_Z 1) with 1.
    assert (inject_Z ix - X == (1#2)) as E1 by lra. assert (- inject_Z ix + 1 - - X == (1#2)) as E2 by lra.
    rewrite (comb_eq _ _ _ _ _ _ _ _ E1 (Qeq_refl _) (Qeq_refl _) (Qeq_refl _)), (comb_eq _ _ _ _ _ _ _ _ E2 (Qeq_refl _) (Qeq_refl _) (Qeq_refl _)).
    replace (- ix + 1)%Z with (- (ix - 1))%Z by ring. unfold comb, get_gx. ring.
Qed.
Definition hq (h : bool) : Q := if h then (1#2) else 0.
Definition hz (h : bool) : Z := if h then 1%Z else 0%Z.
Definition to_ (rev : bool) (A : Z) (h : bool) (i : Z) : Z := if rev then (A - i - hz h)%Z else (i + A)%Z.
Lemma I1_move get X X' rev A h : X' == sgn rev * X + inject_Z A -> I1 get (X' - hq h) == I1 (fun i => get (to_ rev A h i)) (X - hq h).
Proof.
  intro H. destruct rev; cbn [sgn] in H.
  - assert (X' - hq h == - (X - hq h) + inject_Z (A - hz h)) as E.
    { rewrite H. unfold Z.sub. rewrite inject_Z_plus. destruct h; unfold hq, hz, inject_Z; cbn [Z.opp]; ring. }
    rewrite (I1_eq get get _ _ E) by reflexivity. rewrite I1_shift, I1_flip. apply I1_eq; [reflexivity|]. intro i. unfold to_. replace (- i + (A - hz h))%Z with (A - i - hz h)%Z by ring. reflexivity.
  - assert (X' - hq h == X - hq h + inject_Z A) as E by (rewrite H; ring).
    rewrite (I1_eq get get _ _ E) by reflexivity. rewrite I1_shift. reflexivity.
Qed.
Lemma I1_scale c get X : I1 (fun i => c * get i) X == c * I1 get X.
Proof. unfold I1, comb. cbv zeta. destruct (get_gx _) as [[f0 f1] f2]. ring. Qed.

(** * Along two axes *)
Definition I2 (get : Z -> Z -> Q) (hx hy : bool) (X Y : Q) : Q := I1 (fun j => I1 (fun i => get i j) (X - hq hx)) (Y - hq hy).
Lemma I2_swap get hx hy X Y : I2 (fun i j => get j i) hx hy X Y == I2 get hy hx Y X.
Proof.
  unfold I2, I1. cbv zeta. destruct (get_gx (inject_Z (Qfloor (X - hq hx + (1#2))) - (X - hq hx))) as [[a0 a1] a2]. destruct (get_gx (inject_Z (Qfloor (Y - hq hy + (1#2))) - (Y - hq hy))) as [[b0 b1] b2]. unfold comb.
  generalize (Qfloor (X - hq hx + (1#2))) as i, (Qfloor (Y - hq hy + (1#2))) as j. intros.
  generalize (get (j - 1)%Z (i - 1)%Z), (get (j - 1)%Z i), (get (j - 1)%Z (i + 1)%Z), (get j (i - 1)%Z), (get j i), (get j (i + 1)%Z), (get (j + 1)%Z (i - 1)%Z), (get (j + 1)%Z i), (get (j + 1)%Z (i + 1)%Z). intros. ring.
Qed.
Lemma I2_eq get get' hx hy X Y : (forall i j, get i j == get' i j) -> I2 get hx hy X Y == I2 get' hx hy X Y.
Proof. intro H. unfold I2. apply I1_eq; [reflexivity|]. intro j. apply I1_eq; [reflexivity|]. intro i. apply H. Qed.
Lemma I2_scale c get hx hy X Y : I2 (fun i j => c * get i j) hx hy X Y == c * I2 get hx hy X Y.
Proof. unfold I2. rewrite <- I1_scale. apply I1_eq; [reflexivity|]. intro j. apply I1_scale. Qed.
Lemma I2_move get rx ry A B hx hy X Y X' Y' : X' == sgn rx * X + inject_Z A -> Y' == sgn ry * Y + inject_Z B ->
  I2 get hx hy X' Y' == I2 (fun i j => get (to_ rx A hx i) (to_ ry B hy j)) hx hy X Y.
Proof. intros H K. unfold I2. rewrite (I1_move _ Y Y' ry B hy K). apply I1_eq; [reflexivity|]. intro j. exact (I1_move (fun i => get i (to_ ry B hy j)) X X' rx A hx H). Qed.
Lemma floor_half X : Qfloor (X - (1#2) + (1#2)) = Qfloor X.
Proof. apply Qfloor_comp. ring. Qed.
Lemma gat_I2 E B X Y : same6 (gat E B X Y)
  (mkSix (I2 (E 0%nat) true false X Y) (I2 (E 1%nat) false true X Y) (I2 (E 2%nat) false false X Y) (I2 (B 0%nat) false true X Y) (I2 (B 1%nat) true false X Y) (I2 (B 2%nat) true true X Y)).
Proof.
  unfold gat. cbv zeta.
  assert (forall get (hx hy : bool), gfield get (get_gx (if hx then inject_Z (Qfloor X) - X + (1#2) else inject_Z (Qfloor (X + (1#2))) - X)) (get_gx (if hy then inject_Z (Qfloor Y) - Y + (1#2) else inject_Z (Qfloor (Y + (1#2))) - Y))
     (if hx then Qfloor X else Qfloor (X + (1#2))) (if hy then Qfloor Y else Qfloor (Y + (1#2))) == I2 get hx hy X Y) as K.
  { intros get hx hy. assert (forall h (Z0 : Q) g, comb (get_gx (if h : bool then inject_Z (Qfloor Z0) - Z0 + (1#2) else inject_Z (Qfloor (Z0 + (1#2))) - Z0)) (g ((if h then Qfloor Z0 else Qfloor (Z0 + (1#2))) - 1)%Z) (g (if h then Qfloor Z0 else Qfloor (Z0 + (1#2)))) (g ((if h then Qfloor Z0 else Qfloor (Z0 + (1#2))) + 1)%Z) == I1 g (Z0 - hq h)) as L.
    { intros h Z0 g. unfold I1. cbv zeta. destruct h; cbn [hq].
      - rewrite floor_half. apply comb_eq; try reflexivity. ring.
      - assert (Qfloor (Z0 - 0 + (1#2)) = Qfloor (Z0 + (1#2))) as -> by (apply Qfloor_comp; ring). apply comb_eq; try reflexivity. ring. }
    unfold gfield, I2. cbv zeta. rewrite (L hy Y (fun j => comb _ (get _ j) (get _ j) (get _ j))). apply I1_eq; [reflexivity|]. intro j. apply (L hx X (fun i => get i j)). }
  unfold same6. cbn [s_ex s_ey s_ez s_bx s_by s_bz]. repeat split.
  - apply (K (E 0%nat) true false).
  - apply (K (E 1%nat) false true).
  - apply (K (E 2%nat) false false).
  - apply (K (B 0%nat) false true).
  - apply (K (B 1%nat) true false).
  - apply (K (B 2%nat) true true).
Qed.

(** * From the image of a field *)
Lemma this_times a b : this (Q2Qc a * b)%Qc == a * this b.
Proof. unfold Qcmult. cbn [Q2Qc this]. rewrite !Qred_correct. reflexivity. Qed.
Lemma origin_to rev A N h k i : (0 < N)%Z -> origin_of rev A N h (to_ rev (A + k * N) h i mod N) = (i mod N)%Z.
Proof.
  intro HN. rewrite <- (Z.add_0_r (to_ _ _ _ _)). rewrite origin_off by exact HN. unfold base, off, to_, hz. destruct rev.
  - replace (A - (A + k * N - i - (if h then 1 else 0)) + (- 0 - (if h then 1 else 0)))%Z with (i + (- k) * N)%Z by (destruct h; ring). apply Z_mod_plus_full.
  - replace (i + (A + k * N) - A + 0)%Z with (i + k * N)%Z by ring. apply Z_mod_plus_full.
Qed.
Section Image.
Variables D D' : domain2.
Hypothesis OK : domain_ok D.
Hypothesis OK' : domain_ok D'.
Variable y : symmetry.
Hypothesis ID : image_domain y D D'.
Lemma gget_image sign hx hy F f k l i j :
  gget (Wx D') (Wy D') (image y D' sign hx hy F) f (to_ (y_fx y) (y_ax y + k * Cx D') (hx f) i) (to_ (y_fy y) (y_ay y + l * Cy D') (hy f) j)
  == sgn (sign f) * (if y_swap y then gget (Wx D) (Wy D) F (comp y f) j i else gget (Wx D) (Wy D) F (comp y f) i j).
Proof using OK OK' ID.
  destruct (widths D' OK') as [P1 P2]. unfold gget, image. fold (Cx D) (Cy D) (Cx D') (Cy D'). cbv zeta. rewrite !origin_to by assumption. rewrite this_times.
  unfold image_domain in ID. destruct (y_swap y), ID as [(-> & -> & _) _]; reflexivity.
Qed.
Lemma I2_image sign hx hy F f k l X Y X' Y' :
  X' == sgn (y_fx y) * (if y_swap y then Y else X) + inject_Z (y_ax y + k * Cx D') -> Y' == sgn (y_fy y) * (if y_swap y then X else Y) + inject_Z (y_ay y + l * Cy D') ->
  I2 (gget (Wx D') (Wy D') (image y D' sign hx hy F) f) (hx f) (hy f) X' Y' ==
  sgn (sign f) * (if y_swap y then I2 (gget (Wx D) (Wy D) F (comp y f)) (hy f) (hx f) X Y else I2 (gget (Wx D) (Wy D) F (comp y f)) (hx f) (hy f) X Y).
Proof using OK OK' ID.
  intros H K. rewrite (I2_move _ _ _ _ _ _ _ _ _ _ _ H K). rewrite (I2_eq _ _ _ _ _ _ (gget_image sign hx hy F f k l)). rewrite I2_scale. apply Qmult_comp; [reflexivity|].
  destruct (y_swap y); [apply I2_swap|reflexivity].
Qed.
Lemma gat_image FE FB k l X Y X' Y' :
  X' == sgn (y_fx y) * (if y_swap y then Y else X) + inject_Z (y_ax y + k * Cx D') -> Y' == sgn (y_fy y) * (if y_swap y then X else Y) + inject_Z (y_ay y + l * Cy D') ->
  same6 (gat (gget (Wx D') (Wy D') (image_E y D' FE)) (gget (Wx D') (Wy D') (image_B y D' FB)) X' Y') (image6 y (gat (gget (Wx D) (Wy D) FE) (gget (Wx D) (Wy D) FB) X Y)).
Proof using OK OK' ID.
  intros H K. destruct (gat_I2 (gget (Wx D') (Wy D') (image_E y D' FE)) (gget (Wx D') (Wy D') (image_B y D' FB)) X' Y') as (A1 & A2 & A3 & A4 & A5 & A6).
  destruct (gat_I2 (gget (Wx D) (Wy D) FE) (gget (Wx D) (Wy D) FB) X Y) as (B1 & B2 & B3 & B4 & B5 & B6). cbn [s_ex s_ey s_ez s_bx s_by s_bz] in *.
  unfold same6, image6. cbv zeta. cbn [s_ex s_ey s_ez s_bx s_by s_bz]. rewrite A1, A2, A3, A4, A5, A6.
  pose proof (I2_image (sign_E y) half_Ex half_Ey FE 0 k l X Y X' Y' H K) as C1. pose proof (I2_image (sign_E y) half_Ex half_Ey FE 1 k l X Y X' Y' H K) as C2. pose proof (I2_image (sign_E y) half_Ex half_Ey FE 2 k l X Y X' Y' H K) as C3.
  pose proof (I2_image (sign_B y) half_Bx half_By FB 0 k l X Y X' Y' H K) as C4. pose proof (I2_image (sign_B y) half_Bx half_By FB 1 k l X Y X' Y' H K) as C5. pose proof (I2_image (sign_B y) half_Bx half_By FB 2 k l X Y X' Y' H K) as C6.
  fold (image_E y D') in C1, C2, C3. fold (image_B y D') in C4, C5, C6. cbn [half_Ex half_Ey half_Bx half_By Nat.eqb orb] in *. unfold comp in *.
  rewrite C1, C2, C3, C4, C5, C6. clear A1 A2 A3 A4 A5 A6 C1 C2 C3 C4 C5 C6. destruct (y_swap y); repeat split; apply Qmult_comp; try reflexivity; symmetry; assumption.
Qed.
End Image.
