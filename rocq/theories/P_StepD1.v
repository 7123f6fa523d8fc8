(** Whole time steps in 3D, part 1: the push of one particle does not depend on the patch it is in. *)
From Coq Require Import QArith Qabs Qround Qcanon Permutation Lqa.
From Verif Require Import Base M_Layout M_PartSync S_PartSync M_FieldSync S_FieldSync S_Maxwell M_Deposit S_Deposit M_Push S_Push P_Deposit P_Interp P_Push M_Step S_Step P_Step1 M_Step3D S_Step3D.
Local Open Scope list_scope.
Local Open Scope Q_scope.

Section Push.
Variable rsqrt : Q -> Q.
Hypothesis rsqrt_eq : forall x y, x == y -> rsqrt x == rsqrt y.
Lemma move3_eq c p p' : part_eq p p' -> part_eq (push_position_3d c p) (push_position_3d c p').
Proof using rsqrt_eq.
  intros (H1 & H2 & H3 & H4 & H5 & H6 & H7 & H8 & H9 & H10). unfold part_eq, push_position_3d. cbn [p_x p_y p_z p_ux p_uy p_uz p_ig p_w p_dead p_nan].
  split; [qcong rsqrt_eq|]. split; [qcong rsqrt_eq|]. split; [qcong rsqrt_eq|]. repeat (split; [assumption|]). assumption.
Qed.
Lemma one3_eq i j q m dt s s' : pslot_eq s s' ->
  (skipped s = false -> let c := LIGHT_SPEED * (1#2) * dt in interp_eq i j (push_position_3d c (l_p s)) (push_position_3d c (l_p s'))) ->
  exists t t', one rsqrt push_position_3d i q m dt s = Some t /\ one rsqrt push_position_3d j q m dt s' = Some t' /\ pslot_eq t t'.
Proof using rsqrt_eq.
  intros E I. unfold one. pose proof E as E0. destruct E as [(H1 & H2 & H3 & H4 & H5 & H6 & H7 & H8 & H9 & H10) F].
  assert (skipped s' = skipped s) as -> by (unfold skipped; rewrite H9, H10; reflexivity).
  destruct (skipped s); [exists s, s'; split; [reflexivity|]; split; [reflexivity|exact E0]|]. cbv zeta in *. specialize (I eq_refl). unfold interp_eq in I.
  destruct (i _) as [a|]; [|contradiction]. destruct (j _) as [b|]; [|contradiction]. cbn [obind].
  eexists. eexists. split; [reflexivity|]. split; [reflexivity|].
  match goal with |- context [push_momentum rsqrt q m dt ?x] => match goal with |- pslot_eq _ (M_Push.mkSlot (push_position_3d _ (l_p (push_momentum rsqrt q m dt ?y))) _) =>
    assert (pslot_eq (push_momentum rsqrt q m dt x) (push_momentum rsqrt q m dt y)) as [M1 M2] end end.
  { apply momentum_eq; [exact rsqrt_eq|]. split; cbn [l_p l_f]; [apply move3_eq; exact (proj1 E0)|exact I]. }
  split; cbn [l_p l_f]; [apply move3_eq; exact M1|exact M2].
Qed.
End Push.

(** * Interpolation from values of the whole grid *)
Definition gfield3 (get : Z -> Z -> Z -> Q) (fx fy fz : Q * Q * Q) (ix iy iz : Z) : Q :=
  comb fz (gfield (fun a b => get a b (iz - 1)%Z) fx fy ix iy) (gfield (fun a b => get a b iz) fx fy ix iy) (gfield (fun a b => get a b (iz + 1)%Z) fx fy ix iy).
Definition gat3 (E B : nat -> Z -> Z -> Z -> Q) (X Y Z : Q) : six Q :=
  let ix1 := Qfloor (X + (1#2)) in let gx := get_gx (inject_Z ix1 - X) in
  let ix2 := Qfloor X in let hx := get_gx (inject_Z ix2 - X + (1#2)) in
  let iy1 := Qfloor (Y + (1#2)) in let gy := get_gx (inject_Z iy1 - Y) in
  let iy2 := Qfloor Y in let hy := get_gx (inject_Z iy2 - Y + (1#2)) in
  let iz1 := Qfloor (Z + (1#2)) in let gz := get_gx (inject_Z iz1 - Z) in
  let iz2 := Qfloor Z in let hz := get_gx (inject_Z iz2 - Z + (1#2)) in
  mkSix (gfield3 (E 0%nat) hx gy gz ix2 iy1 iz1) (gfield3 (E 1%nat) gx hy gz ix1 iy2 iz1) (gfield3 (E 2%nat) gx gy hz ix1 iy1 iz2)
        (gfield3 (B 0%nat) gx hy hz ix1 iy2 iz2) (gfield3 (B 1%nat) hx gy hz ix2 iy1 iz2) (gfield3 (B 2%nat) hx hy gz ix2 iy2 iz1).
Lemma gfield3_eq get get' d d' e e' f f' ix ix' iy iy' iz iz' : d == d' -> e == e' -> f == f' ->
  (forall a b c, (-1 <= a <= 1)%Z -> (-1 <= b <= 1)%Z -> (-1 <= c <= 1)%Z -> get (ix + a)%Z (iy + b)%Z (iz + c)%Z == get' (ix' + a)%Z (iy' + b)%Z (iz' + c)%Z) ->
  gfield3 get (get_gx d) (get_gx e) (get_gx f) ix iy iz == gfield3 get' (get_gx d') (get_gx e') (get_gx f') ix' iy' iz'.
Proof.
  intros H1 H2 H3 G. unfold gfield3.
  apply comb_eq; [exact H3| | |]; apply gfield_eq; auto; intros a b Ha Hb.
  - apply (G a b (-1)%Z); lia.
  - pose proof (G a b 0%Z Ha Hb ltac:(lia)) as K. rewrite !Z.add_0_r in K. exact K.
  - apply (G a b 1%Z); lia.
Qed.
Lemma floor_half X : (Qfloor X <= Qfloor (X + (1#2)) <= Qfloor X + 1)%Z.
Proof. split; [apply Qfloor_resp_le; lra|]. pose proof (Qfloor_resp_le (X + (1#2)) (X + inject_Z 1) ltac:(unfold inject_Z; lra)) as R. rewrite floor_shift in R. exact R. Qed.
Lemma gat3_shift E B E' B' X Y Z X' Y' Z' ox oy oz : X' == X + inject_Z ox -> Y' == Y + inject_Z oy -> Z' == Z + inject_Z oz ->
  (forall f a b c, (f < 3)%nat -> (Qfloor X - 1 <= a <= Qfloor X + 2)%Z -> (Qfloor Y - 1 <= b <= Qfloor Y + 2)%Z -> (Qfloor Z - 1 <= c <= Qfloor Z + 2)%Z ->
     E f a b c == E' f (a + ox)%Z (b + oy)%Z (c + oz)%Z /\ B f a b c == B' f (a + ox)%Z (b + oy)%Z (c + oz)%Z) ->
  same6 (gat3 E B X Y Z) (gat3 E' B' X' Y' Z').
Proof.
  intros HX HY HZ G. unfold gat3. cbv zeta.
  assert (forall U V o, V == U + inject_Z o -> Qfloor V = Qfloor U + o /\ Qfloor (V + (1#2)) = Qfloor (U + (1#2)) + o)%Z as FS.
  { intros U V o H. split; [rewrite (Qfloor_comp _ _ H); apply floor_shift|]. rewrite <- floor_shift. apply Qfloor_comp. rewrite H. ring. }
  destruct (FS _ _ _ HX) as [FX GX]. destruct (FS _ _ _ HY) as [FY GY]. destruct (FS _ _ _ HZ) as [FZ GZ]. clear FS.
  pose proof (floor_half X) as RX. pose proof (floor_half Y) as RY. pose proof (floor_half Z) as RZ.
  rewrite FX, FY, FZ, GX, GY, GZ. clear FX FY FZ GX GY GZ.
  set (ix1 := Qfloor (X + (1#2))) in *. set (ix2 := Qfloor X) in *. set (iy1 := Qfloor (Y + (1#2))) in *. set (iy2 := Qfloor Y) in *. set (iz1 := Qfloor (Z + (1#2))) in *. set (iz2 := Qfloor Z) in *.
  clearbody ix1 ix2 iy1 iy2 iz1 iz2.
  assert (inject_Z ix1 - X == inject_Z (ix1 + ox) - X') as D1 by (rewrite inject_Z_plus, HX; ring).
  assert (inject_Z ix2 - X + (1#2) == inject_Z (ix2 + ox) - X' + (1#2)) as D2 by (rewrite inject_Z_plus, HX; ring).
  assert (inject_Z iy1 - Y == inject_Z (iy1 + oy) - Y') as D3 by (rewrite inject_Z_plus, HY; ring).
  assert (inject_Z iy2 - Y + (1#2) == inject_Z (iy2 + oy) - Y' + (1#2)) as D4 by (rewrite inject_Z_plus, HY; ring).
  assert (inject_Z iz1 - Z == inject_Z (iz1 + oz) - Z') as D5 by (rewrite inject_Z_plus, HZ; ring).
  assert (inject_Z iz2 - Z + (1#2) == inject_Z (iz2 + oz) - Z' + (1#2)) as D6 by (rewrite inject_Z_plus, HZ; ring).
  clear HX HY HZ.
  assert (forall f ix iy iz a b c, (f < 3)%nat -> (ix2 <= ix <= ix2 + 1)%Z -> (iy2 <= iy <= iy2 + 1)%Z -> (iz2 <= iz <= iz2 + 1)%Z -> (-1 <= a <= 1)%Z -> (-1 <= b <= 1)%Z -> (-1 <= c <= 1)%Z ->
    E f (ix + a)%Z (iy + b)%Z (iz + c)%Z == E' f (ix + ox + a)%Z (iy + oy + b)%Z (iz + oz + c)%Z /\ B f (ix + a)%Z (iy + b)%Z (iz + c)%Z == B' f (ix + ox + a)%Z (iy + oy + b)%Z (iz + oz + c)%Z) as K.
  { intros f ix iy iz a b c Hf H1 H2 H3 H4 H5 H6. replace (ix + ox + a)%Z with (ix + a + ox)%Z by ring. replace (iy + oy + b)%Z with (iy + b + oy)%Z by ring. replace (iz + oz + c)%Z with (iz + c + oz)%Z by ring.
    apply G; [exact Hf|lia|lia|lia]. }
  unfold same6. cbn [s_ex s_ey s_ez s_bx s_by s_bz].
  repeat split; apply gfield3_eq; auto; intros a b c Ha Hb Hc; apply K; lia || auto.
Qed.
Lemma gat3_eq E B X Y Z X' Y' Z' : X == X' -> Y == Y' -> Z == Z' -> same6 (gat3 E B X Y Z) (gat3 E B X' Y' Z').
Proof.
  intros HX HY HZ. apply (gat3_shift E B E B X Y Z X' Y' Z' 0 0 0); [rewrite HX; unfold inject_Z; ring|rewrite HY; unfold inject_Z; ring|rewrite HZ; unfold inject_Z; ring|].
  intros f a b c _ _ _ _. rewrite !Z.add_0_r. split; reflexivity.
Qed.

(** * The same read from the arrays of a patch *)
Lemma interp_field3_total nx ny nz field (get : Z -> Z -> Z -> Q) fx fy fz ix iy iz :
  (forall a b c, (-1 <= a <= 1)%Z -> (-1 <= b <= 1)%Z -> (-1 <= c <= 1)%Z -> rd field (INDEX3 nx ny nz (ix + a) (iy + b) (iz + c)) = Some (get (ix + a)%Z (iy + b)%Z (iz + c)%Z)) ->
  interp_field_3d nx ny nz field fx fy fz ix iy iz = Some (gfield3 get fx fy fz ix iy iz).
Proof.
  intro R. unfold interp_field_3d, gfield3, gfield. cbv zeta.
  assert (forall a b c, (a = ix - 1 \/ a = ix \/ a = ix + 1)%Z -> (b = iy - 1 \/ b = iy \/ b = iy + 1)%Z -> (c = iz - 1 \/ c = iz \/ c = iz + 1)%Z -> rd field (INDEX3 nx ny nz a b c) = Some (get a b c)) as R'.
  { intros a b c Ha Hb Hc. specialize (R (a - ix)%Z (b - iy)%Z (c - iz)%Z ltac:(lia) ltac:(lia) ltac:(lia)).
    replace (ix + (a - ix))%Z with a in R by ring. replace (iy + (b - iy))%Z with b in R by ring. replace (iz + (c - iz))%Z with c in R by ring. exact R. }
  clear R. rewrite !R' by tauto. rewrite !comb3_some. reflexivity.
Qed.
Lemma interp3_total nx ny nz F E B X Y Z :
  (forall a b c, (Qfloor X - 1 <= a <= Qfloor X + 2)%Z -> (Qfloor Y - 1 <= b <= Qfloor Y + 2)%Z -> (Qfloor Z - 1 <= c <= Qfloor Z + 2)%Z ->
     rd (s_ex F) (INDEX3 nx ny nz a b c) = Some (E 0%nat a b c) /\ rd (s_ey F) (INDEX3 nx ny nz a b c) = Some (E 1%nat a b c) /\ rd (s_ez F) (INDEX3 nx ny nz a b c) = Some (E 2%nat a b c) /\
     rd (s_bx F) (INDEX3 nx ny nz a b c) = Some (B 0%nat a b c) /\ rd (s_by F) (INDEX3 nx ny nz a b c) = Some (B 1%nat a b c) /\ rd (s_bz F) (INDEX3 nx ny nz a b c) = Some (B 2%nat a b c)) ->
  interp_at_3d nx ny nz F X Y Z = Some (gat3 E B X Y Z).
Proof.
  intro R. unfold interp_at_3d, gat3. cbv zeta.
  pose proof (floor_half X) as RX. pose proof (floor_half Y) as RY. pose proof (floor_half Z) as RZ.
  set (ix1 := Qfloor (X + (1#2))) in *. set (ix2 := Qfloor X) in *. set (iy1 := Qfloor (Y + (1#2))) in *. set (iy2 := Qfloor Y) in *. set (iz1 := Qfloor (Z + (1#2))) in *. set (iz2 := Qfloor Z) in *.
  clearbody ix1 ix2 iy1 iy2 iz1 iz2.
  rewrite (interp_field3_total nx ny nz (s_ex F) (E 0%nat)) by (intros a b c Ha Hb Hc; apply R; lia).
  rewrite (interp_field3_total nx ny nz (s_ey F) (E 1%nat)) by (intros a b c Ha Hb Hc; apply R; lia).
  rewrite (interp_field3_total nx ny nz (s_ez F) (E 2%nat)) by (intros a b c Ha Hb Hc; apply R; lia).
  rewrite (interp_field3_total nx ny nz (s_bx F) (B 0%nat)) by (intros a b c Ha Hb Hc; apply R; lia).
  rewrite (interp_field3_total nx ny nz (s_by F) (B 1%nat)) by (intros a b c Ha Hb Hc; apply R; lia).
  rewrite (interp_field3_total nx ny nz (s_bz F) (B 2%nat)) by (intros a b c Ha Hb Hc; apply R; lia).
  reflexivity.
Qed.
