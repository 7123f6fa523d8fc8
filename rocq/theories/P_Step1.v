(** Whole time steps, part 1: the push of one particle does not depend on the patch it is in. *)
From Coq Require Import QArith Qabs Qround Qcanon Permutation Lqa.
From Verif Require Import Base M_Layout M_PartSync S_PartSync M_FieldSync S_FieldSync S_Maxwell M_Deposit S_Deposit M_Push S_Push P_Deposit P_Interp P_Push M_Step S_Step.
Local Open Scope list_scope.
Local Open Scope Q_scope.

(** * Equal numbers *)
Lemma qred_eq a b : a == b -> Qred a = Qred b.
Proof. apply Qred_complete. Qed.
Definition part_eq (p p' : part) : Prop :=
  p_x p == p_x p' /\ p_y p == p_y p' /\ p_z p == p_z p' /\ p_ux p == p_ux p' /\ p_uy p == p_uy p' /\ p_uz p == p_uz p' /\ p_ig p == p_ig p' /\
  p_w p == p_w p' /\ p_dead p = p_dead p' /\ p_nan p = p_nan p'.
Definition pslot_eq (s s' : M_Push.slot) : Prop := part_eq (l_p s) (l_p s') /\ same6 (l_f s) (l_f s').

Lemma let_eq {T} (R : T -> T -> Prop) x x' (f f' : Q -> T) : x == x' -> (forall y y', y == y' -> R (f y) (f' y')) -> R (let a := x in f a) (let a := x' in f' a).
Proof. intros H1 H2. exact (H2 x x' H1). Qed.

(** numbers built alike from equal numbers are equal *)
Ltac qcong r := first
  [ assumption | match goal with |- ?a == ?a => reflexivity end
  | apply Qplus_comp; qcong r | apply Qmult_comp; qcong r | apply Qminus_comp; qcong r | apply Qdiv_comp; qcong r | apply r; qcong r ].

Section Push.
Variable rsqrt : Q -> Q.
Hypothesis rsqrt_eq : forall x y, x == y -> rsqrt x == rsqrt y.
Instance rsqrt_proper : Proper (Qeq ==> Qeq) rsqrt.
Proof. intros x y H. exact (rsqrt_eq x y H). Qed.

Definition same_push (a b : vec Q * Q) : Prop :=
  let '((x, y, z), g) := a in let '((x', y', z'), g') := b in x == x' /\ y == y' /\ z == z' /\ g == g'.
Lemma boris_eq e b e' b' u0 u1 u2 v0 v1 v2 E0 E1 E2 F0 F1 F2 B0 B1 B2 C0 C1 C2 :
  e == e' -> b == b' -> u0 == v0 -> u1 == v1 -> u2 == v2 -> E0 == F0 -> E1 == F1 -> E2 == F2 -> B0 == C0 -> B1 == C1 -> B2 == C2 ->
  same_push (boris_core (Qnums rsqrt) e b (u0, u1, u2) (E0, E1, E2) (B0, B1, B2)) (boris_core (Qnums rsqrt) e' b' (v0, v1, v2) (F0, F1, F2) (C0, C1, C2)).
Proof.
  intros He Hb H0 H1 H2 H3 H4 H5 H6 H7 H8. unfold boris_core, one_plus_sq. cbn [n_add n_sub n_mul n_div n_1 n_2 n_rsqrt Qnums].
  repeat (match goal with |- ?R (let a := ?x in @?f a) (let a' := ?x' in @?g a') => apply (let_eq R x x' f g) end; [solve [qcong rsqrt_eq]|cbv beta; intros ? ? ?]).
  cbv zeta. unfold same_push.
  split; [|split; [|split]]; qcong rsqrt_eq.
Qed.

Lemma move_eq c p p' : part_eq p p' -> part_eq (push_position_2d c p) (push_position_2d c p').
Proof.
  intros (H1 & H2 & H3 & H4 & H5 & H6 & H7 & H8 & H9 & H10). unfold part_eq, push_position_2d. cbn [p_x p_y p_z p_ux p_uy p_uz p_ig p_w p_dead p_nan].
  split; [qcong rsqrt_eq|]. split; [qcong rsqrt_eq|]. repeat (split; [assumption|]). assumption.
Qed.
Lemma momentum_eq q m dt s s' : pslot_eq s s' -> pslot_eq (push_momentum rsqrt q m dt s) (push_momentum rsqrt q m dt s').
Proof.
  intros [(H1 & H2 & H3 & H4 & H5 & H6 & H7 & H8 & H9 & H10) (K1 & K2 & K3 & K4 & K5 & K6)]. unfold push_momentum, boris_inline. cbv zeta.
  match goal with |- pslot_eq (let '(_, _) := ?a in _) (let '(_, _) := ?b in _) => assert (same_push a b) as B by (apply boris_eq; assumption || reflexivity);
    destruct a as [[[x y] z] g], b as [[[x' y'] z'] g'] end.
  destruct B as (B1 & B2 & B3 & B4). unfold pslot_eq, part_eq, same6. cbn [l_p l_f p_x p_y p_z p_ux p_uy p_uz p_ig p_w p_dead p_nan].
  split; [|repeat (split; [assumption|]); assumption]. repeat (split; [assumption|]). assumption.
Qed.
(** interpolated values that are equal for equal particles *)
Definition interp_eq (i j : part -> option (six Q)) (p p' : part) : Prop :=
  match i p, j p' with Some a, Some b => same6 a b | _, _ => False end.
Lemma one_eq i j q m dt s s' : pslot_eq s s' ->
  (skipped s = false -> let c := LIGHT_SPEED * (1#2) * dt in interp_eq i j (push_position_2d c (l_p s)) (push_position_2d c (l_p s'))) ->
  exists t t', one rsqrt push_position_2d i q m dt s = Some t /\ one rsqrt push_position_2d j q m dt s' = Some t' /\ pslot_eq t t'.
Proof.
  intros E I. unfold one. pose proof E as E0. destruct E as [(H1 & H2 & H3 & H4 & H5 & H6 & H7 & H8 & H9 & H10) F].
  assert (skipped s' = skipped s) as -> by (unfold skipped; rewrite H9, H10; reflexivity).
  destruct (skipped s); [exists s, s'; split; [reflexivity|]; split; [reflexivity|exact E0]|]. cbv zeta in *. specialize (I eq_refl). unfold interp_eq in I.
  destruct (i _) as [a|]; [|contradiction]. destruct (j _) as [b|]; [|contradiction]. cbn [obind].
  eexists. eexists. split; [reflexivity|]. split; [reflexivity|].
  match goal with |- context [push_momentum rsqrt q m dt ?x] => match goal with |- pslot_eq _ (M_Push.mkSlot (push_position_2d _ (l_p (push_momentum rsqrt q m dt ?y))) _) =>
    assert (pslot_eq (push_momentum rsqrt q m dt x) (push_momentum rsqrt q m dt y)) as [M1 M2] end end.
  { apply momentum_eq. split; cbn [l_p l_f]; [apply move_eq; exact (proj1 E0)|exact I]. }
  split; cbn [l_p l_f]; [apply move_eq; exact M1|exact M2].
Qed.
End Push.

(** * Interpolation from values of the whole grid *)
Definition gfield (get : Z -> Z -> Q) (fac1 fac2 : Q * Q * Q) (ix iy : Z) : Q :=
  let row j := comb fac1 (get (ix - 1)%Z j) (get ix j) (get (ix + 1)%Z j) in comb fac2 (row (iy - 1)%Z) (row iy) (row (iy + 1)%Z).
Definition gat (E B : nat -> Z -> Z -> Q) (X Y : Q) : six Q :=
  let ix1 := Qfloor (X + (1#2)) in let gx := get_gx (inject_Z ix1 - X) in
  let ix2 := Qfloor X in let hx := get_gx (inject_Z ix2 - X + (1#2)) in
  let iy1 := Qfloor (Y + (1#2)) in let gy := get_gx (inject_Z iy1 - Y) in
  let iy2 := Qfloor Y in let hy := get_gx (inject_Z iy2 - Y + (1#2)) in
  mkSix (gfield (E 0%nat) hx gy ix2 iy1) (gfield (E 1%nat) gx hy ix1 iy2) (gfield (E 2%nat) gx gy ix1 iy1)
        (gfield (B 0%nat) gx hy ix1 iy2) (gfield (B 1%nat) hx gy ix2 iy1) (gfield (B 2%nat) hx hy ix2 iy2).
Lemma comb_eq d d' a b c a' b' c' : d == d' -> a == a' -> b == b' -> c == c' -> comb (get_gx d) a b c == comb (get_gx d') a' b' c'.
Proof. intros H1 H2 H3 H4. unfold get_gx, comb. qcong H1. Qed.
Lemma gfield_eq get get' d d' e e' ix ix' iy iy' : d == d' -> e == e' ->
  (forall a b, (-1 <= a <= 1)%Z -> (-1 <= b <= 1)%Z -> get (ix + a)%Z (iy + b)%Z == get' (ix' + a)%Z (iy' + b)%Z) ->
  gfield get (get_gx d) (get_gx e) ix iy == gfield get' (get_gx d') (get_gx e') ix' iy'.
Proof.
  intros H1 H2 G. unfold gfield. cbv zeta.
  pose proof (fun a => G a (-1)%Z) as G1. pose proof (fun a => G a 0%Z) as G2. pose proof (fun a => G a 1%Z) as G3.
  assert (forall a, (-1 <= a <= 1)%Z -> get (ix + a)%Z (iy - 1)%Z == get' (ix' + a)%Z (iy' - 1)%Z) as K1 by (intros a Ha; apply G1; lia).
  assert (forall a, (-1 <= a <= 1)%Z -> get (ix + a)%Z iy == get' (ix' + a)%Z iy') as K2.
  { intros a Ha. specialize (G2 a Ha ltac:(lia)). rewrite !Z.add_0_r in G2. exact G2. }
  assert (forall a, (-1 <= a <= 1)%Z -> get (ix + a)%Z (iy + 1)%Z == get' (ix' + a)%Z (iy' + 1)%Z) as K3 by (intros a Ha; apply G3; lia).
  clear G G1 G2 G3.
  assert (forall k k', (forall a, (-1 <= a <= 1)%Z -> get (ix + a)%Z k == get' (ix' + a)%Z k') ->
    comb (get_gx d) (get (ix - 1)%Z k) (get ix k) (get (ix + 1)%Z k) == comb (get_gx d') (get' (ix' - 1)%Z k') (get' ix' k') (get' (ix' + 1)%Z k')) as R.
  { intros k k' K. apply comb_eq; [exact H1|apply (K (-1)%Z); lia| |apply (K 1%Z); lia]. specialize (K 0%Z ltac:(lia)). rewrite !Z.add_0_r in K. exact K. }
  apply comb_eq; [exact H2|apply R; exact K1|apply R; exact K2|apply R; exact K3].
Qed.
Lemma floor_shift X k : Qfloor (X + inject_Z k) = (Qfloor X + k)%Z.
Proof.
  destruct (floor_bounds X) as [H1 H2]. apply floor_unique; rewrite inject_Z_plus; lra.
Qed.
Lemma gat_shift E B E' B' X Y X' Y' ox oy : X' == X + inject_Z ox -> Y' == Y + inject_Z oy ->
  (forall f a b, (f < 3)%nat -> (Qfloor X - 1 <= a <= Qfloor X + 2)%Z -> (Qfloor Y - 1 <= b <= Qfloor Y + 2)%Z ->
     E f a b == E' f (a + ox)%Z (b + oy)%Z /\ B f a b == B' f (a + ox)%Z (b + oy)%Z) ->
  same6 (gat E B X Y) (gat E' B' X' Y').
Proof.
  intros HX HY G. unfold gat. cbv zeta.
  assert (Qfloor X' = Qfloor X + ox)%Z as FX by (rewrite (Qfloor_comp _ _ HX); apply floor_shift).
  assert (Qfloor Y' = Qfloor Y + oy)%Z as FY by (rewrite (Qfloor_comp _ _ HY); apply floor_shift).
  assert (Qfloor (X' + (1#2)) = Qfloor (X + (1#2)) + ox)%Z as GX.
  { rewrite <- floor_shift. apply Qfloor_comp. rewrite HX. ring. }
  assert (Qfloor (Y' + (1#2)) = Qfloor (Y + (1#2)) + oy)%Z as GY.
  { rewrite <- floor_shift. apply Qfloor_comp. rewrite HY. ring. }
  assert (Qfloor X <= Qfloor (X + (1#2)) <= Qfloor X + 1)%Z as RX.
  { split; [apply Qfloor_resp_le; lra|]. pose proof (Qfloor_resp_le (X + (1#2)) (X + inject_Z 1) ltac:(unfold inject_Z; lra)) as R. rewrite floor_shift in R. exact R. }
  assert (Qfloor Y <= Qfloor (Y + (1#2)) <= Qfloor Y + 1)%Z as RY.
  { split; [apply Qfloor_resp_le; lra|]. pose proof (Qfloor_resp_le (Y + (1#2)) (Y + inject_Z 1) ltac:(unfold inject_Z; lra)) as R. rewrite floor_shift in R. exact R. }
  rewrite FX, FY, GX, GY. clear FX FY GX GY. set (ix1 := Qfloor (X + (1#2))) in *. set (ix2 := Qfloor X) in *. set (iy1 := Qfloor (Y + (1#2))) in *. set (iy2 := Qfloor Y) in *.
  clearbody ix1 ix2 iy1 iy2.
  assert (inject_Z ix1 - X == inject_Z (ix1 + ox) - X') as D1 by (rewrite inject_Z_plus, HX; ring).
  assert (inject_Z ix2 - X + (1#2) == inject_Z (ix2 + ox) - X' + (1#2)) as D2 by (rewrite inject_Z_plus, HX; ring).
  assert (inject_Z iy1 - Y == inject_Z (iy1 + oy) - Y') as D3 by (rewrite inject_Z_plus, HY; ring).
  assert (inject_Z iy2 - Y + (1#2) == inject_Z (iy2 + oy) - Y' + (1#2)) as D4 by (rewrite inject_Z_plus, HY; ring).
  clear HX HY.
  assert (forall f ix iy a b, (f < 3)%nat -> (ix2 <= ix <= ix2 + 1)%Z -> (iy2 <= iy <= iy2 + 1)%Z -> (-1 <= a <= 1)%Z -> (-1 <= b <= 1)%Z ->
    E f (ix + a)%Z (iy + b)%Z == E' f (ix + ox + a)%Z (iy + oy + b)%Z /\ B f (ix + a)%Z (iy + b)%Z == B' f (ix + ox + a)%Z (iy + oy + b)%Z) as K.
  { intros f ix iy a b Hf H1 H2 H3 H4. replace (ix + ox + a)%Z with (ix + a + ox)%Z by ring. replace (iy + oy + b)%Z with (iy + b + oy)%Z by ring. apply G; [exact Hf|lia|lia]. }
  unfold same6. cbn [s_ex s_ey s_ez s_bx s_by s_bz].
  repeat split; apply gfield_eq; auto; intros a b Ha Hb; apply K; lia || auto.
Qed.
Lemma gat_eq E B X Y X' Y' : X == X' -> Y == Y' -> same6 (gat E B X Y) (gat E B X' Y').
Proof.
  intros HX HY. apply (gat_shift E B E B X Y X' Y' 0 0); [rewrite HX; unfold inject_Z; ring|rewrite HY; unfold inject_Z; ring|].
  intros f a b _ _ _. rewrite !Z.add_0_r. split; reflexivity.
Qed.

(** * The same read from the arrays of a patch *)
Lemma interp_field_total nx ny field (get : Z -> Z -> Q) fac1 fac2 ix iy :
  (forall a b, (-1 <= a <= 1)%Z -> (-1 <= b <= 1)%Z -> rd field (INDEX2 nx ny (ix + a) (iy + b)) = Some (get (ix + a)%Z (iy + b)%Z)) ->
  interp_field_2d nx ny field fac1 fac2 ix iy = Some (gfield get fac1 fac2 ix iy).
Proof.
  intro R. unfold interp_field_2d, gfield. cbv zeta.
  assert (forall a b, (a = ix - 1 \/ a = ix \/ a = ix + 1)%Z -> (b = iy - 1 \/ b = iy \/ b = iy + 1)%Z -> rd field (INDEX2 nx ny a b) = Some (get a b)) as R'.
  { intros a b Ha Hb. specialize (R (a - ix)%Z (b - iy)%Z ltac:(lia) ltac:(lia)). replace (ix + (a - ix))%Z with a in R by ring. replace (iy + (b - iy))%Z with b in R by ring. exact R. }
  rewrite !R' by tauto. rewrite !comb3_some. reflexivity.
Qed.
Lemma interp_total nx ny F E B X Y :
  (forall a b, (Qfloor X - 1 <= a <= Qfloor X + 2)%Z -> (Qfloor Y - 1 <= b <= Qfloor Y + 2)%Z ->
     rd (s_ex F) (INDEX2 nx ny a b) = Some (E 0%nat a b) /\ rd (s_ey F) (INDEX2 nx ny a b) = Some (E 1%nat a b) /\ rd (s_ez F) (INDEX2 nx ny a b) = Some (E 2%nat a b) /\
     rd (s_bx F) (INDEX2 nx ny a b) = Some (B 0%nat a b) /\ rd (s_by F) (INDEX2 nx ny a b) = Some (B 1%nat a b) /\ rd (s_bz F) (INDEX2 nx ny a b) = Some (B 2%nat a b)) ->
  interp_at_2d nx ny F X Y = Some (gat E B X Y).
Proof.
  intro R. unfold interp_at_2d, gat. cbv zeta.
  assert (Qfloor X <= Qfloor (X + (1#2)) <= Qfloor X + 1)%Z as RX.
  { split; [apply Qfloor_resp_le; lra|]. pose proof (Qfloor_resp_le (X + (1#2)) (X + inject_Z 1) ltac:(unfold inject_Z; lra)) as H. rewrite floor_shift in H. exact H. }
  assert (Qfloor Y <= Qfloor (Y + (1#2)) <= Qfloor Y + 1)%Z as RY.
  { split; [apply Qfloor_resp_le; lra|]. pose proof (Qfloor_resp_le (Y + (1#2)) (Y + inject_Z 1) ltac:(unfold inject_Z; lra)) as H. rewrite floor_shift in H. exact H. }
  set (ix1 := Qfloor (X + (1#2))) in *. set (ix2 := Qfloor X) in *. set (iy1 := Qfloor (Y + (1#2))) in *. set (iy2 := Qfloor Y) in *. clearbody ix1 ix2 iy1 iy2.
  rewrite (interp_field_total nx ny (s_ex F) (E 0%nat)) by (intros a b Ha Hb; apply R; lia).
  rewrite (interp_field_total nx ny (s_ey F) (E 1%nat)) by (intros a b Ha Hb; apply R; lia).
  rewrite (interp_field_total nx ny (s_ez F) (E 2%nat)) by (intros a b Ha Hb; apply R; lia).
  rewrite (interp_field_total nx ny (s_bx F) (B 0%nat)) by (intros a b Ha Hb; apply R; lia).
  rewrite (interp_field_total nx ny (s_by F) (B 1%nat)) by (intros a b Ha Hb; apply R; lia).
  rewrite (interp_field_total nx ny (s_bz F) (B 2%nat)) by (intros a b Ha Hb; apply R; lia).
  reflexivity.
Qed.
