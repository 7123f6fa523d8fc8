(** Proofs about field interpolation. *)
From Coq Require Import QArith Qround Qabs Lqa.
From Verif Require Import Base M_Deposit S_Deposit M_Push S_Push P_Deposit P_Deposit5.
Local Open Scope Q_scope.

(** * The fast path *)
Lemma ctrunc_pos x : (0 < ctrunc x)%Z -> ctrunc x = Qfloor x.
Proof.
  intro H. apply ctrunc_floor. destruct x as [n d]. unfold ctrunc in H. cbn [Qnum Qden] in H.
  unfold Qle. cbn. destruct (Z.leb_spec 0 n) as [L|L]; [lia|].
  exfalso. pose proof (Z.quot_opp_l n (Z.pos d) ltac:(lia)) as O. pose proof (Z.quot_pos (- n) (Z.pos d) ltac:(lia) ltac:(lia)). lia.
Qed.

Lemma index2_flat nx ny i j : (0 <= i)%Z -> (0 <= j)%Z -> INDEX2 nx ny i j = (i * ny + j)%Z.
Proof. intros I J. unfold INDEX2. destruct (Z.leb_spec 0 j); [|lia]. destruct (Z.leb_spec 0 i); [|lia]. lia. Qed.
Lemma index3_flat nx ny nz i j k : (0 <= i)%Z -> (0 <= j)%Z -> (0 <= k)%Z -> INDEX3 nx ny nz i j k = (i * (ny * nz) + j * nz + k)%Z.
Proof.
  intros I J K. unfold INDEX3. destruct (Z.leb_spec 0 k); [|lia]. destruct (Z.leb_spec 0 j); [|lia]. destruct (Z.leb_spec 0 i); [|lia]. ring.
Qed.

Lemma fast_eq_2d nx ny field f g ix iy : (0 < ix)%Z -> (0 < iy)%Z ->
  interp_field_fast_2d ny field f g ix iy = interp_field_2d nx ny field f g ix iy.
Proof.
  intros I J. unfold interp_field_fast_2d, interp_field_2d. cbv zeta. rewrite !index2_flat by lia. reflexivity.
Qed.
Lemma fast_eq_3d nx ny nz field f g h ix iy iz : (0 < ix)%Z -> (0 < iy)%Z -> (0 < iz)%Z ->
  interp_field_fast_3d ny nz field f g h ix iy iz = interp_field_3d nx ny nz field f g h ix iy iz.
Proof.
  intros I J K. unfold interp_field_fast_3d, interp_field_3d. cbv zeta. rewrite !index3_flat by lia. reflexivity.
Qed.

Lemma fused_at_2d nx ny F X Y : interp_fused_at_2d nx ny F X Y = interp_at_2d nx ny F X Y.
Proof.
  unfold interp_fused_at_2d, use_fast_2d. cbv zeta.
  destruct (_ && _ && _ && _) eqn:T; [|reflexivity].
  rewrite !andb_true_iff, !Z.ltb_lt in T. destruct T as [[[[A1 A2] [B1 B2]] [C1 C2]] [D1 D2]].
  rewrite !(ctrunc_pos _ A1), !(ctrunc_pos _ B1), !(ctrunc_pos _ C1), !(ctrunc_pos _ D1).
  rewrite (ctrunc_pos _ A1) in A1. rewrite (ctrunc_pos _ B1) in B1. rewrite (ctrunc_pos _ C1) in C1. rewrite (ctrunc_pos _ D1) in D1.
  rewrite !(fast_eq_2d nx) by assumption. reflexivity.
Qed.
Lemma fused_at_3d nx ny nz F X Y Z : interp_fused_at_3d nx ny nz F X Y Z = interp_at_3d nx ny nz F X Y Z.
Proof.
  unfold interp_fused_at_3d, use_fast_3d. cbv zeta.
  destruct (_ && _ && _ && _ && _ && _) eqn:T; [|reflexivity].
  rewrite !andb_true_iff, !Z.ltb_lt in T. destruct T as [[[[[[A1 A2] [B1 B2]] [C1 C2]] [D1 D2]] [E1 E2]] [G1 G2]].
  rewrite !(ctrunc_pos _ A1), !(ctrunc_pos _ B1), !(ctrunc_pos _ C1), !(ctrunc_pos _ D1), !(ctrunc_pos _ E1), !(ctrunc_pos _ G1).
  rewrite (ctrunc_pos _ A1) in A1. rewrite (ctrunc_pos _ B1) in B1. rewrite (ctrunc_pos _ C1) in C1. rewrite (ctrunc_pos _ D1) in D1.
  rewrite (ctrunc_pos _ E1) in E1. rewrite (ctrunc_pos _ G1) in G1.
  rewrite !(fast_eq_3d nx) by assumption. reflexivity.
Qed.

Lemma inv_mult x d : x * (1 / d) = x / d.
Proof.
  unfold Qdiv. f_equal. destruct (/ d) as [n e]. unfold Qmult. cbn [Qnum Qden]. f_equal. destruct n; reflexivity.
Qed.
Lemma fused_interp_2d G F x y : interpolation_fused_2d G F x y = interpolation_2d G F x y.
Proof. unfold interpolation_fused_2d, interpolation_2d. rewrite !inv_mult. apply fused_at_2d. Qed.
Lemma fused_interp_3d G F x y z : interpolation_fused_3d G F x y z = interpolation_3d G F x y z.
Proof. unfold interpolation_fused_3d, interpolation_3d. rewrite !inv_mult. apply fused_at_3d. Qed.

(** * Values *)

Lemma zfrom_6 k : zfrom k 6 = [k; k + 1; k + 2; k + 3; k + 4; k + 5]%Z.
Proof. unfold zfrom. cbn [seq map Z.of_nat Pos.of_succ_nat Pos.succ]. rewrite Z.add_0_r. reflexivity. Qed.

Lemma pick n (f : Z -> Q) i : (0 < n)%Z -> qsum (fun a => if (i mod n =? a)%Z then f a else 0) (points n) == f (i mod n)%Z.
Proof.
  intro N. pose proof (Z.mod_pos_bound i n N) as B. set (r := (i mod n)%Z) in *. clearbody r.
  unfold points, zfrom. rewrite qsum_map.
  assert (forall len s, (s <= Z.to_nat r < s + len)%nat ->
    qsum (fun k => if (r =? 0 + Z.of_nat k)%Z then f (0 + Z.of_nat k)%Z else 0) (seq s len) == f r) as H.
  { clear - B. intro len. induction len as [|len IH]; intros s H; [lia|]. cbn [seq]. rewrite qsum_cons.
    destruct (Z.eqb_spec r (0 + Z.of_nat s)) as [E|E].
    - rewrite qsum_zero.
      + rewrite <- E. ring.
      + intros k K. apply in_seq in K. destruct (Z.eqb_spec r (0 + Z.of_nat k)); [lia|reflexivity].
    - rewrite IH by lia. ring. }
  apply H. lia.
Qed.

Lemma weight_mean n (f : Z -> Q) X : (0 < n)%Z ->
  qsum (fun a => weight n a X * f a) (points n)
  == qsum (fun i => spline (inject_Z i - X) * f (i mod n)%Z) (zfrom (Qfloor X - 2) 6).
Proof.
  intro N. unfold weight, share.
  rewrite (qsum_ext _ (fun a => qsum (fun i => if (i mod n =? a)%Z then spline (inject_Z i - X) * f a else 0) (zfrom (Qfloor X - 2) 6))).
  2:{ intros a _. rewrite Qmult_comm, <- qsum_scale. apply qsum_ext. intros i _. destruct (_ =? _)%Z; ring. }
  rewrite qsum_swap. apply qsum_ext. intros i _.
  rewrite (qsum_ext _ (fun a => spline (inject_Z i - X) * (if (i mod n =? a)%Z then f a else 0))).
  2:{ intros a _. destruct (_ =? _)%Z; ring. }
  rewrite qsum_scale, pick by exact N. reflexivity.
Qed.

Definition comb (w : Q * Q * Q) (a b c : Q) : Q := let '(f0, f1, f2) := w in f0 * a + f1 * b + f2 * c.
Lemma comb3_some w a b c : comb3 w (Some a) (Some b) (Some c) = Some (comb w a b c).
Proof. destruct w as [[f0 f1] f2]. reflexivity. Qed.
Lemma comb_ext w a b c a' b' c' : a == a' -> b == b' -> c == c' -> comb w a b c == comb w a' b' c'.
Proof. destruct w as [[f0 f1] f2]. intros A B C. unfold comb. rewrite A, B, C. reflexivity. Qed.

(** the three weights around the nearest point are the spline *)
Lemma three_weights n (f : Z -> Q) X i d : (0 < n)%Z -> i = Qfloor (X + (1#2)) -> d == inject_Z i - X ->
  comb (get_gx d) (f ((i - 1) mod n)%Z) (f (i mod n)%Z) (f ((i + 1) mod n)%Z) == qsum (fun a => weight n a X * f a) (points n).
Proof.
  intros N I D. rewrite weight_mean by exact N. rewrite zfrom_6. cbn [qsum fold_right].
  destruct (floor_bounds X) as [F1 F2]. destruct (floor_bounds (X + (1#2))) as [G1 G2]. rewrite <- I in G1, G2.
  set (k := Qfloor X) in *. clearbody k.
  assert (i = k \/ i = k + 1)%Z as C.
  { assert (inject_Z i < inject_Z (k + 2)) as U by (rewrite inject_Z_plus; change (inject_Z 2) with 2; lra).
    assert (inject_Z k < inject_Z (i + 1)) as L by (rewrite inject_Z_plus; change (inject_Z 1) with 1; lra).
    rewrite <- Zlt_Qlt in U, L. lia. }
  unfold comb, get_gx. rewrite D.
  assert (forall z, inject_Z (k - 2 + z) == inject_Z k - 2 + inject_Z z) as EV.
  { intro z. rewrite inject_Z_plus. unfold Z.sub. rewrite inject_Z_plus. reflexivity. }
  assert (inject_Z (k - 2) == inject_Z k - 2) as E0 by (unfold Z.sub; rewrite inject_Z_plus; reflexivity).
  destruct C as [-> | ->].
  - replace (k - 2 + 1)%Z with (k - 1)%Z by lia. replace (k - 2 + 2)%Z with k by lia. replace (k - 2 + 3)%Z with (k + 1)%Z by lia.
    assert (inject_Z (k - 1) == inject_Z k - 1) as E1 by (unfold Z.sub; rewrite inject_Z_plus; reflexivity).
    assert (inject_Z (k + 1) == inject_Z k + 1) as E3 by (rewrite inject_Z_plus; reflexivity).
    assert (inject_Z (k - 2 + 4) == inject_Z k + 2) as E4 by (rewrite EV; change (inject_Z 4) with 4; ring).
    assert (inject_Z (k - 2 + 5) == inject_Z k + 3) as E5 by (rewrite EV; change (inject_Z 5) with 5; ring).
    rewrite (spline_out (inject_Z (k - 2) - X)) by lra. rewrite (spline_out (inject_Z (k - 2 + 4) - X)) by lra.
    rewrite (spline_out (inject_Z (k - 2 + 5) - X)) by lra.
    rewrite (spline_left (inject_Z (k - 1) - X)) by lra. rewrite (spline_mid (inject_Z k - X)) by lra.
    rewrite (spline_right (inject_Z (k + 1) - X)) by lra.
    rewrite E1, E3. ring.
  - replace (k + 1 - 1)%Z with k by lia. replace (k + 1 + 1)%Z with (k + 2)%Z by lia.
    replace (k - 2 + 2)%Z with k by lia. replace (k - 2 + 3)%Z with (k + 1)%Z by lia. replace (k - 2 + 4)%Z with (k + 2)%Z by lia.
    assert (inject_Z (k + 1) == inject_Z k + 1) as E3 by (rewrite inject_Z_plus; reflexivity).
    assert (inject_Z (k - 2 + 1) == inject_Z k - 1) as E1 by (rewrite EV; change (inject_Z 1) with 1; ring).
    assert (inject_Z (k + 2) == inject_Z k + 2) as E4 by (rewrite inject_Z_plus; reflexivity).
    assert (inject_Z (k - 2 + 5) == inject_Z k + 3) as E5 by (rewrite EV; change (inject_Z 5) with 5; ring).
    rewrite (spline_out (inject_Z (k - 2) - X)) by lra. rewrite (spline_out (inject_Z (k - 2 + 1) - X)) by lra.
    rewrite (spline_out (inject_Z (k - 2 + 5) - X)) by lra.
    rewrite (spline_left (inject_Z k - X)) by lra. rewrite (spline_mid (inject_Z (k + 1) - X)) by lra.
    rewrite (spline_right (inject_Z (k + 2) - X)) by lra.
    rewrite E3, E4. ring.
Qed.

Lemma wrap_mod n i : (- n <= i < n)%Z -> (if 0 <=? i then i else i + n)%Z = (i mod n)%Z.
Proof.
  intro B. destruct (Z.leb_spec 0 i).
  - symmetry. apply Z.mod_small. lia.
  - rewrite <- (Z.mod_small (i + n) n) by lia. rewrite <- Zplus_mod_idemp_r, Z_mod_same_full, Z.add_0_r. reflexivity.
Qed.

Lemma rd_in field o : (0 <= o < Z.of_nat (length field))%Z -> rd field o = Some (nth (Z.to_nat o) field 0).
Proof.
  intro B. unfold rd. destruct (Z.ltb_spec o 0); [lia|]. apply nth_error_nth'. lia.
Qed.

Lemma rd2 nx ny field i j : Z.of_nat (length field) = (nx * ny)%Z -> (- nx <= i < nx)%Z -> (- ny <= j < ny)%Z ->
  rd field (INDEX2 nx ny i j) = Some (nth (Z.to_nat (i mod nx * ny + j mod ny)) field 0).
Proof.
  intros L I J. unfold INDEX2. rewrite (wrap_mod nx i I), (wrap_mod ny j J).
  replace (j mod ny + i mod nx * ny)%Z with (i mod nx * ny + j mod ny)%Z by ring. apply rd_in.
  rewrite L. pose proof (Z.mod_pos_bound i nx ltac:(lia)). pose proof (Z.mod_pos_bound j ny ltac:(lia)). nia.
Qed.
Lemma rd3 nx ny nz field i j k : Z.of_nat (length field) = (nx * ny * nz)%Z -> (- nx <= i < nx)%Z -> (- ny <= j < ny)%Z -> (- nz <= k < nz)%Z ->
  rd field (INDEX3 nx ny nz i j k) = Some (nth (Z.to_nat (i mod nx * (ny * nz) + j mod ny * nz + k mod nz)) field 0).
Proof.
  intros L I J K. unfold INDEX3. rewrite (wrap_mod nx i I), (wrap_mod ny j J), (wrap_mod nz k K).
  replace (k mod nz + j mod ny * nz + i mod nx * ny * nz)%Z with (i mod nx * (ny * nz) + j mod ny * nz + k mod nz)%Z by ring. apply rd_in.
  rewrite L. pose proof (Z.mod_pos_bound i nx ltac:(lia)). pose proof (Z.mod_pos_bound j ny ltac:(lia)). pose proof (Z.mod_pos_bound k nz ltac:(lia)).
  assert (0 <= i mod nx * ny + j mod ny < nx * ny)%Z by nia. set (p := (i mod nx * ny + j mod ny)%Z) in *.
  replace (i mod nx * (ny * nz) + j mod ny * nz + k mod nz)%Z with (p * nz + k mod nz)%Z by (unfold p; ring). nia.
Qed.

Definition centred (n : Z) (X : Q) (i : Z) (d : Q) : Prop := i = Qfloor (X + (1#2)) /\ d == inject_Z i - X /\ (- n <= i - 1)%Z /\ (i + 1 < n)%Z.

Lemma field_mean2 nx ny field X Y i j d e : Z.of_nat (length field) = (nx * ny)%Z ->
  centred nx X i d -> centred ny Y j e ->
  exists v, interp_field_2d nx ny field (get_gx d) (get_gx e) i j = Some v /\ v == mean2 nx ny field X Y.
Proof.
  intros L (I & D & I1 & I2) (J & E & J1 & J2).
  set (f a b := nth (Z.to_nat (a * ny + b)) field 0).
  unfold interp_field_2d. cbv zeta. rewrite !(rd2 nx ny field) by (assumption || lia). rewrite !comb3_some.
  eexists. split; [reflexivity|]. fold (f ((i - 1) mod nx) ((j - 1) mod ny))%Z.
  transitivity (comb (get_gx e) (qsum (fun a => weight nx a X * f a ((j - 1) mod ny)%Z) (points nx))
    (qsum (fun a => weight nx a X * f a (j mod ny)%Z) (points nx)) (qsum (fun a => weight nx a X * f a ((j + 1) mod ny)%Z) (points nx))).
  { apply comb_ext.
    - rewrite <- (three_weights nx (fun a => f a ((j - 1) mod ny)%Z) X i d) by (assumption || lia). reflexivity.
    - rewrite <- (three_weights nx (fun a => f a (j mod ny)%Z) X i d) by (assumption || lia). reflexivity.
    - rewrite <- (three_weights nx (fun a => f a ((j + 1) mod ny)%Z) X i d) by (assumption || lia). reflexivity. }
  rewrite (three_weights ny (fun b => qsum (fun a => weight nx a X * f a b) (points nx)) Y j e) by (assumption || lia).
  unfold mean2. rewrite qsum_swap. apply qsum_ext. intros b _. rewrite <- qsum_scale. apply qsum_ext. intros a _. unfold f. ring.
Qed.

Lemma field_mean3 nx ny nz field X Y Z i j k d e g : Z.of_nat (length field) = (nx * ny * nz)%Z ->
  centred nx X i d -> centred ny Y j e -> centred nz Z k g ->
  exists v, interp_field_3d nx ny nz field (get_gx d) (get_gx e) (get_gx g) i j k = Some v /\ v == mean3 nx ny nz field X Y Z.
Proof.
  intros L (I & D & I1 & I2) (J & E & J1 & J2) (K & G & K1 & K2).
  assert (0 < nx /\ 0 < ny /\ 0 < nz)%Z as (NX & NY & NZ) by lia.
  set (f a b c := nth (Z.to_nat (a * (ny * nz) + b * nz + c)) field 0).
  unfold interp_field_3d. cbv zeta. rewrite !(rd3 nx ny nz field) by (assumption || lia). rewrite !comb3_some.
  eexists. split; [reflexivity|]. fold (f ((i - 1) mod nx) ((j - 1) mod ny) ((k - 1) mod nz))%Z.
  set (row b c := qsum (fun a => weight nx a X * f a b c) (points nx)).
  assert (forall b c, comb (get_gx d) (f ((i - 1) mod nx)%Z b c) (f (i mod nx)%Z b c) (f ((i + 1) mod nx)%Z b c) == row b c) as R.
  { intros b c. exact (three_weights nx (fun a => f a b c) X i d NX I D). }
  set (plane c := qsum (fun b => weight ny b Y * row b c) (points ny)).
  assert (forall c, comb (get_gx e) (row ((j - 1) mod ny)%Z c) (row (j mod ny)%Z c) (row ((j + 1) mod ny)%Z c) == plane c) as P.
  { intro c. exact (three_weights ny (fun b => row b c) Y j e NY J E). }
  transitivity (comb (get_gx g) (plane ((k - 1) mod nz)%Z) (plane (k mod nz)%Z) (plane ((k + 1) mod nz)%Z)).
  { apply comb_ext; (etransitivity; [|apply P]); apply comb_ext; apply R. }
  rewrite (three_weights nz plane Z k g NZ K G).
  unfold mean3. unfold plane, row.
  rewrite (qsum_ext _ (fun c => qsum (fun a => qsum (fun b => weight nx a X * weight ny b Y * weight nz c Z * f a b c) (points ny)) (points nx))).
  2:{ intros c _. rewrite <- qsum_scale. rewrite qsum_swap. apply qsum_ext. intros b _.
      rewrite <- qsum_scale. rewrite <- qsum_scale. apply qsum_ext. intros a _. ring. }
  rewrite qsum_swap. apply qsum_ext. intros a _. rewrite qsum_swap. reflexivity.
Qed.

Lemma centred_g n X : stencil_inside n X -> centred n X (Qfloor (X + (1#2))) (inject_Z (Qfloor (X + (1#2))) - X).
Proof.
  intros [A B]. destruct (floor_bounds (X + (1#2))) as [G1 G2]. set (i := Qfloor _) in *.
  split; [reflexivity|]. split; [reflexivity|].
  assert (inject_Z (1 - n) < inject_Z (i + 1)) as L by (rewrite (inject_Z_plus i); change (inject_Z 1) with 1; lra).
  assert (inject_Z i < inject_Z (n - 1)) as U by lra.
  rewrite <- Zlt_Qlt in L, U. lia.
Qed.
Lemma centred_h n X : stencil_inside n X -> centred n (X - (1#2)) (Qfloor X) (inject_Z (Qfloor X) - X + (1#2)).
Proof.
  intros [A B]. destruct (floor_bounds X) as [G1 G2]. 
  split; [apply Qfloor_comp; ring|]. split; [ring|]. set (i := Qfloor _) in *.
  assert (inject_Z (1 - n) < inject_Z (i + 1)) as L by (rewrite (inject_Z_plus i); change (inject_Z 1) with 1; lra).
  assert (inject_Z i < inject_Z (n - 1)) as U by lra.
  rewrite <- Zlt_Qlt in L, U. lia.
Qed.

Lemma interp_mean_2d nx ny F X Y : sizes (nx * ny) F -> stencil_inside nx X -> stencil_inside ny Y ->
  exists v, interp_at_2d nx ny F X Y = Some v /\ same6 v (mkSix
    (mean2 nx ny (s_ex F) (X - (1#2)) Y) (mean2 nx ny (s_ey F) X (Y - (1#2))) (mean2 nx ny (s_ez F) X Y)
    (mean2 nx ny (s_bx F) X (Y - (1#2))) (mean2 nx ny (s_by F) (X - (1#2)) Y) (mean2 nx ny (s_bz F) (X - (1#2)) (Y - (1#2)))).
Proof.
  intros (L1 & L2 & L3 & L4 & L5 & L6) SX SY. unfold interp_at_2d. cbv zeta.
  destruct (field_mean2 nx ny _ _ _ _ _ _ _ L1 (centred_h _ _ SX) (centred_g _ _ SY)) as (v1 & -> & V1).
  destruct (field_mean2 nx ny _ _ _ _ _ _ _ L2 (centred_g _ _ SX) (centred_h _ _ SY)) as (v2 & -> & V2).
  destruct (field_mean2 nx ny _ _ _ _ _ _ _ L3 (centred_g _ _ SX) (centred_g _ _ SY)) as (v3 & -> & V3).
  destruct (field_mean2 nx ny _ _ _ _ _ _ _ L4 (centred_g _ _ SX) (centred_h _ _ SY)) as (v4 & -> & V4).
  destruct (field_mean2 nx ny _ _ _ _ _ _ _ L5 (centred_h _ _ SX) (centred_g _ _ SY)) as (v5 & -> & V5).
  destruct (field_mean2 nx ny _ _ _ _ _ _ _ L6 (centred_h _ _ SX) (centred_h _ _ SY)) as (v6 & -> & V6).
  eexists. split; [reflexivity|]. repeat split; assumption.
Qed.
Lemma interp_mean_3d nx ny nz F X Y Z : sizes (nx * ny * nz) F -> stencil_inside nx X -> stencil_inside ny Y -> stencil_inside nz Z ->
  let h := (1#2) in
  exists v, interp_at_3d nx ny nz F X Y Z = Some v /\ same6 v (mkSix
    (mean3 nx ny nz (s_ex F) (X - h) Y Z) (mean3 nx ny nz (s_ey F) X (Y - h) Z) (mean3 nx ny nz (s_ez F) X Y (Z - h))
    (mean3 nx ny nz (s_bx F) X (Y - h) (Z - h)) (mean3 nx ny nz (s_by F) (X - h) Y (Z - h)) (mean3 nx ny nz (s_bz F) (X - h) (Y - h) Z)).
Proof.
  intros (L1 & L2 & L3 & L4 & L5 & L6) SX SY SZ h. unfold interp_at_3d. cbv zeta.
  destruct (field_mean3 nx ny nz _ _ _ _ _ _ _ _ _ _ L1 (centred_h _ _ SX) (centred_g _ _ SY) (centred_g _ _ SZ)) as (v1 & -> & V1).
  destruct (field_mean3 nx ny nz _ _ _ _ _ _ _ _ _ _ L2 (centred_g _ _ SX) (centred_h _ _ SY) (centred_g _ _ SZ)) as (v2 & -> & V2).
  destruct (field_mean3 nx ny nz _ _ _ _ _ _ _ _ _ _ L3 (centred_g _ _ SX) (centred_g _ _ SY) (centred_h _ _ SZ)) as (v3 & -> & V3).
  destruct (field_mean3 nx ny nz _ _ _ _ _ _ _ _ _ _ L4 (centred_g _ _ SX) (centred_h _ _ SY) (centred_h _ _ SZ)) as (v4 & -> & V4).
  destruct (field_mean3 nx ny nz _ _ _ _ _ _ _ _ _ _ L5 (centred_h _ _ SX) (centred_g _ _ SY) (centred_h _ _ SZ)) as (v5 & -> & V5).
  destruct (field_mean3 nx ny nz _ _ _ _ _ _ _ _ _ _ L6 (centred_h _ _ SX) (centred_h _ _ SY) (centred_g _ _ SZ)) as (v6 & -> & V6).
  eexists. split; [reflexivity|]. repeat split; assumption.
Qed.

(** * Constant arrays *)
Lemma weight_one n X : (0 < n)%Z -> qsum (fun a => weight n a X) (points n) == 1.
Proof.
  intro N. rewrite (qsum_ext _ (fun a => weight n a X * 1)) by (intros; ring).
  rewrite <- (three_weights n (fun _ => 1) X _ _ N eq_refl (Qeq_refl _)). unfold comb, get_gx. ring.
Qed.
Lemma mean2_const nx ny field X Y c : (0 < nx)%Z -> (0 < ny)%Z -> Z.of_nat (length field) = (nx * ny)%Z ->
  (forall x, In x field -> x == c) -> mean2 nx ny field X Y == c.
Proof.
  intros NX NY L H. unfold mean2.
  rewrite (qsum_ext _ (fun a => weight nx a X * c)).
  2:{ intros a A. apply points_in in A.
      rewrite (qsum_ext _ (fun b => (weight nx a X * c) * weight ny b Y)).
      - rewrite qsum_scale, weight_one by lia. ring.
      - intros b B. apply points_in in B. rewrite (H (nth _ field 0)).
        + ring.
        + apply nth_In. nia. }
  rewrite (qsum_ext _ (fun a => c * weight nx a X)) by (intros; ring). rewrite qsum_scale, weight_one by lia. ring.
Qed.
Lemma mean3_const nx ny nz field X Y Z c : (0 < nx)%Z -> (0 < ny)%Z -> (0 < nz)%Z -> Z.of_nat (length field) = (nx * ny * nz)%Z ->
  (forall x, In x field -> x == c) -> mean3 nx ny nz field X Y Z == c.
Proof.
  intros NX NY NZ L H. unfold mean3.
  rewrite (qsum_ext _ (fun a => c * weight nx a X)).
  2:{ intros a A. apply points_in in A.
      rewrite (qsum_ext _ (fun b => (weight nx a X * c) * weight ny b Y)).
      - rewrite qsum_scale, weight_one by lia. ring.
      - intros b B. apply points_in in B.
        rewrite (qsum_ext _ (fun k => (weight nx a X * c * weight ny b Y) * weight nz k Z)).
        + rewrite qsum_scale, weight_one by lia. ring.
        + intros k K. apply points_in in K. rewrite (H (nth _ field 0)); [ring|].
          apply nth_In. assert (0 <= a * ny + b < nx * ny)%Z by nia.
          replace (a * (ny * nz) + b * nz + k)%Z with ((a * ny + b) * nz + k)%Z by ring. nia. }
  rewrite qsum_scale, weight_one by lia. ring.
Qed.

Lemma inside_pos n X : stencil_inside n X -> (0 < n)%Z.
Proof. intros S. destruct (centred_g n X S) as (_ & _ & A & B). lia. Qed.

Lemma interp_const_2d nx ny F X Y v : sizes (nx * ny) F -> stencil_inside nx X -> stencil_inside ny Y -> uniform F v ->
  exists w, interp_at_2d nx ny F X Y = Some w /\ same6 w v.
Proof.
  intros S SX SY U. destruct (interp_mean_2d nx ny F X Y S SX SY) as (w & -> & W). exists w. split; [reflexivity|].
  apply inside_pos in SX. apply inside_pos in SY.
  destruct S as (L1 & L2 & L3 & L4 & L5 & L6). destruct U as (U1 & U2 & U3 & U4 & U5 & U6). destruct W as (W1 & W2 & W3 & W4 & W5 & W6).
  cbn [s_ex s_ey s_ez s_bx s_by s_bz] in *.
  repeat split; (rewrite W1 || rewrite W2 || rewrite W3 || rewrite W4 || rewrite W5 || rewrite W6); now apply mean2_const.
Qed.
Lemma interp_const_3d nx ny nz F X Y Z v : sizes (nx * ny * nz) F -> stencil_inside nx X -> stencil_inside ny Y -> stencil_inside nz Z -> uniform F v ->
  exists w, interp_at_3d nx ny nz F X Y Z = Some w /\ same6 w v.
Proof.
  intros S SX SY SZ U. destruct (interp_mean_3d nx ny nz F X Y Z S SX SY SZ) as (w & -> & W). exists w. split; [reflexivity|].
  apply inside_pos in SX. apply inside_pos in SY. apply inside_pos in SZ.
  destruct S as (L1 & L2 & L3 & L4 & L5 & L6). destruct U as (U1 & U2 & U3 & U4 & U5 & U6). destruct W as (W1 & W2 & W3 & W4 & W5 & W6).
  cbn [s_ex s_ey s_ez s_bx s_by s_bz] in *.
  repeat split; (rewrite W1 || rewrite W2 || rewrite W3 || rewrite W4 || rewrite W5 || rewrite W6); now apply mean3_const.
Qed.

(** * The fast path is only taken where every read is inside *)
Lemma fast_inside n x : (0 < ctrunc x)%Z -> (ctrunc (x + (1#2)) < n - 1)%Z -> (0 < ctrunc (x + (1#2)))%Z -> stencil_inside n x.
Proof.
  intros A B C. pose proof (ctrunc_pos _ C) as C'. pose proof (ctrunc_pos _ A) as A'. rewrite C' in B, C. rewrite A' in A.
  destruct (floor_bounds x) as [G1 G2]. destruct (floor_bounds (x + (1#2))) as [H1 H2].
  split.
  - assert (inject_Z (1 - n) <= inject_Z (Qfloor x)) as L by (rewrite <- Zle_Qle; lia). lra.
  - assert (inject_Z (Qfloor (x + (1#2)) + 1) <= inject_Z (n - 1)) as L by (rewrite <- Zle_Qle; lia).
    rewrite inject_Z_plus in L. change (inject_Z 1) with 1 in L. lra.
Qed.
Lemma fast_reads_2d nx ny F X Y : sizes (nx * ny) F -> use_fast_2d nx ny X Y = true -> interp_fused_at_2d nx ny F X Y <> None.
Proof.
  intros S T. rewrite fused_at_2d. unfold use_fast_2d in T. cbv zeta in T.
  rewrite !andb_true_iff, !Z.ltb_lt in T. destruct T as [[[[A1 A2] [B1 B2]] [C1 C2]] [D1 D2]].
  destruct (interp_mean_2d nx ny F X Y S (fast_inside _ _ A1 B2 B1) (fast_inside _ _ C1 D2 D1)) as (v & -> & _). discriminate.
Qed.
Lemma fast_reads_3d nx ny nz F X Y Z : sizes (nx * ny * nz) F -> use_fast_3d nx ny nz X Y Z = true -> interp_fused_at_3d nx ny nz F X Y Z <> None.
Proof.
  intros S T. rewrite fused_at_3d. unfold use_fast_3d in T. cbv zeta in T.
  rewrite !andb_true_iff, !Z.ltb_lt in T. destruct T as [[[[[[A1 A2] [B1 B2]] [C1 C2]] [D1 D2]] [E1 E2]] [G1 G2]].
  destruct (interp_mean_3d nx ny nz F X Y Z S (fast_inside _ _ A1 B2 B1) (fast_inside _ _ C1 D2 D1) (fast_inside _ _ E1 G2 G1)) as (v & -> & _). discriminate.
Qed.
