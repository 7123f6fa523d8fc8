(** Whole time steps in 3D, part 2: the push of the particles of one patch. *)
From Coq Require Import QArith Qabs Qround Qcanon Permutation Lqa.
From Verif Require Import Base M_Layout M_PartSync S_PartSync M_FieldSync S_FieldSync S_Maxwell M_Deposit S_Deposit M_Push S_Push P_Deposit P_Interp P_Push P_Layout P_FieldGeo M_Step S_Step P_Step1 P_Step2 M_Step3D S_Step3D P_StepD1.
Local Open Scope list_scope.
Local Open Scope Z_scope.

(** value of a field of the whole periodic grid *)
Definition gget3 (Nx Ny Nz : Z) (F : nat -> list Z -> Qc) (f : nat) (a b c : Z) : Q := this (F f [a mod Nx; b mod Ny; c mod Nz]).
(** coordinates of a patch *)
Notation qi D p := (pnum p mod ax_n (e_ax D)).
Notation qj D p := ((pnum p / ax_n (e_ax D)) mod ax_n (e_ay D)).
Notation qk D p := (pnum p / ax_n (e_ax D) / ax_n (e_ay D)).
Notation Vx D := (ax_n (e_ax D) * e_nx D).
Notation Vy D := (ax_n (e_ay D) * e_ny D).
Notation Vz D := (ax_n (e_az D) * e_nz D).

Section Patch.
Variable D : domain3.
Hypothesis OK : domain3_ok D.
Local Notation nx := (e_nx D). Local Notation ny := (e_ny D). Local Notation nz := (e_nz D). Local Notation ng := (e_ng D).
Local Notation n := (npatches3 D).
Local Notation axes := [e_ax D; e_ay D; e_az D]. Local Notation ns := [e_nx D; e_ny D; e_nz D].
Local Notation NX := (nx + 2 * ng). Local Notation NY := (ny + 2 * ng). Local Notation NZ := (nz + 2 * ng).

Lemma pijk p : (p < n)%nat -> 0 <= qi D p < ax_n (e_ax D) /\ 0 <= qj D p < ax_n (e_ay D) /\ 0 <= qk D p < ax_n (e_az D).
Proof.
  intro H. destruct (ok3_n D OK) as (H1 & H2 & H3). unfold npatches3 in H. unfold pnum. split; [apply Z.mod_pos_bound; lia|]. split; [apply Z.mod_pos_bound; lia|].
  split; [apply Z.div_pos; [apply Z.div_pos; lia|lia]|]. rewrite Z.div_div by lia. apply Z.div_lt_upper_bound; [nia|]. lia.
Qed.
Lemma place3_wrap p a b c : place axes ns (position3 (e_ax D) (e_ay D) p) [a; b; c] = Some [(qi D p * nx + a) mod Vx D; (qj D p * ny + b) mod Vy D; (qk D p * nz + c) mod Vz D].
Proof.
  unfold position3. cbn [place]. rewrite !place1_wrap by (apply (ok3_px D OK) || apply (ok3_py D OK) || apply (ok3_pz D OK)). reflexivity.
Qed.
Lemma within3 a b c : within ng ns [a; b; c] <-> (- ng <= a < nx + ng) /\ (- ng <= b < ny + ng) /\ (- ng <= c < nz + ng).
Proof.
  split; [intro H|intros (H1 & H2 & H3); constructor; [exact H1|constructor; [exact H2|constructor; [exact H3|constructor]]]].
  inversion H as [|? ? ? ? H1 H2]; subst. inversion H2 as [|? ? ? ? H3 H4]; subst. inversion H4 as [|? ? ? ? H5 _]; subst. auto.
Qed.
Lemma index3_in a b c : within ng ns [a; b; c] -> 0 <= INDEX3 NX NY NZ a b c < NX * NY * NZ.
Proof.
  intro W. apply within3 in W as (H1 & H2 & H3). destruct (ok3_g D OK) as (G1 & G2 & G3 & G4). unfold INDEX3.
  assert (exists u, (if 0 <=? a then a else a + NX) = u /\ 0 <= u < NX) as (u & -> & U) by (destruct (Z.leb_spec 0 a); eexists; (split; [reflexivity|lia])).
  assert (exists u, (if 0 <=? b then b else b + NY) = u /\ 0 <= u < NY) as (v & -> & V) by (destruct (Z.leb_spec 0 b); eexists; (split; [reflexivity|lia])).
  assert (exists u, (if 0 <=? c then c else c + NZ) = u /\ 0 <= u < NZ) as (w & -> & W) by (destruct (Z.leb_spec 0 c); eexists; (split; [reflexivity|lia])).
  set (X := NX) in *. set (Y := NY) in *. set (K := NZ) in *. clearbody X Y K. replace (u * Y * K) with (u * (Y * K)) by ring. replace (X * Y * K) with (X * (Y * K)) by ring.
  assert (w + v * K < Y * K) by nia. assert (0 <= v * K) by nia. nia.
Qed.
Lemma array3_read m f p o : 0 <= o < NX * NY * NZ -> rd (array_of3 D m f p) o = Some (this (m (Fld f p o))).
Proof.
  intro H. unfold rd, array_of3. destruct (Z.ltb_spec o 0); [lia|]. unfold zseq. rewrite map_map.
  erewrite map_nth_error; [|rewrite nth_error_nth' with (d := 0%nat) by (rewrite seq_length; lia); rewrite seq_nth by lia; reflexivity].
  cbn [Nat.add]. rewrite Z2Nat.id by lia. reflexivity.
Qed.
Lemma index3_same a b c : index (extents ns ng) [a; b; c] = INDEX3 NX NY NZ a b c.
Proof. cbn [extents map index]. unfold widx, INDEX3. ring. Qed.
Lemma field3_read F m f p a b c : field3_is D F m -> (f < 3)%nat -> (p < n)%nat -> within ng ns [a; b; c] ->
  rd (array_of3 D m f p) (INDEX3 NX NY NZ a b c) = Some (gget3 (Vx D) (Vy D) (Vz D) F f (qi D p * nx + a) (qj D p * ny + b) (qk D p * nz + c)).
Proof.
  intros FI Hf Hp W. rewrite array3_read by (apply index3_in; exact W). specialize (FI f p [a; b; c] Hf Hp W).
  unfold shown in FI. rewrite place3_wrap in FI. unfold gget3. rewrite <- FI. unfold cell. rewrite index3_same. reflexivity.
Qed.
Lemma interp_patch3 FE FB mE mB p x y z : field3_is D FE mE -> field3_is D FB mB -> (p < n)%nat ->
  (-1 <= (x - h_x0 (grid_of3 D p)) / e_dx D <= inject_Z nx)%Q -> (-1 <= (y - h_y0 (grid_of3 D p)) / e_dy D <= inject_Z ny)%Q -> (-1 <= (z - h_z0 (grid_of3 D p)) / e_dz D <= inject_Z nz)%Q ->
  exists v, interpolation_3d (grid_of3 D p) (fields_of3 D mE mB p) x y z = Some v /\
    same6 v (gat3 (gget3 (Vx D) (Vy D) (Vz D) FE) (gget3 (Vx D) (Vy D) (Vz D) FB) (x / e_dx D) (y / e_dy D) (z / e_dz D)).
Proof.
  intros HE HB Hp [X1 X2] [Y1 Y2] [Z1 Z2]. unfold interpolation_3d.
  set (X := ((x - h_x0 (grid_of3 D p)) / e_dx D)%Q) in *. set (Y := ((y - h_y0 (grid_of3 D p)) / e_dy D)%Q) in *. set (Z := ((z - h_z0 (grid_of3 D p)) / e_dz D)%Q) in *.
  change ((x - h_x0 (grid_of3 D p)) / h_dx (grid_of3 D p))%Q with X. change ((y - h_y0 (grid_of3 D p)) / h_dy (grid_of3 D p))%Q with Y. change ((z - h_z0 (grid_of3 D p)) / h_dz (grid_of3 D p))%Q with Z.
  destruct (ok3_g D OK) as (G1 & G2 & G3 & G4). destruct (ok3_d D OK) as (D1 & D2 & D3).
  set (E := fun f a b c => gget3 (Vx D) (Vy D) (Vz D) FE f (qi D p * nx + a) (qj D p * ny + b) (qk D p * nz + c)).
  set (B := fun f a b c => gget3 (Vx D) (Vy D) (Vz D) FB f (qi D p * nx + a) (qj D p * ny + b) (qk D p * nz + c)).
  pose proof (Qfloor_resp_le _ _ X1) as FX1. change (Qfloor (-1)) with (-1)%Z in FX1. pose proof (Qfloor_resp_le _ _ X2) as FX2. rewrite Qfloor_Z in FX2.
  pose proof (Qfloor_resp_le _ _ Y1) as FY1. change (Qfloor (-1)) with (-1)%Z in FY1. pose proof (Qfloor_resp_le _ _ Y2) as FY2. rewrite Qfloor_Z in FY2.
  pose proof (Qfloor_resp_le _ _ Z1) as FZ1. change (Qfloor (-1)) with (-1)%Z in FZ1. pose proof (Qfloor_resp_le _ _ Z2) as FZ2. rewrite Qfloor_Z in FZ2.
  exists (gat3 E B X Y Z). split.
  - apply interp3_total. intros a b c Ha Hb Hc. assert (within ng ns [a; b; c]) as W by (apply within3; lia).
    unfold fields_of3. cbn [s_ex s_ey s_ez s_bx s_by s_bz]. unfold E, B. cbn [grid_of3 h_nx h_ny h_nz].
    rewrite !(field3_read FE mE) by (auto with arith). rewrite !(field3_read FB mB) by (auto with arith). auto 10.
  - apply (gat3_shift _ _ _ _ _ _ _ _ _ _ (qi D p * nx) (qj D p * ny) (qk D p * nz)).
    + unfold X. cbn [grid_of3 h_x0]. field. lra.
    + unfold Y. cbn [grid_of3 h_y0]. field. lra.
    + unfold Z. cbn [grid_of3 h_z0]. field. lra.
    + intros f a b c _ _ _ _. unfold E, B. rewrite (Z.add_comm a), (Z.add_comm b), (Z.add_comm c). split; reflexivity.
Qed.
End Patch.

(** * Rows *)
Lemma canon_load3 r r' : canon r = canon r' -> pslot_eq (load3 (live r)) (load3 (live r')).
Proof.
  intro H. destruct (canon_load r r' H) as [(H1 & H2 & H3 & H4 & H5 & H6 & H7 & H8 & H9 & H10) F]. split; [|exact F].
  repeat (split; [assumption|]). unfold canon in H.
  assert (forall a b, option_map Qred a = option_map Qred b -> isnan a = isnan b) as O by (intros [a|] [b|] E; cbn [option_map] in E; try discriminate; reflexivity).
  assert (option_map Qred (px _ r) = option_map Qred (px _ r')) as E1 by congruence. assert (option_map Qred (py _ r) = option_map Qred (py _ r')) as E2 by congruence.
  assert (option_map Qred (pz _ r) = option_map Qred (pz _ r')) as E3 by congruence.
  unfold load3. cbn [l_p p_nan M_PartSync.row]. rewrite (O _ _ E1), (O _ _ E2), (O _ _ E3). reflexivity.
Qed.
Lemma canon_store3 r r' t t' : canon r = canon r' -> pslot_eq t t' -> canon (rowof (store3 (live r) t)) = canon (rowof (store3 (live r') t')).
Proof.
  destruct r as [x y z b], r' as [x' y' z' b']. destruct b as [ux uy uz ig w f id], b' as [ux' uy' uz' ig' w' f' id'].
  intros H [(K1 & K2 & K3 & K4 & K5 & K6 & K7 & K8 & _) (F1 & F2 & F3 & F4 & F5 & F6)].
  unfold canon, canon_body in H. cbn [px py pz other b_ux b_uy b_uz b_ig b_w b_f b_id] in H. injection H as Hx Hy Hz _ _ _ _ H5 _ _ _ _ _ _ H6.
  assert (isnan x = isnan x') as NX by (destruct x, x'; cbn [option_map] in Hx; try discriminate; reflexivity).
  assert (isnan y = isnan y') as NY by (destruct y, y'; cbn [option_map] in Hy; try discriminate; reflexivity).
  assert (isnan z = isnan z') as NZ by (destruct z, z'; cbn [option_map] in Hz; try discriminate; reflexivity).
  unfold rowof, store3, canon, canon_body, canon6. cbn [M_PartSync.row px py pz other b_ux b_uy b_uz b_ig b_w b_f b_id].
  rewrite NX, NY, NZ, H5, H6, (qred_eq _ _ K4), (qred_eq _ _ K5), (qred_eq _ _ K6), (qred_eq _ _ K7), (qred_eq _ _ F1), (qred_eq _ _ F2), (qred_eq _ _ F3), (qred_eq _ _ F4), (qred_eq _ _ F5), (qred_eq _ _ F6).
  destruct (isnan x'), (isnan y'), (isnan z'); cbn [option_map]; rewrite ?(qred_eq _ _ K1), ?(qred_eq _ _ K2), ?(qred_eq _ _ K3); reflexivity.
Qed.
Lemma store_load3 s : store3 s (load3 s) = s.
Proof.
  destruct s as [[x y z b] d]. destruct b as [ux uy uz ig w f id]. unfold store3, load3. cbn [M_PartSync.row M_PartSync.dead px py pz other l_p l_f p_x p_y p_z p_ux p_uy p_uz p_ig b_w b_id b_ux b_uy b_uz b_ig b_f].
  destruct x, y, z; reflexivity.
Qed.

Section Global.
Variable rsqrt : Q -> Q.
Hypothesis SUB : subluminal rsqrt.
Variables (Nx Ny Nz : Z) (dx dy dz dt : Q).
(** the push of one particle on the whole grid *)
Definition ginterp3 (FE FB : nat -> list Z -> Qc) (p : part) : option (six Q) :=
  Some (gat3 (gget3 Nx Ny Nz FE) (gget3 Nx Ny Nz FB) (p_x p / dx) (p_y p / dy) (p_z p / dz)).
Definition gslot3 (sp : species) FE FB (s : M_Push.slot) : M_Push.slot :=
  match one rsqrt push_position_3d (ginterp3 FE FB) (sp_q sp) (sp_m sp) dt s with Some t => t | None => s end.
Definition grow3 (sp : species) FE FB (r : prow body) : prow body := rowof (store3 (live r) (gslot3 sp FE FB (load3 (live r)))).
Lemma grow3_eq sp FE FB r r' : canon r = canon r' -> canon (grow3 sp FE FB r) = canon (grow3 sp FE FB r').
Proof.
  intro H. unfold grow3. apply canon_store3; [exact H|]. unfold gslot3.
  destruct (one3_eq rsqrt (proj1 SUB) (ginterp3 FE FB) (ginterp3 FE FB) (sp_q sp) (sp_m sp) dt _ _ (canon_load3 r r' H)) as (t & t' & -> & -> & E); [|exact E].
  intro S. cbv zeta. unfold interp_eq, ginterp3.
  destruct (move3_eq rsqrt (proj1 SUB) (LIGHT_SPEED * (1 # 2) * dt) _ _ (proj1 (canon_load3 r r' H))) as (K1 & K2 & K3 & _).
  apply gat3_eq; [rewrite K1; reflexivity|rewrite K2; reflexivity|rewrite K3; reflexivity].
Qed.
Lemma grow3_canon sp FE FB r : canon (grow3 sp FE FB (canon r)) = canon (grow3 sp FE FB r).
Proof. apply grow3_eq, canon_idem. Qed.
End Global.

(** * The particles of one patch *)
Definition in_patch3 (D : domain3) (p : nat) (r : prow body) : Prop :=
  exists x y z, px _ r = Some x /\ py _ r = Some y /\ pz _ r = Some z /\
    in_cells (e_nx D) (e_dx D) (qi D p) x /\ in_cells (e_ny D) (e_dy D) (qj D p) y /\ in_cells (e_nz D) (e_dz D) (qk D p) z /\
    (Qabs (b_ux (other _ r) * b_ig (other _ r)) <= 1)%Q /\ (Qabs (b_uy (other _ r) * b_ig (other _ r)) <= 1)%Q /\ (Qabs (b_uz (other _ r) * b_ig (other _ r)) <= 1)%Q.
Definition cdt3 (D : domain3) : Q := (LIGHT_SPEED * (1#2) * e_dt D)%Q.
Definition moved3 (D : domain3) (p : nat) (r : prow body) : Prop :=
  exists x y z, px _ r = Some x /\ py _ r = Some y /\ pz _ r = Some z /\
    (Qabs (b_ux (other _ r) * b_ig (other _ r)) <= 1)%Q /\ (Qabs (b_uy (other _ r) * b_ig (other _ r)) <= 1)%Q /\ (Qabs (b_uz (other _ r) * b_ig (other _ r)) <= 1)%Q /\
    in_reach (e_nx D) (e_dx D) (qi D p) (x - cdt3 D * b_ig (other _ r) * b_ux (other _ r)) /\
    in_reach (e_ny D) (e_dy D) (qj D p) (y - cdt3 D * b_ig (other _ r) * b_uy (other _ r)) /\
    in_reach (e_nz D) (e_dz D) (qk D p) (z - cdt3 D * b_ig (other _ r) * b_uz (other _ r)).
Lemma cdt3_ok D : domain3_ok D -> (0 < cdt3 D /\ cdt3 D <= e_dx D / 2 /\ cdt3 D <= e_dy D / 2 /\ cdt3 D <= e_dz D / 2)%Q.
Proof.
  intro OK. destruct (ok3_t D OK) as (T1 & T2 & T3 & T4). unfold cdt3. assert (LIGHT_SPEED * (1#2) * e_dt D == (LIGHT_SPEED * e_dt D) / 2)%Q as E by field.
  rewrite E. assert (0 < LIGHT_SPEED * e_dt D)%Q by (apply Qmult_lt_0_compat; [reflexivity|exact T1]).
  set (v := (LIGHT_SPEED * e_dt D)%Q) in *. clearbody v. unfold Qdiv. change (/ 2)%Q with (1#2)%Q. repeat split; lra.
Qed.

Section Particles.
Variable rsqrt : Q -> Q.
Hypothesis SUB : subluminal rsqrt.
Variable D : domain3.
Hypothesis OK : domain3_ok D.
Local Notation grow := (grow3 rsqrt (Vx D) (Vy D) (Vz D) (e_dx D) (e_dy D) (e_dz D) (e_dt D)).
Local Notation loc mE mB p := (fun a => interpolation_3d (grid_of3 D p) (fields_of3 D mE mB p) (p_x a) (p_y a) (p_z a)).

Lemma momentum_slow3 q m dt s : let p := l_p (push_momentum rsqrt q m dt s) in
  p_x p = p_x (l_p s) /\ p_y p = p_y (l_p s) /\ p_z p = p_z (l_p s) /\ p_w p = p_w (l_p s) /\
  (Qabs (p_ux p * p_ig p) <= 1)%Q /\ (Qabs (p_uy p * p_ig p) <= 1)%Q /\ (Qabs (p_uz p * p_ig p) <= 1)%Q.
Proof.
  cbv zeta. unfold push_momentum, boris_inline. cbv zeta.
  match goal with |- context [boris_core ?N ?e ?b ?u ?E ?B] => pose proof (boris_gamma rsqrt e b u E B) as G; destruct (boris_core N e b u E B) as [[[x y] z] g] end.
  cbn [l_p p_x p_y p_z p_w p_ux p_uy p_uz p_ig]. subst g. repeat (split; [reflexivity|]).
  pose proof (sq_nonneg x). pose proof (sq_nonneg y). pose proof (sq_nonneg z). repeat split; apply (proj2 SUB); lra.
Qed.
Lemma push_live3 FE FB mE mB sp p r : field3_is D FE mE -> field3_is D FB mB -> (p < npatches3 D)%nat -> in_patch3 D p r ->
  exists t, one rsqrt push_position_3d (loc mE mB p) (sp_q sp) (sp_m sp) (e_dt D) (load3 (live r)) = Some t /\
    canon (rowof (store3 (live r) t)) = canon (grow sp FE FB r) /\ moved3 D p (rowof (store3 (live r) t)).
Proof.
  intros HE HB Hp (x & y & z & Ex & Ey & Ez & Ix & Iy & Iz & Ax & Ay & Az). destruct (cdt3_ok D OK) as (T1 & T2 & T3 & T4). destruct (ok3_d D OK) as (D1 & D2 & D3).
  set (lc := loc mE mB p).
  set (s := load3 (live r)). assert (p_x (l_p s) = x /\ p_y (l_p s) = y /\ p_z (l_p s) = z /\ skipped s = false) as (Sx & Sy & Sz & Sk).
  { unfold s, load3, skipped. cbn [M_PartSync.row M_PartSync.dead l_p p_x p_y p_z p_dead p_nan]. rewrite Ex, Ey, Ez. auto. }
  assert (in_reach (e_nx D) (e_dx D) (qi D p) (p_x (push_position_3d (cdt3 D) (l_p s)))) as Rx.
  { cbn [push_position_3d p_x]. rewrite Sx. apply reach_half; assumption. }
  assert (in_reach (e_ny D) (e_dy D) (qj D p) (p_y (push_position_3d (cdt3 D) (l_p s)))) as Ry.
  { cbn [push_position_3d p_y]. rewrite Sy. apply reach_half; assumption. }
  assert (in_reach (e_nz D) (e_dz D) (qk D p) (p_z (push_position_3d (cdt3 D) (l_p s)))) as Rz.
  { cbn [push_position_3d p_z]. rewrite Sz. apply reach_half; assumption. }
  destruct (interp_patch3 D OK FE FB mE mB p _ _ _ HE HB Hp (reach_cells _ _ _ _ D1 Rx) (reach_cells _ _ _ _ D2 Ry) (reach_cells _ _ _ _ D3 Rz)) as (v & Ev & Sv).
  destruct (one3_eq rsqrt (proj1 SUB) lc (ginterp3 (Vx D) (Vy D) (Vz D) (e_dx D) (e_dy D) (e_dz D) FE FB) (sp_q sp) (sp_m sp) (e_dt D) s s) as (t & t' & Et & Et' & E).
  { apply canon_load3. reflexivity. }
  { intros _. cbv zeta. unfold interp_eq, lc, ginterp3. fold (cdt3 D). rewrite Ev. exact Sv. }
  exists t. split; [exact Et|]. split; [unfold grow3, gslot3; fold s; rewrite Et'; apply canon_store3; [reflexivity|exact E]|].
  unfold one in Et. rewrite Sk in Et. cbv zeta in Et. fold (cdt3 D) in Et. unfold lc in Et. rewrite Ev in Et. cbn [obind] in Et. apply some_inj in Et. subst t.
  unfold moved3, rowof, store3. cbn [M_PartSync.row px py pz other]. rewrite Ex, Ey, Ez. cbn [isnan l_p push_position_3d p_x p_y p_z p_ux p_uy p_uz p_ig b_ux b_uy b_uz b_ig].
  match goal with |- context [push_momentum rsqrt ?q ?m ?dt ?a] => destruct (momentum_slow3 q m dt a) as (M1 & M2 & M3 & _ & M4 & M5 & M6); set (u := l_p (push_momentum rsqrt q m dt a)) in * end.
  cbn [l_p] in M1, M2, M3.
  eexists. eexists. eexists. split; [reflexivity|]. split; [reflexivity|]. split; [reflexivity|]. split; [exact M4|]. split; [exact M5|]. split; [exact M6|]. rewrite M1, M2, M3.
  clearbody u. split; [|split].
  - unfold in_reach in *. set (xh := p_x (push_position_3d (cdt3 D) (l_p s))) in *. assert (xh + cdt3 D * p_ig u * p_ux u - cdt3 D * p_ig u * p_ux u == xh)%Q as -> by ring. exact Rx.
  - unfold in_reach in *. set (yh := p_y (push_position_3d (cdt3 D) (l_p s))) in *. assert (yh + cdt3 D * p_ig u * p_uy u - cdt3 D * p_ig u * p_uy u == yh)%Q as -> by ring. exact Ry.
  - unfold in_reach in *. set (zh := p_z (push_position_3d (cdt3 D) (l_p s))) in *. assert (zh + cdt3 D * p_ig u * p_uz u - cdt3 D * p_ig u * p_uz u == zh)%Q as -> by ring. exact Rz.
Qed.
Lemma push_loop3 FE FB mE mB sp p : field3_is D FE mE -> field3_is D FB mB -> (p < npatches3 D)%nat ->
  forall l : list prt, (forall r, In r (S_PartSync.alive l) -> in_patch3 D p r) ->
  exists ts, loop (one rsqrt push_position_3d (loc mE mB p) (sp_q sp) (sp_m sp) (e_dt D)) (map load3 l) = Some ts /\
    let l' := map (fun ss => store3 (fst ss) (snd ss)) (combine l ts) in
    length l' = length l /\ map canon (S_PartSync.alive l') = map (fun r => canon (grow sp FE FB r)) (S_PartSync.alive l) /\ (forall r, In r (S_PartSync.alive l') -> moved3 D p r).
Proof.
  intros HE HB Hp. induction l as [|s l IH]; intro H.
  - exists []. split; [reflexivity|]. split; [reflexivity|]. split; [reflexivity|]. intros r [].
  - destruct s as [r [|]].
    + destruct IH as (ts & E & L & M & N); [exact H|]. exists (load3 (M_PartSync.mkSlot _ r true) :: ts). cbv zeta in *. split.
      * cbn [map loop]. unfold one at 1. cbn [skipped load3 l_p p_dead M_PartSync.dead orb obind]. rewrite E. reflexivity.
      * cbn [combine map fst snd]. rewrite store_load3, !alive_cons_dead. split; [cbn [length]; f_equal; exact L|]. split; [exact M|exact N].
    + rewrite alive_cons_live in H. destruct IH as (ts & E & L & M & N); [intros r' I; apply H; right; exact I|].
      destruct (push_live3 FE FB mE mB sp p r HE HB Hp (H r (or_introl eq_refl))) as (t & Et & Ct & Mt). exists (t :: ts). cbv zeta in *. split.
      * cbn [map loop]. rewrite Et. cbn [obind]. rewrite E. reflexivity.
      * cbn [combine map fst snd].
        assert (store3 (live r) t = live (rowof (store3 (live r) t))) as -> by reflexivity. rewrite !alive_cons_live.
        split; [cbn [length]; f_equal; exact L|]. split; [cbn [map]; f_equal; [exact Ct|exact M]|]. intros r' [<-|I]; [exact Mt|exact (N r' I)].
Qed.
Lemma push_patch3_ok FE FB mE mB sp p l : sp_unified sp = true -> field3_is D FE mE -> field3_is D FB mB -> (p < npatches3 D)%nat ->
  (forall r, In r (S_PartSync.alive l) -> in_patch3 D p r) ->
  exists l', push_patch3 rsqrt D sp mE mB p l = Some l' /\ length l' = length l /\
    map canon (S_PartSync.alive l') = map (fun r => canon (grow sp FE FB r)) (S_PartSync.alive l) /\ (forall r, In r (S_PartSync.alive l') -> moved3 D p r).
Proof.
  intros U HE HB Hp H. destruct (push_loop3 FE FB mE mB sp p HE HB Hp l H) as (ts & E & L & M & N). cbv zeta in *.
  eexists. split; [|split; [exact L|split; [exact M|exact N]]].
  unfold push_patch3. rewrite U, fused_3d_loop.
  rewrite (one_ext rsqrt push_position_3d _ (loc mE mB p)) by (intro a; apply fused_interp_3d). rewrite E. reflexivity.
Qed.
End Particles.
