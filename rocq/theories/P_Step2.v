(** Whole time steps, part 2: the push of the particles of one patch. *)
From Coq Require Import QArith Qabs Qround Qcanon Permutation Lqa.
From Verif Require Import Base M_Layout M_PartSync S_PartSync M_FieldSync S_FieldSync S_Maxwell M_Deposit S_Deposit M_Push S_Push P_Deposit P_Interp P_Push P_Layout P_FieldGeo M_Step S_Step P_Step1.
Local Open Scope list_scope.
Local Open Scope Z_scope.

(** value of a field of the whole periodic grid *)
Definition gget (Nx Ny : Z) (F : nat -> list Z -> Qc) (f : nat) (a b : Z) : Q := this (F f [a mod Nx; b mod Ny]).
(** row of a patch, column of a patch *)
Notation pi D p := (pnum p mod ax_n (d_ax D)).
Notation pj D p := (pnum p / ax_n (d_ax D)).
Notation Wx D := (ax_n (d_ax D) * d_nx D).
Notation Wy D := (ax_n (d_ay D) * d_ny D).

Section Patch.
Variable D : domain2.
Hypothesis OK : domain_ok D.
Local Notation nx := (d_nx D). Local Notation ny := (d_ny D). Local Notation ng := (d_ng D).
Local Notation n := (npatches2 D).
Local Notation axes := [d_ax D; d_ay D]. Local Notation ns := [d_nx D; d_ny D].

Lemma pij p : (p < n)%nat -> 0 <= pi D p < ax_n (d_ax D) /\ 0 <= pj D p < ax_n (d_ay D).
Proof.
  intro H. pose proof (ok_n D OK) as [H1 H2]. unfold npatches2 in H. unfold pnum. split; [apply Z.mod_pos_bound; lia|].
  split; [apply Z.div_pos; lia|]. apply Z.div_lt_upper_bound; lia.
Qed.
Lemma place1_wrap a m i x : ax_lo a = Periodic -> place1 a m i x = Some ((i * m + x) mod (ax_n a * m)).
Proof.
  intro P. unfold place1. cbv zeta. rewrite P. cbn [bc_eqb].
  destruct ((0 <=? i * m + x) && (i * m + x <? ax_n a * m)) eqn:E; [|reflexivity]. rewrite Z.mod_small by lia. reflexivity.
Qed.
Lemma place_wrap p a b : place axes ns (position2 (d_ax D) p) [a; b] = Some [(pi D p * nx + a) mod Wx D; (pj D p * ny + b) mod Wy D].
Proof.
  unfold position2. cbn [place]. rewrite !place1_wrap by (apply (ok_px D OK) || apply (ok_py D OK)). reflexivity.
Qed.
Lemma within2 a b : within ng ns [a; b] <-> (- ng <= a < nx + ng) /\ (- ng <= b < ny + ng).
Proof.
  split; [intro H|intros [H1 H2]; constructor; [exact H1|constructor; [exact H2|constructor]]].
  inversion H as [|? ? ? ? H1 H2]; subst. inversion H2 as [|? ? ? ? H3 _]; subst. auto.
Qed.
Lemma index_in a b : within ng ns [a; b] -> 0 <= INDEX2 (nx + 2 * ng) (ny + 2 * ng) a b < (nx + 2 * ng) * (ny + 2 * ng).
Proof.
  intro W. apply within2 in W as [H1 H2]. destruct (ok_g D OK) as (G1 & G2 & G3). unfold INDEX2.
  destruct (Z.leb_spec 0 b), (Z.leb_spec 0 a); nia.
Qed.
Lemma array_read m f p o : 0 <= o < (nx + 2 * ng) * (ny + 2 * ng) -> rd (array_of D m f p) o = Some (this (m (Fld f p o))).
Proof.
  intro H. unfold rd, array_of. destruct (Z.ltb_spec o 0); [lia|]. unfold zseq. rewrite map_map.
  erewrite map_nth_error; [|rewrite nth_error_nth' with (d := 0%nat) by (rewrite seq_length; lia); rewrite seq_nth by lia; reflexivity].
  cbn [Nat.add]. rewrite Z2Nat.id by lia. reflexivity.
Qed.
Lemma field_read F m f p a b : field_is D F m -> (f < 3)%nat -> (p < n)%nat -> within ng ns [a; b] ->
  rd (array_of D m f p) (INDEX2 (nx + 2 * ng) (ny + 2 * ng) a b) = Some (gget (Wx D) (Wy D) F f (pi D p * nx + a) (pj D p * ny + b)).
Proof.
  intros FI Hf Hp W. rewrite array_read by (apply index_in; exact W). specialize (FI f p [a; b] Hf Hp W).
  unfold shown in FI. rewrite place_wrap in FI. unfold gget. rewrite <- FI. reflexivity.
Qed.
Lemma interp_patch FE FB mE mB p x y : field_is D FE mE -> field_is D FB mB -> (p < n)%nat ->
  (-1 <= (x - g_x0 (grid_of D p)) / d_dx D <= inject_Z nx)%Q -> (-1 <= (y - g_y0 (grid_of D p)) / d_dy D <= inject_Z ny)%Q ->
  exists v, interpolation_2d (grid_of D p) (fields_of D mE mB p) x y = Some v /\
    same6 v (gat (gget (Wx D) (Wy D) FE) (gget (Wx D) (Wy D) FB) (x / d_dx D) (y / d_dy D)).
Proof.
  intros HE HB Hp [X1 X2] [Y1 Y2]. unfold interpolation_2d.
  set (X := ((x - g_x0 (grid_of D p)) / d_dx D)%Q) in *. set (Y := ((y - g_y0 (grid_of D p)) / d_dy D)%Q) in *.
  change ((x - g_x0 (grid_of D p)) / g_dx (grid_of D p))%Q with X. change ((y - g_y0 (grid_of D p)) / g_dy (grid_of D p))%Q with Y.
  destruct (ok_g D OK) as (G1 & G2 & G3). destruct (ok_d D OK) as [D1 D2].
  set (E := fun f a b => gget (Wx D) (Wy D) FE f (pi D p * nx + a) (pj D p * ny + b)).
  set (B := fun f a b => gget (Wx D) (Wy D) FB f (pi D p * nx + a) (pj D p * ny + b)).
  pose proof (Qfloor_resp_le _ _ X1) as FX1. change (Qfloor (-1)) with (-1) in FX1. pose proof (Qfloor_resp_le _ _ X2) as FX2. rewrite Qfloor_Z in FX2.
  pose proof (Qfloor_resp_le _ _ Y1) as FY1. change (Qfloor (-1)) with (-1) in FY1. pose proof (Qfloor_resp_le _ _ Y2) as FY2. rewrite Qfloor_Z in FY2.
  exists (gat E B X Y). split.
  - apply interp_total. intros a b Ha Hb. assert (within ng ns [a; b]) as W by (apply within2; lia).
    unfold fields_of. cbn [s_ex s_ey s_ez s_bx s_by s_bz]. unfold E, B. cbn [grid_of g_nx g_ny].
    rewrite !(field_read FE mE) by (auto with arith). rewrite !(field_read FB mB) by (auto with arith). auto 10.
  - apply (gat_shift _ _ _ _ _ _ _ _ (pi D p * nx) (pj D p * ny)).
    + unfold X. cbn [grid_of g_x0]. field. lra.
    + unfold Y. cbn [grid_of g_y0]. field. lra.
    + intros f a b _ _ _. unfold E, B. rewrite (Z.add_comm a), (Z.add_comm b). split; reflexivity.
Qed.
End Patch.

(** * Rows *)
Notation live r := (M_PartSync.mkSlot (prow body) r false).
Lemma canon_load r r' : canon r = canon r' -> pslot_eq (load (live r)) (load (live r')).
Proof.
  destruct r as [x y z b], r' as [x' y' z' b']. destruct b as [ux uy uz ig w f id], b' as [ux' uy' uz' ig' w' f' id']. destruct f as [f1 f2 f3 f4 f5 f6], f' as [e1 e2 e3 e4 e5 e6].
  unfold canon, canon_body, canon6. cbn [px py pz other b_ux b_uy b_uz b_ig b_w b_f b_id s_ex s_ey s_ez s_bx s_by s_bz]. intro H.
  injection H as Hx Hy Hz H1 H2 H3 H4 H5 H6 H7 H8 H9 H10 H11 _.
  assert (forall a b, Qred a = Qred b -> (a == b)%Q) as R by (intros a b E; rewrite <- (Qred_correct a), <- (Qred_correct b), E; reflexivity).
  assert (forall a b, option_map Qred a = option_map Qred b -> (val a == val b)%Q /\ isnan a = isnan b) as O.
  { intros [a|] [b|] E; cbn [option_map] in E; try discriminate; cbn [val isnan]; [|split; reflexivity]. injection E as E. split; [apply R; exact E|reflexivity]. }
  destruct (O _ _ Hx) as [X1 X2]. destruct (O _ _ Hy) as [Y1 Y2]. destruct (O _ _ Hz) as [Z1 _].
  unfold load, pslot_eq, part_eq, same6. cbn [M_PartSync.row M_PartSync.dead px py pz other b_ux b_uy b_uz b_ig b_w b_f l_p l_f p_x p_y p_z p_ux p_uy p_uz p_ig p_w p_dead p_nan s_ex s_ey s_ez s_bx s_by s_bz].
  rewrite X2, Y2. split; repeat split; auto.
Qed.
Lemma canon_store r r' t t' : canon r = canon r' -> pslot_eq t t' -> canon (rowof (store (live r) t)) = canon (rowof (store (live r') t')).
Proof.
  destruct r as [x y z b], r' as [x' y' z' b']. destruct b as [ux uy uz ig w f id], b' as [ux' uy' uz' ig' w' f' id'].
  intros H [(K1 & K2 & K3 & K4 & K5 & K6 & K7 & K8 & _) (F1 & F2 & F3 & F4 & F5 & F6)].
  unfold canon, canon_body in H. cbn [px py pz other b_ux b_uy b_uz b_ig b_w b_f b_id] in H. injection H as Hx Hy Hz _ _ _ _ H5 _ _ _ _ _ _ H6.
  assert (isnan x = isnan x') as NX by (destruct x, x'; cbn [option_map] in Hx; try discriminate; reflexivity).
  assert (isnan y = isnan y') as NY by (destruct y, y'; cbn [option_map] in Hy; try discriminate; reflexivity).
  unfold rowof, store, canon, canon_body, canon6. cbn [M_PartSync.row px py pz other b_ux b_uy b_uz b_ig b_w b_f b_id].
  rewrite NX, NY, Hz, H5, H6, (qred_eq _ _ K4), (qred_eq _ _ K5), (qred_eq _ _ K6), (qred_eq _ _ K7), (qred_eq _ _ F1), (qred_eq _ _ F2), (qred_eq _ _ F3), (qred_eq _ _ F4), (qred_eq _ _ F5), (qred_eq _ _ F6).
  destruct (isnan x'), (isnan y'); cbn [option_map]; rewrite ?(qred_eq _ _ K1), ?(qred_eq _ _ K2); reflexivity.
Qed.
Lemma canon_idem r : canon (canon r) = canon r.
Proof.
  assert (forall q, Qred (Qred q) = Qred q) as R by (intro q; apply Qred_complete, Qred_correct).
  destruct r as [x y z b]. unfold canon. cbn [px py pz other]. f_equal.
  - destruct x; cbn [option_map]; rewrite ?R; reflexivity.
  - destruct y; cbn [option_map]; rewrite ?R; reflexivity.
  - destruct z; cbn [option_map]; rewrite ?R; reflexivity.
  - unfold canon_body, canon6. cbn [b_ux b_uy b_uz b_ig b_w b_f b_id s_ex s_ey s_ez s_bx s_by s_bz]. rewrite !R. reflexivity.
Qed.
Lemma store_load s : store s (load s) = s.
Proof.
  destruct s as [[x y z b] d]. destruct b as [ux uy uz ig w f id]. unfold store, load. cbn [M_PartSync.row M_PartSync.dead px py pz other l_p l_f p_x p_y p_ux p_uy p_uz p_ig b_w b_id b_ux b_uy b_uz b_ig b_f].
  destruct x, y; reflexivity.
Qed.
Lemma one_flags rsqrt i q m dt s t : one rsqrt push_position_2d i q m dt s = Some t -> p_dead (l_p t) = p_dead (l_p s) /\ p_nan (l_p t) = p_nan (l_p s).
Proof.
  unfold one. destruct (skipped s); [intros [= <-]; auto|]. cbv zeta. destruct (i _) as [f|]; [|discriminate]. cbn [obind].
  intro E. apply some_inj in E. subst t. cbn [l_p push_position_2d p_dead p_nan].
  match goal with |- context [push_momentum rsqrt q m dt ?x] => destruct (momentum_flags rsqrt q m dt x) as [M1 M2]; rewrite M1, M2 end. auto.
Qed.

Section Global.
Variable rsqrt : Q -> Q.
Hypothesis SUB : subluminal rsqrt.
Variables (Nx Ny : Z) (dx dy dt : Q).
(** the push of one particle on the whole grid *)
Definition ginterp (FE FB : nat -> list Z -> Qc) (p : part) : option (six Q) :=
  Some (gat (gget Nx Ny FE) (gget Nx Ny FB) (p_x p / dx) (p_y p / dy)).
Definition gslot (sp : species) FE FB (s : M_Push.slot) : M_Push.slot :=
  match one rsqrt push_position_2d (ginterp FE FB) (sp_q sp) (sp_m sp) dt s with Some t => t | None => s end.
Definition grow (sp : species) FE FB (r : prow body) : prow body := rowof (store (live r) (gslot sp FE FB (load (live r)))).
Lemma grow_eq sp FE FB r r' : canon r = canon r' -> canon (grow sp FE FB r) = canon (grow sp FE FB r').
Proof.
  intro H. unfold grow. apply canon_store; [exact H|]. unfold gslot.
  destruct (one_eq rsqrt (proj1 SUB) (ginterp FE FB) (ginterp FE FB) (sp_q sp) (sp_m sp) dt _ _ (canon_load r r' H)) as (t & t' & -> & -> & E); [|exact E].
  intro S. cbv zeta. unfold interp_eq, ginterp.
  destruct (move_eq (LIGHT_SPEED * (1 # 2) * dt) _ _ (proj1 (canon_load r r' H))) as (K1 & K2 & _).
  apply gat_eq; [rewrite K1; reflexivity|rewrite K2; reflexivity].
Qed.
Lemma grow_canon sp FE FB r : canon (grow sp FE FB (canon r)) = canon (grow sp FE FB r).
Proof. apply grow_eq, canon_idem. Qed.
End Global.

(** * The particles of one patch *)
Definition in_patch (D : domain2) (p : nat) (r : prow body) : Prop :=
  exists x y, px _ r = Some x /\ py _ r = Some y /\
    in_cells (d_nx D) (d_dx D) (pi D p) x /\ in_cells (d_ny D) (d_dy D) (pj D p) y /\
    (Qabs (b_ux (other _ r) * b_ig (other _ r)) <= 1)%Q /\ (Qabs (b_uy (other _ r) * b_ig (other _ r)) <= 1)%Q.
(** after the push: half a step ago the particle was at most half a cell away from the cells of its patch *)
Definition in_reach (m : Z) (dx : Q) (i : Z) (x : Q) : Prop := (cell_edge m dx i - dx / 2 <= x)%Q /\ (x <= cell_edge m dx (i + 1) + dx / 2)%Q.
Definition cdt2 (D : domain2) : Q := (LIGHT_SPEED * (1#2) * d_dt D)%Q.
Definition moved (D : domain2) (p : nat) (r : prow body) : Prop :=
  exists x y, px _ r = Some x /\ py _ r = Some y /\
    (Qabs (b_ux (other _ r) * b_ig (other _ r)) <= 1)%Q /\ (Qabs (b_uy (other _ r) * b_ig (other _ r)) <= 1)%Q /\
    in_reach (d_nx D) (d_dx D) (pi D p) (x - cdt2 D * b_ig (other _ r) * b_ux (other _ r)) /\
    in_reach (d_ny D) (d_dy D) (pj D p) (y - cdt2 D * b_ig (other _ r) * b_uy (other _ r)).

Lemma half_cell k g u d : (0 < k)%Q -> (k <= d / 2)%Q -> (Qabs (u * g) <= 1)%Q -> (- (d / 2) <= k * g * u /\ k * g * u <= d / 2)%Q.
Proof.
  intros H1 H2 H. apply Qabs_Qle_condition in H. destruct H as [A B].
  assert (k * g * u == k * (u * g))%Q as E by ring. rewrite E. set (v := (u * g)%Q) in *. clearbody v.
  split.
  - apply Qle_trans with (k * - (1))%Q; [lra|]. rewrite Qmult_comm, (Qmult_comm k). apply Qmult_le_compat_r; lra.
  - apply Qle_trans with (k * 1)%Q; [rewrite Qmult_comm, (Qmult_comm k); apply Qmult_le_compat_r; lra|lra].
Qed.
Lemma cdt2_ok D : domain_ok D -> (0 < cdt2 D /\ cdt2 D <= d_dx D / 2 /\ cdt2 D <= d_dy D / 2)%Q.
Proof.
  intro OK. destruct (ok_t D OK) as (T1 & T2 & T3). unfold cdt2. assert (LIGHT_SPEED * (1#2) * d_dt D == (LIGHT_SPEED * d_dt D) / 2)%Q as E by field.
  rewrite E. assert (0 < LIGHT_SPEED * d_dt D)%Q by (apply Qmult_lt_0_compat; [reflexivity|exact T1]).
  set (v := (LIGHT_SPEED * d_dt D)%Q) in *. clearbody v. unfold Qdiv. change (/ 2)%Q with (1#2)%Q. repeat split; lra.
Qed.
Lemma reach_half m d i k g u x : (0 < k)%Q -> (k <= d / 2)%Q -> (Qabs (u * g) <= 1)%Q -> in_cells m d i x -> in_reach m d i (x + k * g * u).
Proof. intros H1 H2 H3 [I1 I2]. destruct (half_cell k g u d H1 H2 H3) as [A B]. unfold in_reach. split; lra. Qed.
Lemma reach_cells m d i x : (0 < d)%Q -> in_reach m d i x -> (-1 <= (x - inject_Z (i * m) * d) / d <= inject_Z m)%Q.
Proof.
  intros H [A B]. unfold cell_edge in *. replace ((i + 1) * m) with (i * m + m) in B by ring. rewrite inject_Z_plus in B.
  set (k := inject_Z (i * m)) in *. set (w := inject_Z m) in *. clearbody k w. unfold Qdiv in *. change (/ 2)%Q with (1#2)%Q in *.
  split.
  - apply Qle_shift_div_l; [exact H|]. lra.
  - apply Qle_shift_div_r; [exact H|]. lra.
Qed.

Section Particles.
Variable rsqrt : Q -> Q.
Hypothesis SUB : subluminal rsqrt.
Variable D : domain2.
Hypothesis OK : domain_ok D.
Local Notation grow := (grow rsqrt (Wx D) (Wy D) (d_dx D) (d_dy D) (d_dt D)).
Local Notation pushp FE FB sp := (one rsqrt push_position_2d (ginterp (Wx D) (Wy D) (d_dx D) (d_dy D) FE FB) (sp_q sp) (sp_m sp) (d_dt D)).

Lemma boris_gamma e b u E B : let '((x, y, z), g) := boris_core (Qnums rsqrt) e b u E B in g = rsqrt (1 + x * x + y * y + z * z)%Q.
Proof. destruct u as [[u0 u1] u2], E as [[E0 E1] E2], B as [[B0 B1] B2]. reflexivity. Qed.
Lemma sq_nonneg (a : Q) : (0 <= a * a)%Q.
Proof. unfold Qle, Qmult. cbn. nia. Qed.
Lemma momentum_slow q m dt s : let p := l_p (push_momentum rsqrt q m dt s) in
  p_x p = p_x (l_p s) /\ p_y p = p_y (l_p s) /\ p_z p = p_z (l_p s) /\ p_w p = p_w (l_p s) /\
  (Qabs (p_ux p * p_ig p) <= 1)%Q /\ (Qabs (p_uy p * p_ig p) <= 1)%Q.
Proof.
  cbv zeta. unfold push_momentum, boris_inline. cbv zeta.
  match goal with |- context [boris_core ?N ?e ?b ?u ?E ?B] => pose proof (boris_gamma e b u E B) as G; destruct (boris_core N e b u E B) as [[[x y] z] g] end.
  cbn [l_p p_x p_y p_z p_w p_ux p_uy p_ig]. subst g. repeat (split; [reflexivity|]).
  pose proof (sq_nonneg x). pose proof (sq_nonneg y). pose proof (sq_nonneg z). split; apply (proj2 SUB); lra.
Qed.
Lemma push_live FE FB mE mB sp p r : field_is D FE mE -> field_is D FB mB -> (p < npatches2 D)%nat -> in_patch D p r ->
  exists t, one rsqrt push_position_2d (fun a => interpolation_2d (grid_of D p) (fields_of D mE mB p) (p_x a) (p_y a)) (sp_q sp) (sp_m sp) (d_dt D) (load (live r)) = Some t /\
    canon (rowof (store (live r) t)) = canon (grow sp FE FB r) /\ moved D p (rowof (store (live r) t)).
Proof.
  intros HE HB Hp (x & y & Ex & Ey & Ix & Iy & Vx & Vy). destruct (cdt2_ok D OK) as (T1 & T2 & T3). destruct (ok_d D OK) as [D1 D2].
  set (loc := fun a => interpolation_2d (grid_of D p) (fields_of D mE mB p) (p_x a) (p_y a)).
  set (s := load (live r)). assert (p_x (l_p s) = x /\ p_y (l_p s) = y /\ skipped s = false) as (Sx & Sy & Sk).
  { unfold s, load, skipped. cbn [M_PartSync.row M_PartSync.dead l_p p_x p_y p_dead p_nan]. rewrite Ex, Ey. auto. }
  assert (in_reach (d_nx D) (d_dx D) (pi D p) (p_x (push_position_2d (cdt2 D) (l_p s)))) as Rx.
  { cbn [push_position_2d p_x]. rewrite Sx. apply reach_half; assumption. }
  assert (in_reach (d_ny D) (d_dy D) (pj D p) (p_y (push_position_2d (cdt2 D) (l_p s)))) as Ry.
  { cbn [push_position_2d p_y]. rewrite Sy. apply reach_half; assumption. }
  destruct (interp_patch D OK FE FB mE mB p _ _ HE HB Hp (reach_cells _ _ _ _ D1 Rx) (reach_cells _ _ _ _ D2 Ry)) as (v & Ev & Sv).
  destruct (one_eq rsqrt (proj1 SUB) loc (ginterp (Wx D) (Wy D) (d_dx D) (d_dy D) FE FB) (sp_q sp) (sp_m sp) (d_dt D) s s) as (t & t' & Et & Et' & E).
  { apply canon_load. reflexivity. }
  { intros _. cbv zeta. unfold interp_eq, loc, ginterp. fold (cdt2 D). rewrite Ev. exact Sv. }
  exists t. split; [exact Et|]. split; [unfold grow, P_Step2.grow, gslot; fold s; rewrite Et'; apply canon_store; [reflexivity|exact E]|].
  unfold one in Et. rewrite Sk in Et. cbv zeta in Et. fold (cdt2 D) in Et. unfold loc in Et. rewrite Ev in Et. cbn [obind] in Et. apply some_inj in Et. subst t.
  unfold moved, rowof, store. cbn [M_PartSync.row px py other]. rewrite Ex, Ey. cbn [isnan l_p push_position_2d p_x p_y p_ux p_uy p_ig b_ux b_uy b_ig].
  match goal with |- context [push_momentum rsqrt ?q ?m ?dt ?a] => destruct (momentum_slow q m dt a) as (M1 & M2 & _ & _ & M3 & M4); set (u := l_p (push_momentum rsqrt q m dt a)) in * end.
  cbn [l_p] in M1, M2.
  eexists. eexists. split; [reflexivity|]. split; [reflexivity|]. split; [exact M3|]. split; [exact M4|]. rewrite M1, M2.
  clearbody u. split.
  - unfold in_reach in *. set (xh := p_x (push_position_2d (cdt2 D) (l_p s))) in *. assert (xh + cdt2 D * p_ig u * p_ux u - cdt2 D * p_ig u * p_ux u == xh)%Q as -> by ring. exact Rx.
  - unfold in_reach in *. set (yh := p_y (push_position_2d (cdt2 D) (l_p s))) in *. assert (yh + cdt2 D * p_ig u * p_uy u - cdt2 D * p_ig u * p_uy u == yh)%Q as -> by ring. exact Ry.
Qed.

Lemma alive_cons_live r (l : list prt) : S_PartSync.alive (live r :: l) = r :: S_PartSync.alive l.
Proof. reflexivity. Qed.
Lemma alive_cons_dead r (l : list prt) : S_PartSync.alive (M_PartSync.mkSlot _ r true :: l) = S_PartSync.alive l.
Proof. reflexivity. Qed.
Lemma push_loop FE FB mE mB sp p : field_is D FE mE -> field_is D FB mB -> (p < npatches2 D)%nat ->
  forall l : list prt, (forall r, In r (S_PartSync.alive l) -> in_patch D p r) ->
  exists ts, loop (one rsqrt push_position_2d (fun a => interpolation_2d (grid_of D p) (fields_of D mE mB p) (p_x a) (p_y a)) (sp_q sp) (sp_m sp) (d_dt D)) (map load l) = Some ts /\
    let l' := map (fun ss => store (fst ss) (snd ss)) (combine l ts) in
    length l' = length l /\ map canon (S_PartSync.alive l') = map (fun r => canon (grow sp FE FB r)) (S_PartSync.alive l) /\ (forall r, In r (S_PartSync.alive l') -> moved D p r).
Proof.
  intros HE HB Hp. induction l as [|s l IH]; intro H.
  - exists []. split; [reflexivity|]. split; [reflexivity|]. split; [reflexivity|]. intros r [].
  - destruct s as [r [|]].
    + destruct IH as (ts & E & L & M & N); [exact H|]. exists (load (M_PartSync.mkSlot _ r true) :: ts). cbv zeta in *. split.
      * cbn [map loop]. unfold one at 1. cbn [skipped load l_p p_dead M_PartSync.dead orb obind]. rewrite E. reflexivity.
      * cbn [combine map fst snd]. rewrite store_load, !alive_cons_dead. split; [cbn [length]; f_equal; exact L|]. split; [exact M|exact N].
    + rewrite alive_cons_live in H. destruct IH as (ts & E & L & M & N); [intros r' I; apply H; right; exact I|].
      destruct (push_live FE FB mE mB sp p r HE HB Hp (H r (or_introl eq_refl))) as (t & Et & Ct & Mt). exists (t :: ts). cbv zeta in *. split.
      * cbn [map loop]. rewrite Et. cbn [obind]. rewrite E. reflexivity.
      * cbn [combine map fst snd].
        assert (store (live r) t = live (rowof (store (live r) t))) as -> by reflexivity. rewrite !alive_cons_live.
        split; [cbn [length]; f_equal; exact L|]. split; [cbn [map]; f_equal; [exact Ct|exact M]|]. intros r' [<-|I]; [exact Mt|exact (N r' I)].
Qed.
Lemma alive_in (s : prt) l : In s l -> M_PartSync.dead _ s = false -> In (M_PartSync.row _ s) (S_PartSync.alive l).
Proof. intros I E. unfold S_PartSync.alive. apply in_map. apply filter_In. split; [exact I|]. rewrite E. reflexivity. Qed.
Lemma push_patch_ok FE FB mE mB sp p l : field_is D FE mE -> field_is D FB mB -> (p < npatches2 D)%nat ->
  (forall r, In r (S_PartSync.alive l) -> in_patch D p r) ->
  exists l', push_patch rsqrt D sp mE mB p l = Some l' /\ length l' = length l /\
    map canon (S_PartSync.alive l') = map (fun r => canon (grow sp FE FB r)) (S_PartSync.alive l) /\ (forall r, In r (S_PartSync.alive l') -> moved D p r).
Proof.
  intros HE HB Hp H. destruct (push_loop FE FB mE mB sp p HE HB Hp l H) as (ts & E & L & M & N). cbv zeta in *.
  eexists. split; [|split; [exact L|split; [exact M|exact N]]].
  assert (defined_when_alive (map load l)) as W.
  { intros s I A. apply in_map_iff in I. destruct I as (s0 & <- & I). unfold load in *. cbn [l_p p_dead p_nan] in *.
    destruct (H _ (alive_in s0 l I A)) as (x & y & -> & -> & _). reflexivity. }
  unfold push_patch.
  assert ((if sp_unified sp then fused_push_2d else staged_push_2d) rsqrt (grid_of D p) (fields_of D mE mB p) (sp_q sp) (sp_m sp) (d_dt D) (map load l) = Some ts) as ->; [|reflexivity].
  assert (staged_push_2d rsqrt (grid_of D p) (fields_of D mE mB p) (sp_q sp) (sp_m sp) (d_dt D) (map load l) = Some ts) as S.
  { unfold staged_push_2d. rewrite <- E. cbv zeta. apply (staged_one rsqrt push_position_2d flags_2d (fun a => interpolation_2d (grid_of D p) (fields_of D mE mB p) (p_x a) (p_y a)) (sp_q sp) (sp_m sp) (d_dt D) (map load l) W). }
  destruct (sp_unified sp); [rewrite push_same_2d by exact W|]; exact S.
Qed.
End Particles.
