(** Gauss' law with open sides in 3D, part 2: charge and current of particles on the whole grid. *)
From Coq Require Import QArith Qabs Qround Qcanon Permutation Lqa.
From Verif Require Import Base M_Layout S_Layout M_PartSync S_PartSync M_FieldSync S_FieldSync M_Maxwell S_Maxwell M_Cpml S_Cpml M_Deposit S_Deposit M_Push S_Push P_Layout P_FieldGeo P_Maxwell P_Maxwell3 P_Deposit P_Deposit2 P_Deposit5 P_Push M_Step S_Step M_Step3D S_Step3D M_StepO S_StepO M_StepO3D S_StepO3D P_Step1 P_Step2 P_Step3 P_Step4 P_Step5 P_Step6 P_Step7 P_Step8 P_StepD1 P_StepD2 P_StepD3 P_StepD4 P_StepD5 P_StepD6 P_StepD7 S_Gauss S_GaussO S_Gauss3D S_GaussO3D P_Gauss1 P_Gauss2 P_GaussD1 P_GaussD2 P_StepO1 P_StepO2 P_StepO3 P_StepO4 P_StepQ1 P_StepQ2 P_StepQ3 P_StepQ4 P_GaussO1 P_GaussO2 P_GaussQ1.
Local Open Scope list_scope.
Local Open Scope Z_scope.

Definition big3 (D : domain3) (M : Z) : domain3 :=
  mkDomain3 (mkAxis 1 Periodic Periodic) (mkAxis 1 Periodic Periodic) (mkAxis 1 Periodic Periodic) (long (e_ax D) (cells3_x D) M) (long (e_ay D) (cells3_y D) M) (long (e_az D) (cells3_z D) M) (e_ng D) (e_dx D) (e_dy D) (e_dz D) (e_dt D).
Lemma big3_x D M : cells3_x (big3 D M) = long (e_ax D) (cells3_x D) M. Proof. unfold cells3_x at 1. cbn [big3 e_ax e_nx ax_n]. apply Z.mul_1_l. Qed.
Lemma big3_y D M : cells3_y (big3 D M) = long (e_ay D) (cells3_y D) M. Proof. unfold cells3_y at 1. cbn [big3 e_ay e_ny ax_n]. apply Z.mul_1_l. Qed.
Lemma big3_z D M : cells3_z (big3 D M) = long (e_az D) (cells3_z D) M. Proof. unfold cells3_z at 1. cbn [big3 e_az e_nz ax_n]. apply Z.mul_1_l. Qed.

Lemma upper (l : list Z) : exists M, forall z, In z l -> z < M.
Proof.
  induction l as [|x l (M & IH)]; [exists 0; intros z []|]. exists (Z.max M (x + 1)). intros z [<-|I]; [lia|]. specialize (IH z I). lia.
Qed.

Section Particle.
Variable K : layer Qc. Variable D : domain3. Variable pmls : nat -> list pml_side.
Hypothesis OK : open3_ok K D pmls.
Local Notation Nx := (cells3_x D). Local Notation Ny := (cells3_y D). Local Notation Nz := (cells3_z D). Local Notation dx := (e_dx D). Local Notation dy := (e_dy D). Local Notation dz := (e_dz D). Local Notation dt := (e_dt D). Local Notation th := (thick K).
Local Notation dep := (odep3 (PL3 D) dx dy dz dt).
Local Notation CO q h i j k r := (charge_of_o3 D q h i j k r).
Lemma big3_ok M : e_ng D <= M -> domain3_ok (big3 D M).
Proof.
  intro HM. destruct (oo3_n K D pmls OK) as (N1 & N2 & N3). destruct (oo3_g K D pmls OK) as (G1 & G2 & G3 & G4).
  assert (e_ng D <= Nx) by (unfold cells3_x; nia). assert (e_ng D <= Ny) by (unfold cells3_y; nia). assert (e_ng D <= Nz) by (unfold cells3_z; nia).
  constructor; cbn [big3 e_ax e_ay e_az e_nx e_ny e_nz e_ng e_dx e_dy e_dz e_dt ax_n ax_lo ax_hi]; auto; try lia.
  - unfold long. destruct (is_open (e_ax D)), (is_open (e_ay D)), (is_open (e_az D)); lia.
  - exact (oo3_d K D pmls OK).
  - exact (oo3_t K D pmls OK).
Qed.
Local Notation W0 := (whole3 0 0 0 dx dy dz).
Lemma odep3_big M sp r f a b c : 0 <= a < Nx -> 0 <= b < Ny -> 0 <= c < Nz ->
  Z.abs (m_ix W0 dt (bare3 r)) + Nx + 10 < M -> Z.abs (m_iy W0 dt (bare3 r)) + Ny + 10 < M -> Z.abs (m_iz W0 dt (bare3 r)) + Nz + 10 < M ->
  (dep sp r f [a; b; c] == gdep3 (cells3_x (big3 D M)) (cells3_y (big3 D M)) (cells3_z (big3 D M)) dx dy dz dt sp r f [a; b; c])%Q.
Proof.
  intros Ha Hb Hc M1 M2 M3. rewrite big3_x, big3_y, big3_z. destruct (oo3_d K D pmls OK) as (D1 & D2 & D3). set (X := long (e_ax D) Nx M). set (Y := long (e_ay D) Ny M). set (Z := long (e_az D) Nz M).
  destruct (kernel_shift3 W0 (whole3 X Y Z dx dy dz) dt (sp_q sp) (bare3 r) (bare3 r) 0 0 0) as (K1 & K2 & K3 & F);
    [repeat (split; [reflexivity|]); reflexivity|reflexivity|reflexivity|reflexivity|exact D1|exact D2|exact D3|cbn [whole3 h_x0 h_dx]; ring|cbn [whole3 h_y0 h_dy]; ring|cbn [whole3 h_z0 h_dz]; ring|].
  unfold odep3, gdep3. cbv zeta. rewrite K1, K2, K3, !Z.add_0_r. apply (qsum_forall2 ev_eq3); [exact F|]. intros e e' I H. pose proof H as (Ei & Ej & Ek & _). destruct (mevs_in _ _ _ _ _ I) as (I1 & I2 & I3). rewrite <- Ei, <- Ej, <- Ek.
  set (i := m_ix W0 dt (bare3 r)) in *. set (j := m_iy W0 dt (bare3 r)) in *. set (k := m_iz W0 dt (bare3 r)) in *. rewrite list_eqb3.
  set (u := i + (Z.of_nat (e_i e) - 2)). set (v := j + (Z.of_nat (e_j e) - 2)). set (w := k + (Z.of_nat (e_k e) - 2)).
  assert (Z.abs u + Nx < M) as U1 by (clear - M1 I1; unfold u; lia). assert (Z.abs v + Ny < M) as U2 by (clear - M2 I2; unfold v; lia). assert (Z.abs w + Nz < M) as U3 by (clear - M3 I3; unfold w; lia).
  pose proof (axis_hit (e_ax D) (e_nx D) M u a Ha U1) as A1. pose proof (axis_hit (e_ay D) (e_ny D) M v b Hb U2) as A2. pose proof (axis_hit (e_az D) (e_nz D) M w c Hc U3) as A3.
  fold Nx in A1. fold Ny in A2. fold Nz in A3. fold X in A1. fold Y in A2. fold Z in A3. rewrite <- A1, <- A2, <- A3. unfold PL3. cbn [place].
  destruct (place1 (e_ax D) (e_nx D) 0 u) as [g1|]; cbn [andb]; [|reflexivity]. destruct (place1 (e_ay D) (e_ny D) 0 v) as [g2|]; [|rewrite andb_false_r; reflexivity].
  destruct (place1 (e_az D) (e_nz D) 0 w) as [g3|]; [|rewrite andb_false_r; reflexivity].
  rewrite list_eqb3. destruct (_ && _); [|reflexivity]. apply prf_eq3. exact H.
Qed.
Definition XX3 (h : Q) (r : prow body) : Q := ((val (px _ r) + h * (b_ux (other _ r) * LIGHT_SPEED * b_ig (other _ r)) * dt) / dx)%Q.
Definition YY3 (h : Q) (r : prow body) : Q := ((val (py _ r) + h * (b_uy (other _ r) * LIGHT_SPEED * b_ig (other _ r)) * dt) / dy)%Q.
Definition ZZ3 (h : Q) (r : prow body) : Q := ((val (pz _ r) + h * (b_uz (other _ r) * LIGHT_SPEED * b_ig (other _ r)) * dt) / dz)%Q.
Lemma charge3_big M q h a b c r : 0 <= a < Nx -> 0 <= b < Ny -> 0 <= c < Nz -> Z.abs (Qfloor (XX3 h r)) + Nx + 10 < M -> Z.abs (Qfloor (YY3 h r)) + Ny + 10 < M -> Z.abs (Qfloor (ZZ3 h r)) + Nz + 10 < M ->
  (CO q h a b c r == charge_of3 (big3 D M) q h a b c r)%Q.
Proof.
  intros Ha Hb Hc M1 M2 M3. unfold charge_of_o3, charge_of3. cbv zeta. rewrite big3_x, big3_y, big3_z. cbn [big3 e_dx e_dy e_dz e_dt]. fold (XX3 h r). fold (YY3 h r). fold (ZZ3 h r).
  rewrite (axis_share (e_ax D) Nx M a (XX3 h r) Ha M1), (axis_share (e_ay D) Ny M b (YY3 h r) Hb M2), (axis_share (e_az D) Nz M c (ZZ3 h r) Hc M3). reflexivity.
Qed.
Lemma size3_for r : exists M, e_ng D <= M /\ Z.abs Nx < M /\ Z.abs Ny < M /\ Z.abs Nz < M /\
  Z.abs (m_ix W0 dt (bare3 r)) + Nx + 10 < M /\ Z.abs (m_iy W0 dt (bare3 r)) + Ny + 10 < M /\ Z.abs (m_iz W0 dt (bare3 r)) + Nz + 10 < M /\
  (forall h, h = (1#2)%Q \/ h = (-1#2)%Q -> Z.abs (Qfloor (XX3 h r)) + Nx + 10 < M /\ Z.abs (Qfloor (YY3 h r)) + Ny + 10 < M /\ Z.abs (Qfloor (ZZ3 h r)) + Nz + 10 < M).
Proof.
  destruct (upper ([e_ng D; Z.abs Nx; Z.abs Ny; Z.abs Nz; Z.abs (m_ix W0 dt (bare3 r)) + Nx + 10; Z.abs (m_iy W0 dt (bare3 r)) + Ny + 10; Z.abs (m_iz W0 dt (bare3 r)) + Nz + 10] ++
    [Z.abs (Qfloor (XX3 (1#2) r)) + Nx + 10; Z.abs (Qfloor (YY3 (1#2) r)) + Ny + 10; Z.abs (Qfloor (ZZ3 (1#2) r)) + Nz + 10; Z.abs (Qfloor (XX3 (-1#2) r)) + Nx + 10; Z.abs (Qfloor (YY3 (-1#2) r)) + Ny + 10; Z.abs (Qfloor (ZZ3 (-1#2) r)) + Nz + 10])) as (M & HM).
  exists M. cbn [List.app] in HM. split; [apply Z.lt_le_incl, HM; left; reflexivity|].
  split; [apply HM; do 1 right; left; reflexivity|]. split; [apply HM; do 2 right; left; reflexivity|]. split; [apply HM; do 3 right; left; reflexivity|].
  split; [apply HM; do 4 right; left; reflexivity|]. split; [apply HM; do 5 right; left; reflexivity|]. split; [apply HM; do 6 right; left; reflexivity|].
  intros h [->| ->].
  - split; [apply HM; do 7 right; left; reflexivity|]. split; [apply HM; do 8 right; left; reflexivity|apply HM; do 9 right; left; reflexivity].
  - split; [apply HM; do 10 right; left; reflexivity|]. split; [apply HM; do 11 right; left; reflexivity|apply HM; do 12 right; left; reflexivity].
Qed.
Lemma in_long W x a M : 0 <= x < W -> Z.abs W < M -> 0 <= x < long a W M.
Proof. intros H1 H2. unfold long. destruct (is_open a); lia. Qed.
Lemma o_rho3 sp r a b c : fast3_ok r -> 0 <= a < Nx -> 0 <= b < Ny -> 0 <= c < Nz -> (dep sp r 3 [a; b; c] == CO (sp_q sp) (1#2) a b c r)%Q.
Proof.
  intros F Ha Hb Hc. destruct (size3_for r) as (M & M0 & B1 & B2 & B3 & M1 & M2 & M3 & M4). destruct (M4 (1#2)%Q (or_introl eq_refl)) as (M5 & M6 & M7).
  rewrite (odep3_big M), (charge3_big M) by assumption. apply (particle_rho3 (big3 D M) (big3_ok M M0)); [exact F| | |]; rewrite ?big3_x, ?big3_y, ?big3_z; apply in_long; assumption.
Qed.
Lemma o_continuity3 sp r a b c : fast3_ok r -> 0 <= a < Nx -> 0 <= b < Ny -> 0 <= c < Nz -> (ax_lo (e_ax D) = Pml -> 1 <= a) -> (ax_lo (e_ay D) = Pml -> 1 <= b) -> (ax_lo (e_az D) = Pml -> 1 <= c) ->
  (CO (sp_q sp) (1#2) a b c r - CO (sp_q sp) (-1#2) a b c r
   + dt * ((dep sp r 0%nat [a; b; c] - dep sp r 0%nat [(a - 1) mod Nx; b; c]) / dx + (dep sp r 1%nat [a; b; c] - dep sp r 1%nat [a; (b - 1) mod Ny; c]) / dy
         + (dep sp r 2%nat [a; b; c] - dep sp r 2%nat [a; b; (c - 1) mod Nz]) / dz) == 0)%Q.
Proof.
  intros F Ha Hb Hc Oa Ob Oc. destruct (ocells3_pos K D pmls OK) as (P1 & P2 & P3). destruct (size3_for r) as (M & M0 & A1 & A2 & A3 & M1 & M2 & M3 & M4).
  destruct (M4 (1#2)%Q (or_introl eq_refl)) as (M5 & M6 & M7). destruct (M4 (-1#2)%Q (or_intror eq_refl)) as (M8 & M9 & M10). clear M4.
  assert (forall W x a, 0 <= x < W -> Z.abs W < M -> (ax_lo a = Pml -> 1 <= x) -> (x - 1) mod long a W M = (x - 1) mod W) as E.
  { clear. intros W x ax H1 H2 H3. unfold long, is_open. destruct (ax_lo ax); cbn [bc_eqb]; [|reflexivity]. specialize (H3 eq_refl). rewrite !Z.mod_small by lia. reflexivity. }
  assert (0 <= a < cells3_x (big3 D M)) as Ba by (rewrite big3_x; apply in_long; assumption). assert (0 <= b < cells3_y (big3 D M)) as Bb by (rewrite big3_y; apply in_long; assumption). assert (0 <= c < cells3_z (big3 D M)) as Bc by (rewrite big3_z; apply in_long; assumption).
  pose proof (particle_continuity3 (big3 D M) (big3_ok M M0) sp r a b c F Ba Bb Bc) as C. cbv zeta in C.
  assert ((a - 1) mod cells3_x (big3 D M) = (a - 1) mod Nx) as E1 by (rewrite big3_x; exact (E Nx a (e_ax D) Ha A1 Oa)).
  assert ((b - 1) mod cells3_y (big3 D M) = (b - 1) mod Ny) as E2 by (rewrite big3_y; exact (E Ny b (e_ay D) Hb A2 Ob)).
  assert ((c - 1) mod cells3_z (big3 D M) = (c - 1) mod Nz) as E3 by (rewrite big3_z; exact (E Nz c (e_az D) Hc A3 Oc)).
  assert (0 <= (a - 1) mod Nx < Nx) as Q1 by (apply Z.mod_pos_bound; exact P1). assert (0 <= (b - 1) mod Ny < Ny) as Q2 by (apply Z.mod_pos_bound; exact P2). assert (0 <= (c - 1) mod Nz < Nz) as Q3 by (apply Z.mod_pos_bound; exact P3).
  rewrite E1, E2, E3 in C. change (e_dx (big3 D M)) with dx in C. change (e_dy (big3 D M)) with dy in C. change (e_dz (big3 D M)) with dz in C. change (e_dt (big3 D M)) with dt in C.
  rewrite (odep3_big M sp r 0 a b c), (odep3_big M sp r 0 ((a - 1) mod Nx) b c), (odep3_big M sp r 1 a b c), (odep3_big M sp r 1 a ((b - 1) mod Ny) c), (odep3_big M sp r 2 a b c), (odep3_big M sp r 2 a b ((c - 1) mod Nz)), (charge3_big M (sp_q sp) (1#2) a b c r), (charge3_big M (sp_q sp) (-1#2) a b c r) by assumption.
  exact C.
Qed.
(** ** the charge density under the operations of a step *)
Lemma CO3_rw q h i j k r r' u : (b_w (other _ r) == b_w (other _ r'))%Q ->
  (val (px _ r) + h * (b_ux (other _ r) * LIGHT_SPEED * b_ig (other _ r)) * dt == val (px _ r') + u * (b_ux (other _ r') * LIGHT_SPEED * b_ig (other _ r')) * dt)%Q ->
  (val (py _ r) + h * (b_uy (other _ r) * LIGHT_SPEED * b_ig (other _ r)) * dt == val (py _ r') + u * (b_uy (other _ r') * LIGHT_SPEED * b_ig (other _ r')) * dt)%Q ->
  (val (pz _ r) + h * (b_uz (other _ r) * LIGHT_SPEED * b_ig (other _ r)) * dt == val (pz _ r') + u * (b_uz (other _ r') * LIGHT_SPEED * b_ig (other _ r')) * dt)%Q ->
  (CO q h i j k r == CO q u i j k r')%Q.
Proof.
  intros E1 E2 E3 E4. destruct (ocells3_pos K D pmls OK) as (P1 & P2 & P3). unfold charge_of_o3. cbv zeta. fold (XX3 h r) (YY3 h r) (ZZ3 h r) (XX3 u r') (YY3 u r') (ZZ3 u r'). rewrite E1.
  rewrite (spread_comp (e_ax D) Nx i (XX3 h r) (XX3 u r') P1), (spread_comp (e_ay D) Ny j (YY3 h r) (YY3 u r') P2), (spread_comp (e_az D) Nz k (ZZ3 h r) (ZZ3 u r') P3); [reflexivity| | |].
  - unfold ZZ3, Qdiv. rewrite E4. reflexivity.
  - unfold YY3, Qdiv. rewrite E3. reflexivity.
  - unfold XX3, Qdiv. rewrite E2. reflexivity.
Qed.
Lemma CO3_eq q h i j k r r' : canon r = canon r' -> (CO q h i j k r == CO q h i j k r')%Q.
Proof.
  intro E. destruct (canon_load3 r r' E) as [P _]. destruct P as (E1 & E2 & E3 & E4 & E5 & E6 & E7 & E8 & _).
  cbn [load3 l_p p_x p_y p_z p_ux p_uy p_uz p_ig p_w M_PartSync.row] in *. apply CO3_rw; [exact E8|rewrite E1, E4, E7; reflexivity|rewrite E2, E5, E7; reflexivity|rewrite E3, E6, E7; reflexivity].
Qed.
Lemma CO3_mod q h i j k r : inr (e_ax D) Nx i -> inr (e_ay D) Ny j -> inr (e_az D) Nz k -> CO q h (i mod Nx) (j mod Ny) (k mod Nz) r = CO q h i j k r.
Proof. intros H1 H2 H3. destruct (ocells3_pos K D pmls OK) as (P1 & P2 & P3). unfold charge_of_o3. rewrite (spread_mod (e_ax D)), (spread_mod (e_ay D)), (spread_mod (e_az D)) by assumption. reflexivity. Qed.
Definition is_gone3 (r : prow body) : bool := match okept3 K D r with [] => true | _ => false end.
Lemma gone3_in_layers r : is_gone3 r = true -> in_layers3 th D r.
Proof.
  unfold is_gone3, okept3, okeep3, in_layers3. destruct (px _ r) as [x|]; [|discriminate]. destruct (py _ r) as [y|]; [|discriminate]. destruct (pz _ r) as [z|]; [|discriminate]. intro H. exists x, y, z. split; [reflexivity|]. split; [reflexivity|]. split; [reflexivity|].
  intros (C1 & C2 & C3). destruct (keep1 (is_open (e_ax D)) th _ dx x) as [x'|] eqn:E1; [|exact (keep1_gone K _ _ _ _ E1 C1)].
  destruct (keep1 (is_open (e_ay D)) th _ dy y) as [y'|] eqn:E2; [|exact (keep1_gone K _ _ _ _ E2 C2)].
  destruct (keep1 (is_open (e_az D)) th _ dz z) as [z'|] eqn:E3; [discriminate|exact (keep1_gone K _ _ _ _ E3 C3)].
Qed.
Lemma CO3_kept q h i j k r : placed r ->
  (CO q h i j k r == qsum (fun r => CO q h i j k r) (okept3 K D r) + (if is_gone3 r then CO q h i j k r else 0))%Q.
Proof.
  intros (x & y & z & E1 & E2 & E3). destruct (ocells3_pos K D pmls OK) as (P1 & P2 & P3). destruct (oo3_d K D pmls OK) as (D1 & D2 & D3). unfold is_gone3, okept3, okeep3. rewrite E1, E2, E3.
  fold Nx Ny Nz. destruct (keep1 (is_open (e_ax D)) th Nx dx x) as [x'|] eqn:X1; [|cbn [qsum fold_right]; ring].
  destruct (keep1 (is_open (e_ay D)) th Ny dy y) as [y'|] eqn:X2; [|cbn [qsum fold_right]; ring].
  destruct (keep1 (is_open (e_az D)) th Nz dz z) as [z'|] eqn:X3; [|cbn [qsum fold_right]; ring].
  cbn [qsum fold_right]. rewrite !Qplus_0_r. unfold charge_of_o3. cbv zeta. cbn [px py pz other]. rewrite E1, E2, E3. cbn [val].
  rewrite (spread_kept K (e_ax D) Nx dx x x' _ i P1 ltac:(lra) X1), (spread_kept K (e_ay D) Ny dy y y' _ j P2 ltac:(lra) X2), (spread_kept K (e_az D) Nz dz z z' _ k P3 ltac:(lra) X3). reflexivity.
Qed.
(** a particle in a layer has no charge two cells away *)
Lemma half_move3 u ig d : (0 < dt)%Q -> (LIGHT_SPEED * dt <= d)%Q -> (Qabs (u * ig) <= 1)%Q -> (Qabs ((1#2) * (u * LIGHT_SPEED * ig) * dt) <= d / 2)%Q.
Proof.
  intros Ht Hd H. assert ((1#2) * (u * LIGHT_SPEED * ig) * dt == (u * ig) * (LIGHT_SPEED * dt * (1#2)))%Q as E by ring. rewrite E, Qabs_Qmult.
  assert (0 < LIGHT_SPEED * dt)%Q as P by (unfold LIGHT_SPEED; lra). rewrite (Qabs_pos (LIGHT_SPEED * dt * (1#2))) by lra.
  eapply Qle_trans; [apply Qmult_le_compat_r; [exact H|lra]|]. assert (d / 2 == (1#2) * d)%Q as -> by field. lra.
Qed.
Lemma clear_dec a W d v : clear_of_layers a th W d v \/ ~ clear_of_layers a th W d v.
Proof.
  destruct (keep1 (is_open a) th W d v) as [w|] eqn:E; [left|right; apply (keep1_gone K); exact E]. unfold keep1, is_open in E. intro P. rewrite P in E. cbn [bc_eqb] in E.
  destruct (Qle_bool _ v) eqn:Q1; cbn [andb] in E; [|discriminate]. destruct (Qle_bool v _) eqn:Q2; [|discriminate]. apply Qle_bool_iff in Q1, Q2. auto.
Qed.
Lemma CO3_far q i j k r : fast3_ok r -> in_layers3 th D r -> off_layers3 th D i j k -> (CO q (1#2) i j k r == 0)%Q.
Proof.
  intros (_ & V1 & V2 & V3) (x & y & z & E1 & E2 & E3 & N) (H1 & H2 & H3). destruct (oo3_d K D pmls OK) as (D1 & D2 & D3). destruct (oo3_t K D pmls OK) as (T1 & T2 & T3 & T4).
  unfold charge_of_o3. cbv zeta. rewrite E1, E2, E3. cbn [val].
  assert (~ clear_of_layers (e_ax D) th Nx dx x \/ ~ clear_of_layers (e_ay D) th Ny dy y \/ ~ clear_of_layers (e_az D) th Nz dz z) as [C|[C|C]].
  { destruct (clear_dec (e_ax D) Nx dx x) as [C1|C1]; [|left; exact C1]. right. destruct (clear_dec (e_ay D) Ny dy y) as [C2|C2]; [|left; exact C2]. right. intro C3. apply N. auto. }
  - rewrite (spread_far K (e_ax D) Nx dx x _ i D1 (half_move3 _ _ _ T1 T2 V1) C H1). ring.
  - rewrite (spread_far K (e_ay D) Ny dy y _ j D2 (half_move3 _ _ _ T1 T3 V2) C H2). ring.
  - rewrite (spread_far K (e_az D) Nz dz z _ k D3 (half_move3 _ _ _ T1 T4 V3) C H3). ring.
Qed.
Lemma CO3_orow rsqrt sp FE FB q i j k r : placed r ->
  (CO q (-1#2) i j k (orow3 rsqrt (PL3 D) dx dy dz dt sp FE FB r) == CO q (1#2) i j k r)%Q.
Proof.
  intros (x & y & z & E1 & E2 & E3). unfold orow3, oslot3, P_Push.one.
  assert (skipped (load3 (live r)) = false) as S.
  { unfold skipped, load3. cbn [l_p p_dead p_nan M_PartSync.row M_PartSync.dead]. rewrite E1, E2, E3. reflexivity. }
  rewrite S. cbv zeta. match goal with |- context [ointerp3 ?a ?b ?c ?d ?e ?p ?q] => assert (exists f, ointerp3 a b c d e p q = Some f) as [f Hf] by (unfold ointerp3; eauto) end. rewrite Hf. cbn [obind].
  unfold push_momentum. cbv zeta. cbn [l_p l_f]. destruct (boris_inline _ _ _ _ _ _ _ _) as [[[ux uy] uz] ig].
  apply CO3_rw; unfold rowof, store3; cbn [l_p l_f M_PartSync.row px py pz other b_w b_ux b_uy b_uz b_ig val push_position_3d p_x p_y p_z p_ux p_uy p_uz p_ig load3]; rewrite ?E1, ?E2, ?E3; cbn [isnan val].
  - reflexivity.
  - ring.
  - ring.
  - ring.
Qed.
End Particle.
