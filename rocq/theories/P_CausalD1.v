(** Causality in three dimensions, part 1: regions, fields, single particles. *)
From Coq Require Import QArith Qround Qabs Qcanon Lqa Permutation.
From Verif Require Import Base M_Layout S_Layout M_PartSync S_PartSync M_FieldSync S_FieldSync M_Maxwell S_Maxwell M_Deposit S_Deposit M_Push S_Push P_Deposit P_Push P_Maxwell P_Maxwell2 P_Maxwell3 M_Step S_Step
  P_Step1 P_Step2 P_Step3 P_Step4 P_Step5 P_Step6 P_Step7 S_Causal P_Causal1 M_Step3D S_Step3D S_Gauss3D P_StepD1 P_StepD2 P_StepD3 P_StepD4 P_StepD5 P_StepD6 P_StepD7 P_GaussD1 P_GaussD2 S_Causal3D.
Local Open Scope list_scope.
Local Open Scope Z_scope.

Section Region.
Variable D : domain3.
Hypothesis OK : domain3_ok D.
Local Notation Nx := (cells3_x D). Local Notation Ny := (cells3_y D). Local Notation Nz := (cells3_z D).
Variable P : region3.
Local Notation deep := (deep3 D).
Local Notation inside := (inside3 D).
Lemma deep3_iff d a b c : deep d P a b c = true <-> forall i j k, - Z.of_nat d <= i <= Z.of_nat d -> - Z.of_nat d <= j <= Z.of_nat d -> - Z.of_nat d <= k <= Z.of_nat d ->
  P ((a + i) mod Nx) ((b + j) mod Ny) ((c + k) mod Nz) = true.
Proof.
  unfold S_Causal3D.deep3. rewrite forallb_forall. split.
  - intros H i j k Hi Hj Hk. apply span_in in Hi, Hj, Hk. specialize (H i Hi). rewrite forallb_forall in H. specialize (H j Hj). rewrite forallb_forall in H. exact (H k Hk).
  - intros H i Hi. apply forallb_forall. intros j Hj. apply forallb_forall. intros k Hk. apply span_in in Hi, Hj, Hk. exact (H i j k Hi Hj Hk).
Qed.
(** moving by at most e cells costs e cells *)
Lemma deep3_near d e a b c a' b' c' : deep (d + e) P a b c = true -> (exists i, - Z.of_nat e <= i <= Z.of_nat e /\ a' mod Nx = (a + i) mod Nx) ->
  (exists j, - Z.of_nat e <= j <= Z.of_nat e /\ b' mod Ny = (b + j) mod Ny) -> (exists k, - Z.of_nat e <= k <= Z.of_nat e /\ c' mod Nz = (c + k) mod Nz) -> deep d P a' b' c' = true.
Proof.
  intros H (i & Hi & Ei) (j & Hj & Ej) (k & Hk & Ek). apply deep3_iff. intros u v w Hu Hv Hw. rewrite deep3_iff in H.
  rewrite <- (Zplus_mod_idemp_l a' u Nx), <- (Zplus_mod_idemp_l b' v Ny), <- (Zplus_mod_idemp_l c' w Nz), Ei, Ej, Ek, !Zplus_mod_idemp_l.
  replace (a + i + u) with (a + (i + u)) by ring. replace (b + j + v) with (b + (j + v)) by ring. replace (c + k + w) with (c + (k + w)) by ring.
  apply H; clear - Hi Hj Hk Hu Hv Hw; lia.
Qed.
Lemma deep3_more d e a b c : deep (d + e) P a b c = true -> deep d P a b c = true.
Proof. intro H. apply (deep3_near d e a b c); [exact H| | |]; exists 0; rewrite Z.add_0_r; (split; [clear; lia|reflexivity]). Qed.
Lemma deep3_same d a b c a' b' c' : a' mod Nx = a mod Nx -> b' mod Ny = b mod Ny -> c' mod Nz = c mod Nz -> deep d P a b c = true -> deep d P a' b' c' = true.
Proof. intros Ea Eb Ec H. apply (deep3_near d 0 a b c); [rewrite Nat.add_0_r; exact H| | |]; exists 0; rewrite Z.add_0_r; (split; [clear; lia|assumption]). Qed.

(** * Fields *)
Definition agr3 (n d : nat) (F F' : nat -> list Z -> Qc) : Prop := forall f a b c, (f < n)%nat -> deep d P a b c = true ->
  F f [a mod Nx; b mod Ny; c mod Nz] = F' f [a mod Nx; b mod Ny; c mod Nz].
Lemma agr3_more n d e F F' : agr3 n d F F' -> agr3 n (d + e) F F'.
Proof. intros H f a b c Hf K. apply H; [exact Hf|]. exact (deep3_more d e a b c K). Qed.
Variable eps : Qc.
Lemma place_zero3 a b c : place [e_ax D; e_ay D; e_az D] [e_nx D; e_ny D; e_nz D] (zeros [e_nx D; e_ny D; e_nz D]) [a; b; c] = Some [a mod Nx; b mod Ny; c mod Nz].
Proof. cbn [zeros map place]. rewrite !place1_wrap by (apply (ok3_px D OK) || apply (ok3_py D OK) || apply (ok3_pz D OK)). reflexivity. Qed.
Lemma step_deep3 d i j k a b c : deep (d + 1) P a b c = true -> -1 <= i <= 1 -> -1 <= j <= 1 -> -1 <= k <= 1 -> deep d P (a + i) (b + j) (c + k) = true.
Proof. intros H Hi Hj Hk. apply (deep3_near d 1 a b c); [exact H| | |]; [exists i|exists j|exists k]; (split; [lia|reflexivity]). Qed.
Lemma agr_gE3 d FB FB' FJ FJ' F F' : agr3 3 d FB FB' -> agr3 4 (d + 1) FJ FJ' -> agr3 3 d F F' -> agr3 3 (d + 1) (gE3 eps D FB FJ F) (gE3 eps D FB' FJ' F').
Proof.
  intros HB HJ H f a b c Hf K. pose proof (agr3_more 3 d 1 F F' H f a b c Hf K) as E. unfold gE3, grid_step. rewrite E.
  apply local_SE3.
  - intros g u Hg Hc Lc. destruct u as [|i [|j [|k [|]]]]; cbn [length] in Lc; try lia. inversion Hc as [|? ? Hi Hc']; subst. inversion Hc' as [|? ? Hj Hc'']; subst. inversion Hc'' as [|? ? Hk _]; subst.
    cbn [add]. rewrite place_zero3. rewrite !Zplus_mod_idemp_l. apply HB; [exact Hg|]. apply step_deep3; [exact K|lia|lia|lia].
  - intros g Hg. apply HJ; [lia|exact K].
Qed.
Lemma agr_gB3 d FE FE' F F' : agr3 3 d FE FE' -> agr3 3 d F F' -> agr3 3 (d + 1) (gB3 eps D FE F) (gB3 eps D FE' F').
Proof.
  intros HE H f a b c Hf K. pose proof (agr3_more 3 d 1 F F' H f a b c Hf K) as E. unfold gB3, grid_step. rewrite E.
  apply local_SB3.
  - intros g u Hg Hc Lc. destruct u as [|i [|j [|k [|]]]]; cbn [length] in Lc; try lia. inversion Hc as [|? ? Hi Hc']; subst. inversion Hc' as [|? ? Hj Hc'']; subst. inversion Hc'' as [|? ? Hk _]; subst.
    cbn [add]. rewrite place_zero3. rewrite !Zplus_mod_idemp_l. apply HE; [exact Hg|]. apply step_deep3; [exact K|lia|lia|lia].
  - intros g Hg. apply (agr3_more 3 d 1); [exact HE|lia|exact K].
Qed.

(** * Particles *)
Lemma inside3_canon Q r r' : canon r = canon r' -> inside Q r = inside Q r'.
Proof.
  intro E. unfold inside3. assert (option_map Qred (px _ r) = option_map Qred (px _ r')) as E1 by exact (f_equal (px _) E).
  assert (option_map Qred (py _ r) = option_map Qred (py _ r')) as E2 by exact (f_equal (py _) E).
  assert (option_map Qred (pz _ r) = option_map Qred (pz _ r')) as E3 by exact (f_equal (pz _) E).
  assert (forall u v, Qred u = Qred v -> (u == v)%Q) as K by (intros u v H; rewrite <- (Qred_correct u), <- (Qred_correct v), H; reflexivity).
  destruct (px _ r) as [x|], (px _ r') as [x'|]; cbn [option_map] in E1; try discriminate; [|reflexivity].
  destruct (py _ r) as [y|], (py _ r') as [y'|]; cbn [option_map] in E2; try discriminate; [|reflexivity].
  destruct (pz _ r) as [z|], (pz _ r') as [z'|]; cbn [option_map] in E3; try discriminate; [|reflexivity].
  assert (x == x')%Q as X by (apply K; congruence). assert (y == y')%Q as Y by (apply K; congruence). assert (z == z')%Q as Z by (apply K; congruence).
  rewrite (Qfloor_comp (x / e_dx D + (1#2)) (x' / e_dx D + (1#2))) by (rewrite X; reflexivity).
  rewrite (Qfloor_comp (y / e_dy D + (1#2)) (y' / e_dy D + (1#2))) by (rewrite Y; reflexivity).
  rewrite (Qfloor_comp (z / e_dz D + (1#2)) (z' / e_dz D + (1#2))) by (rewrite Z; reflexivity). reflexivity.
Qed.
Lemma inside3_deep d r : inside (deep d P) r = true <-> exists x y z, px _ r = Some x /\ py _ r = Some y /\ pz _ r = Some z /\
  deep d P (Qfloor (x / e_dx D + (1#2))) (Qfloor (y / e_dy D + (1#2))) (Qfloor (z / e_dz D + (1#2))) = true.
Proof.
  unfold inside3. split.
  - destruct (px _ r) as [x|]; [|discriminate]. destruct (py _ r) as [y|]; [|discriminate]. destruct (pz _ r) as [z|]; [|discriminate].
    intro H. exists x, y, z. split; [reflexivity|]. split; [reflexivity|]. split; [reflexivity|]. revert H. apply deep3_same; symmetry; apply Zmod_mod.
  - intros (x & y & z & -> & -> & -> & H). revert H. apply deep3_same; apply Zmod_mod.
Qed.
Variable rsqrt : Q -> Q.
Hypothesis SUB : subluminal rsqrt.
Local Notation grow := (grow3 rsqrt Nx Ny Nz (e_dx D) (e_dy D) (e_dz D) (e_dt D)).
(** a particle two cells deeper than the region of agreement is pushed alike *)
Lemma grow_agr3 d sp FE FE' FB FB' r r' : agr3 3 d FE FE' -> agr3 3 d FB FB' -> fast3_ok r -> inside (deep (d + 2) P) r = true -> canon r = canon r' ->
  canon (grow sp FE FB r) = canon (grow sp FE' FB' r').
Proof using SUB OK.
  intros HE HB (_ & V1 & V2 & V3) I C. unfold P_StepD2.grow3. apply canon_store3; [exact C|]. unfold gslot3.
  destruct (one3_eq rsqrt (proj1 SUB) (ginterp3 Nx Ny Nz (e_dx D) (e_dy D) (e_dz D) FE FB) (ginterp3 Nx Ny Nz (e_dx D) (e_dy D) (e_dz D) FE' FB') (sp_q sp) (sp_m sp) (e_dt D) _ _ (canon_load3 r r' C)) as (t & t' & -> & -> & E); [|exact E].
  intros _. cbv zeta. unfold interp_eq, ginterp3.
  destruct (move3_eq rsqrt (proj1 SUB) (LIGHT_SPEED * (1 # 2) * e_dt D) _ _ (proj1 (canon_load3 r r' C))) as (K1 & K2 & K3 & _).
  destruct (ok3_d D OK) as (D1 & D2 & D3). destruct (cdt3_ok D OK) as (T1 & T2 & T3 & T4).
  apply inside3_deep in I. destruct I as (x & y & z & Ex & Ey & Ez & I).
  apply (gat3_shift _ _ _ _ _ _ _ _ _ _ 0 0 0); [change (inject_Z 0) with 0%Q; rewrite K1; ring|change (inject_Z 0) with 0%Q; rewrite K2; ring|change (inject_Z 0) with 0%Q; rewrite K3; ring|].
  intros f a b c Hf Ha Hb Hc. rewrite !Z.add_0_r.
  cbn [push_position_3d p_x p_y p_z load3 l_p M_PartSync.row p_ux p_uy p_uz p_ig] in Ha, Hb, Hc. rewrite Ex in Ha. rewrite Ey in Hb. rewrite Ez in Hc. cbn [val] in Ha, Hb, Hc. fold (cdt3 D) in Ha, Hb, Hc.
  pose proof (P_Causal1.floor_half x _ _ D1 (half_cell _ _ _ _ T1 T2 V1)) as R1. pose proof (P_Causal1.floor_half y _ _ D2 (half_cell _ _ _ _ T1 T3 V2)) as R2.
  pose proof (P_Causal1.floor_half z _ _ D3 (half_cell _ _ _ _ T1 T4 V3)) as R3. cbv zeta in R1, R2, R3.
  set (A := Qfloor (x / e_dx D + (1#2))) in *. set (B := Qfloor (y / e_dy D + (1#2))) in *. set (G := Qfloor (z / e_dz D + (1#2))) in *.
  assert (deep d P a b c = true) as K.
  { apply (deep3_near d 2 A B G); [exact I| | |]; [exists (a - A)|exists (b - B)|exists (c - G)]; (split; [lia|f_equal; ring]). }
  unfold gget3. rewrite (HE f a b c Hf K), (HB f a b c Hf K). split; reflexivity.
Qed.
(** the push carries a particle across at most one cell *)
Lemma grow_slow3 sp FE FB r : fast3_ok r -> exists x y z x' y' z', px _ r = Some x /\ py _ r = Some y /\ pz _ r = Some z /\
  px _ (grow sp FE FB r) = Some x' /\ py _ (grow sp FE FB r) = Some y' /\ pz _ (grow sp FE FB r) = Some z' /\
  (- e_dx D <= x' - x <= e_dx D)%Q /\ (- e_dy D <= y' - y <= e_dy D)%Q /\ (- e_dz D <= z' - z <= e_dz D)%Q.
Proof using SUB OK.
  intros ((x & y & z & Ex & Ey & Ez) & V1 & V2 & V3). destruct (cdt3_ok D OK) as (T1 & T2 & T3 & T4).
  unfold P_StepD2.grow3, gslot3, one. set (s := load3 (live r)).
  assert (p_x (l_p s) = x /\ p_y (l_p s) = y /\ p_z (l_p s) = z /\ skipped s = false) as (Sx & Sy & Sz & Sk).
  { unfold s, load3, skipped. cbn [M_PartSync.row M_PartSync.dead l_p p_x p_y p_z p_dead p_nan]. rewrite Ex, Ey, Ez. auto. }
  assert (p_ux (l_p s) = b_ux (other _ r) /\ p_uy (l_p s) = b_uy (other _ r) /\ p_uz (l_p s) = b_uz (other _ r) /\ p_ig (l_p s) = b_ig (other _ r)) as (S1 & S2 & S3 & S4) by (repeat split; reflexivity).
  rewrite Sk. cbv zeta. unfold ginterp3. cbn [obind]. fold (cdt3 D).
  match goal with |- context [push_momentum rsqrt ?q ?m ?dt ?a] => destruct (momentum_slow3 rsqrt SUB q m dt a) as (M1 & M2 & M3 & _ & M4 & M5 & M6); set (u := l_p (push_momentum rsqrt q m dt a)) in * end.
  cbn [l_p push_position_3d p_x p_y p_z] in M1, M2, M3. rewrite Sx, S1, S4 in M1. rewrite Sy, S2, S4 in M2. rewrite Sz, S3, S4 in M3. clearbody u.
  unfold rowof, store3. cbn [M_PartSync.row px py pz]. rewrite Ex, Ey, Ez. cbn [isnan l_p push_position_3d p_x p_y p_z].
  do 6 eexists. do 6 (split; [reflexivity|]). rewrite M1, M2, M3.
  pose proof (half_cell _ _ _ _ T1 T2 V1) as A1. pose proof (half_cell _ _ _ _ T1 T3 V2) as A2. pose proof (half_cell _ _ _ _ T1 T4 V3) as A3.
  pose proof (half_cell _ _ _ _ T1 T2 M4) as A4. pose proof (half_cell _ _ _ _ T1 T3 M5) as A5. pose proof (half_cell _ _ _ _ T1 T4 M6) as A6.
  set (e1 := (cdt3 D * _ * b_ux _)%Q) in *. set (e2 := (cdt3 D * _ * b_uy _)%Q) in *. set (e3 := (cdt3 D * _ * b_uz _)%Q) in *.
  set (e4 := (cdt3 D * _ * p_ux u)%Q) in *. set (e5 := (cdt3 D * _ * p_uy u)%Q) in *. set (e6 := (cdt3 D * _ * p_uz u)%Q) in *. clearbody e1 e2 e3 e4 e5 e6.
  unfold Qdiv in *. change (/ 2)%Q with (1#2)%Q in *. split; [|split]; lra.
Qed.
Lemma grow_inside3 d sp FE FB r : fast3_ok r -> inside (deep (d + 1) P) (grow sp FE FB r) = true -> inside (deep d P) r = true.
Proof using SUB OK.
  intros F I. destruct (grow_slow3 sp FE FB r F) as (x & y & z & x' & y' & z' & E1 & E2 & E3 & E4 & E5 & E6 & B1 & B2 & B3). destruct (ok3_d D OK) as (D1 & D2 & D3).
  apply inside3_deep in I. destruct I as (x0 & y0 & z0 & X0 & Y0 & Z0 & I). assert (x0 = x') as -> by congruence. assert (y0 = y') as -> by congruence. assert (z0 = z') as -> by congruence.
  apply inside3_deep. exists x, y, z. split; [exact E1|]. split; [exact E2|]. split; [exact E3|].
  pose proof (floor_near x' (x - x') _ 1 D1 ltac:(change (inject_Z 1) with 1%Q; lra)) as R1. pose proof (floor_near y' (y - y') _ 1 D2 ltac:(change (inject_Z 1) with 1%Q; lra)) as R2.
  pose proof (floor_near z' (z - z') _ 1 D3 ltac:(change (inject_Z 1) with 1%Q; lra)) as R3. cbv zeta in R1, R2, R3.
  rewrite (Qfloor_comp ((x' + (x - x')) / e_dx D + (1#2)) (x / e_dx D + (1#2))) in R1 by (field; lra).
  rewrite (Qfloor_comp ((y' + (y - y')) / e_dy D + (1#2)) (y / e_dy D + (1#2))) in R2 by (field; lra).
  rewrite (Qfloor_comp ((z' + (z - z')) / e_dz D + (1#2)) (z / e_dz D + (1#2))) in R3 by (field; lra).
  apply (deep3_near d 1 _ _ _ _ _ _ I); eexists; (split; [|rewrite Zplus_minus; reflexivity]); lia.
Qed.
(** taking whole periods off does not matter *)
Lemma gwrap_inside3 d r : inside (deep d P) (gwrap3 Nx Ny Nz (e_dx D) (e_dy D) (e_dz D) r) = inside (deep d P) r.
Proof using OK.
  destruct (ok3_d D OK) as (D1 & D2 & D3).
  assert (forall W e v, (0 < e)%Q -> Qfloor (wrap1 W e v / e + (1#2)) mod W = Qfloor (v / e + (1#2)) mod W) as K.
  { intros W e v He. unfold wrap1. destruct (negb _); [|destruct (negb _)]; [| |reflexivity].
    - rewrite (Qfloor_comp _ (v / e + (1#2) + inject_Z (- W))) by (rewrite inject_Z_opp; field; lra). rewrite floor_shift. replace (Qfloor (v / e + (1#2)) + - W) with (Qfloor (v / e + (1#2)) + (-1) * W) by ring. apply Z_mod_plus_full.
    - rewrite (Qfloor_comp _ (v / e + (1#2) + inject_Z W)) by (field; lra). rewrite floor_shift. replace (Qfloor (v / e + (1#2)) + W) with (Qfloor (v / e + (1#2)) + 1 * W) by ring. apply Z_mod_plus_full. }
  unfold inside3, gwrap3. cbn [px py pz]. destruct (px _ r) as [x|]; [|reflexivity]. destruct (py _ r) as [y|]; [|reflexivity]. destruct (pz _ r) as [z|]; [|reflexivity]. cbn [option_map].
  rewrite !K by assumption. reflexivity.
Qed.
(** a particle adds nothing to cells more than three cells away *)
Lemma gdep_far3 d sp r f a b c : fast3_ok r -> 0 <= a < Nx -> 0 <= b < Ny -> 0 <= c < Nz -> deep (d + 3) P a b c = true -> inside (deep d P) r = false ->
  (gdep3 Nx Ny Nz (e_dx D) (e_dy D) (e_dz D) (e_dt D) sp r f [a; b; c] == 0)%Q.
Proof using OK.
  intros ((x & y & z & Ex & Ey & Ez) & V1 & V2 & V3) Ha Hb Hc H I. destruct (ok3_d D OK) as (D1 & D2 & D3). destruct (cdt3_ok D OK) as (T1 & T2 & T3 & T4).
  unfold gdep3. cbv zeta. apply qsum_zero. intros e Ie. destruct (mevs_in _ _ _ _ _ Ie) as (I1 & I2 & I3). rewrite list_eqb3.
  destruct (Z.eqb_spec ((m_ix (whole3 Nx Ny Nz (e_dx D) (e_dy D) (e_dz D)) (e_dt D) (bare3 r) + (Z.of_nat (e_i e) - 2)) mod Nx) a) as [Ea|]; [|reflexivity].
  destruct (Z.eqb_spec ((m_iy (whole3 Nx Ny Nz (e_dx D) (e_dy D) (e_dz D)) (e_dt D) (bare3 r) + (Z.of_nat (e_j e) - 2)) mod Ny) b) as [Eb|]; [|reflexivity].
  destruct (Z.eqb_spec ((m_iz (whole3 Nx Ny Nz (e_dx D) (e_dy D) (e_dz D)) (e_dt D) (bare3 r) + (Z.of_nat (e_k e) - 2)) mod Nz) c) as [Ec|]; [|reflexivity].
  exfalso. assert (inside (deep d P) r = true) as K; [|congruence].
  apply inside3_deep. exists x, y, z. split; [exact Ex|]. split; [exact Ey|]. split; [exact Ez|].
  assert (forall u d0, (- (d0 / 2) <= u /\ u <= d0 / 2 -> - (inject_Z 1 * d0) <= - u <= inject_Z 1 * d0))%Q as Q1.
  { intros u d0 [U1 U2]. change (inject_Z 1) with 1%Q. unfold Qdiv in *. change (/ 2)%Q with (1#2)%Q in *. split; lra. }
  pose proof (floor_near x _ _ 1 D1 (Q1 _ _ (half_cell _ _ _ _ T1 T2 V1))) as R1. pose proof (floor_near y _ _ 1 D2 (Q1 _ _ (half_cell _ _ _ _ T1 T3 V2))) as R2.
  pose proof (floor_near z _ _ 1 D3 (Q1 _ _ (half_cell _ _ _ _ T1 T4 V3))) as R3. cbv zeta in R1, R2, R3.
  assert (m_ix (whole3 Nx Ny Nz (e_dx D) (e_dy D) (e_dz D)) (e_dt D) (bare3 r) = Qfloor ((x + - (cdt3 D * b_ig (other _ r) * b_ux (other _ r))) / e_dx D + (1#2))) as E1.
  { unfold m_ix. apply Qfloor_comp. unfold m_X0, bare3, load3, vel, cdt3. cbn [l_p p_x p_ux p_ig M_PartSync.row whole3 h_x0 h_dx val]. rewrite Ex. cbn [val]. field. lra. }
  assert (m_iy (whole3 Nx Ny Nz (e_dx D) (e_dy D) (e_dz D)) (e_dt D) (bare3 r) = Qfloor ((y + - (cdt3 D * b_ig (other _ r) * b_uy (other _ r))) / e_dy D + (1#2))) as E2.
  { unfold m_iy. apply Qfloor_comp. unfold m_Y0, bare3, load3, vel, cdt3. cbn [l_p p_y p_uy p_ig M_PartSync.row whole3 h_y0 h_dy val]. rewrite Ey. cbn [val]. field. lra. }
  assert (m_iz (whole3 Nx Ny Nz (e_dx D) (e_dy D) (e_dz D)) (e_dt D) (bare3 r) = Qfloor ((z + - (cdt3 D * b_ig (other _ r) * b_uz (other _ r))) / e_dz D + (1#2))) as E3.
  { unfold m_iz. apply Qfloor_comp. unfold m_Z0, bare3, load3, vel, cdt3. cbn [l_p p_z p_uz p_ig M_PartSync.row whole3 h_z0 h_dz val]. rewrite Ez. cbn [val]. field. lra. }
  rewrite <- E1 in R1. rewrite <- E2 in R2. rewrite <- E3 in R3. clear E1 E2 E3 Ie.
  set (kx := m_ix _ _ _) in *. set (ky := m_iy _ _ _) in *. set (kz := m_iz _ _ _) in *.
  set (A := Qfloor (x / e_dx D + (1#2))) in *. set (B := Qfloor (y / e_dy D + (1#2))) in *. set (G := Qfloor (z / e_dz D + (1#2))) in *. clearbody kx ky kz A B G.
  apply (deep3_near d 3 a b c); [exact H| | |].
  - exists (A - (kx + (Z.of_nat (e_i e) - 2))). split; [lia|]. rewrite <- Ea, Zplus_mod_idemp_l. f_equal. ring.
  - exists (B - (ky + (Z.of_nat (e_j e) - 2))). split; [lia|]. rewrite <- Eb, Zplus_mod_idemp_l. f_equal. ring.
  - exists (G - (kz + (Z.of_nat (e_k e) - 2))). split; [lia|]. rewrite <- Ec, Zplus_mod_idemp_l. f_equal. ring.
Qed.
End Region.
