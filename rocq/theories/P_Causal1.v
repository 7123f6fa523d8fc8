(** Causality, part 1: regions, fields, single particles. *)
From Coq Require Import QArith Qround Qabs Qcanon Lqa Permutation.
From Verif Require Import Base M_Layout S_Layout M_PartSync S_PartSync M_FieldSync S_FieldSync M_Maxwell S_Maxwell M_Deposit S_Deposit M_Push S_Push P_Deposit P_Push P_Maxwell P_Maxwell2 P_Maxwell3 M_Step S_Step
  P_Step1 P_Step2 P_Step3 P_Step4 P_Step5 P_Step6 P_Step7 S_Gauss P_Gauss1 P_Gauss2 S_Causal.
Local Open Scope list_scope.
Local Open Scope Z_scope.

Lemma span_in d i : In i (span d) <-> - Z.of_nat d <= i <= Z.of_nat d.
Proof.
  unfold span. rewrite in_map_iff. split.
  - intros (k & <- & I). apply in_seq in I. lia.
  - intro H. exists (Z.to_nat (i + Z.of_nat d)). split; [lia|]. apply in_seq. lia.
Qed.
Section Region.
Variable D : domain2.
Hypothesis OK : domain_ok D.
Local Notation Nx := (cells_x D). Local Notation Ny := (cells_y D).
Variable P : region.
Local Notation deep := (deep D).
Lemma deep_iff d a b : deep d P a b = true <-> forall i j, - Z.of_nat d <= i <= Z.of_nat d -> - Z.of_nat d <= j <= Z.of_nat d -> P ((a + i) mod Nx) ((b + j) mod Ny) = true.
Proof.
  unfold S_Causal.deep. rewrite forallb_forall. split.
  - intros H i j Hi Hj. apply span_in in Hi, Hj. specialize (H i Hi). rewrite forallb_forall in H. exact (H j Hj).
  - intros H i Hi. apply forallb_forall. intros j Hj. apply span_in in Hi, Hj. exact (H i j Hi Hj).
Qed.
(** moving by at most e cells costs e cells *)
Lemma deep_near d e a b a' b' : deep (d + e) P a b = true -> (exists i, - Z.of_nat e <= i <= Z.of_nat e /\ a' mod Nx = (a + i) mod Nx) -> (exists j, - Z.of_nat e <= j <= Z.of_nat e /\ b' mod Ny = (b + j) mod Ny) -> deep d P a' b' = true.
Proof.
  intros H (i & Hi & Ei) (j & Hj & Ej). apply deep_iff. intros k l Hk Hl. rewrite deep_iff in H.
  rewrite <- (Zplus_mod_idemp_l a' k Nx), <- (Zplus_mod_idemp_l b' l Ny), Ei, Ej, !Zplus_mod_idemp_l.
  replace (a + i + k) with (a + (i + k)) by ring. replace (b + j + l) with (b + (j + l)) by ring. apply H; clear - Hi Hj Hk Hl; lia.
Qed.
Lemma deep_more d e a b : deep (d + e) P a b = true -> deep d P a b = true.
Proof. intro H. apply (deep_near d e a b); [exact H| |]; exists 0; rewrite Z.add_0_r; (split; [clear; lia|reflexivity]). Qed.
Lemma deep_same d a b a' b' : a' mod Nx = a mod Nx -> b' mod Ny = b mod Ny -> deep d P a b = true -> deep d P a' b' = true.
Proof. intros Ea Eb H. apply (deep_near d 0 a b); [rewrite Nat.add_0_r; exact H| |]; exists 0; rewrite Z.add_0_r; (split; [clear; lia|assumption]). Qed.

(** * Fields *)
(** agreement of two fields of the whole grid *)
Definition agr (n d : nat) (F F' : nat -> list Z -> Qc) : Prop := forall f a b, (f < n)%nat -> deep d P a b = true -> F f [a mod Nx; b mod Ny] = F' f [a mod Nx; b mod Ny].
Lemma agr_more n d e F F' : agr n d F F' -> agr n (d + e) F F'.
Proof. intros H f a b Hf K. apply H; [exact Hf|]. exact (deep_more d e a b K). Qed.
Variable eps : Qc.
Lemma place_zero a b : place [d_ax D; d_ay D] [d_nx D; d_ny D] (zeros [d_nx D; d_ny D]) [a; b] = Some [a mod Nx; b mod Ny].
Proof. cbn [zeros map place]. rewrite !place1_wrap by (apply (ok_px D OK) || apply (ok_py D OK)). reflexivity. Qed.
Lemma near_mod a k : ((a mod Nx + k) mod Nx = (a + k) mod Nx) /\ ((a mod Ny + k) mod Ny = (a + k) mod Ny).
Proof. split; apply Zplus_mod_idemp_l. Qed.
Lemma step_deep d i j a b : deep (d + 1) P a b = true -> -1 <= i <= 1 -> -1 <= j <= 1 -> deep d P (a + i) (b + j) = true.
Proof. intros H Hi Hj. apply (deep_near d 1 a b); [exact H| |]; [exists i|exists j]; (split; [lia|reflexivity]). Qed.
Lemma agr_gE d FB FB' FJ FJ' F F' : agr 3 d FB FB' -> agr 4 (d + 1) FJ FJ' -> agr 3 d F F' -> agr 3 (d + 1) (gE eps D FB FJ F) (gE eps D FB' FJ' F').
Proof.
  intros HB HJ H f a b Hf K. pose proof (agr_more 3 d 1 F F' H f a b Hf K) as E. unfold gE, grid_step. rewrite E.
  apply local_SE2.
  - intros g c Hg Hc Lc. destruct c as [|i [|j [|]]]; cbn [length] in Lc; try lia. inversion Hc as [|? ? Hi Hc']; subst. inversion Hc' as [|? ? Hj _]; subst.
    cbn [add]. rewrite place_zero. rewrite (proj1 (near_mod a i)), (proj2 (near_mod b j)). apply HB; [exact Hg|]. apply step_deep; [exact K|lia|lia].
  - intros g Hg. apply HJ; [lia|exact K].
Qed.
Lemma agr_gB d FE FE' F F' : agr 3 d FE FE' -> agr 3 d F F' -> agr 3 (d + 1) (gB eps D FE F) (gB eps D FE' F').
Proof.
  intros HE H f a b Hf K. pose proof (agr_more 3 d 1 F F' H f a b Hf K) as E. unfold gB, grid_step. rewrite E.
  apply local_SB2.
  - intros g c Hg Hc Lc. destruct c as [|i [|j [|]]]; cbn [length] in Lc; try lia. inversion Hc as [|? ? Hi Hc']; subst. inversion Hc' as [|? ? Hj _]; subst.
    cbn [add]. rewrite place_zero. rewrite (proj1 (near_mod a i)), (proj2 (near_mod b j)). apply HE; [exact Hg|]. apply step_deep; [exact K|lia|lia].
  - intros g Hg. apply (agr_more 3 d 1); [exact HE|lia|exact K].
Qed.

(** * Particles *)
Lemma inside_canon Q r r' : canon r = canon r' -> inside D Q r = inside D Q r'.
Proof.
  intro E. unfold inside. assert (option_map Qred (px _ r) = option_map Qred (px _ r')) as E1 by exact (f_equal (px _) E).
  assert (option_map Qred (py _ r) = option_map Qred (py _ r')) as E2 by exact (f_equal (py _) E).
  assert (forall u v, Qred u = Qred v -> (u == v)%Q) as K by (intros u v H; rewrite <- (Qred_correct u), <- (Qred_correct v), H; reflexivity).
  destruct (px _ r) as [x|], (px _ r') as [x'|]; cbn [option_map] in E1; try discriminate; [|reflexivity].
  destruct (py _ r) as [z|], (py _ r') as [z'|]; cbn [option_map] in E2; try discriminate; [|reflexivity].
  assert (x == x')%Q as X by (apply K; congruence). assert (z == z')%Q as Z by (apply K; congruence).
  rewrite (Qfloor_comp (x / d_dx D + (1#2)) (x' / d_dx D + (1#2))) by (rewrite X; reflexivity).
  rewrite (Qfloor_comp (z / d_dy D + (1#2)) (z' / d_dy D + (1#2))) by (rewrite Z; reflexivity). reflexivity.
Qed.
Lemma inside_deep d r : inside D (deep d P) r = true <-> exists x z, px _ r = Some x /\ py _ r = Some z /\ deep d P (Qfloor (x / d_dx D + (1#2))) (Qfloor (z / d_dy D + (1#2))) = true.
Proof.
  unfold inside. split.
  - destruct (px _ r) as [x|]; [|discriminate]. destruct (py _ r) as [z|]; [|discriminate]. intro H. exists x, z. split; [reflexivity|]. split; [reflexivity|].
    revert H. apply deep_same; symmetry; apply Zmod_mod.
  - intros (x & z & -> & -> & H). revert H. apply deep_same; apply Zmod_mod.
Qed.
(** the nearest grid point of a place that is not far away *)
Lemma floor_near x u d m : (0 < d)%Q -> (- (inject_Z m * d) <= u <= inject_Z m * d)%Q -> let A := Qfloor (x / d + (1#2)) in A - m <= Qfloor ((x + u) / d + (1#2)) <= A + m.
Proof.
  intros Hd [U1 U2]. cbv zeta. assert ((x + u) / d == x / d + u / d)%Q as E by (field; lra).
  assert (- inject_Z m <= u / d)%Q as V1 by (apply Qle_shift_div_l; [exact Hd|]; lra). assert (u / d <= inject_Z m)%Q as V2 by (apply Qle_shift_div_r; [exact Hd|]; exact U2).
  rewrite (Qfloor_comp _ _ (Qplus_comp _ _ E _ _ (Qeq_refl (1#2)))). set (X := (x / d)%Q) in *. set (W := (u / d)%Q) in *. clearbody X W. split.
  - pose proof (Qfloor_resp_le (X + (1#2) + inject_Z (- m)) (X + W + (1#2))) as R. rewrite floor_shift in R. rewrite inject_Z_opp in R. assert (Qfloor (X + (1#2)) + - m <= Qfloor (X + W + (1#2))) by (apply R; lra). lia.
  - pose proof (Qfloor_resp_le (X + W + (1#2)) (X + (1#2) + inject_Z m)) as R. rewrite floor_shift in R. apply R. lra.
Qed.
Lemma floor_half x u d : (0 < d)%Q -> (- (d / 2) <= u <= d / 2)%Q -> let A := Qfloor (x / d + (1#2)) in A - 1 <= Qfloor ((x + u) / d) <= A.
Proof.
  intros Hd [U1 U2]. cbv zeta. assert ((x + u) / d == x / d + u / d)%Q as E by (field; lra).
  unfold Qdiv in U1, U2 at 1. change (/ 2)%Q with (1#2)%Q in U1, U2.
  assert (- (1#2) <= u / d)%Q as V1 by (apply Qle_shift_div_l; [exact Hd|]; lra). assert (u / d <= (1#2))%Q as V2 by (apply Qle_shift_div_r; [exact Hd|]; lra).
  rewrite (Qfloor_comp _ _ E). set (X := (x / d)%Q) in *. set (W := (u / d)%Q) in *. clearbody X W. split.
  - pose proof (Qfloor_resp_le (X + (1#2) + inject_Z (- 1)) (X + W)) as R. rewrite floor_shift in R. assert (Qfloor (X + (1#2)) + - 1 <= Qfloor (X + W)) by (apply R; unfold inject_Z; lra). lia.
  - apply Qfloor_resp_le. lra.
Qed.
Variable rsqrt : Q -> Q.
Hypothesis SUB : subluminal rsqrt.
Local Notation grow := (grow rsqrt Nx Ny (d_dx D) (d_dy D) (d_dt D)).
(** a particle two cells deeper than the region of agreement is pushed alike *)
Lemma grow_agr d sp FE FE' FB FB' r r' : agr 3 d FE FE' -> agr 3 d FB FB' -> fast_ok r -> inside D (deep (d + 2) P) r = true -> canon r = canon r' ->
  canon (grow sp FE FB r) = canon (grow sp FE' FB' r').
Proof using SUB OK.
  intros HE HB (_ & V1 & V2) I C. unfold P_Step2.grow. apply canon_store; [exact C|]. unfold gslot.
  destruct (one_eq rsqrt (proj1 SUB) (ginterp Nx Ny (d_dx D) (d_dy D) FE FB) (ginterp Nx Ny (d_dx D) (d_dy D) FE' FB') (sp_q sp) (sp_m sp) (d_dt D) _ _ (canon_load r r' C)) as (t & t' & -> & -> & E); [|exact E].
  intros _. cbv zeta. unfold interp_eq, ginterp.
  destruct (move_eq (LIGHT_SPEED * (1 # 2) * d_dt D) _ _ (proj1 (canon_load r r' C))) as (K1 & K2 & _).
  destruct (ok_d D OK) as [D1 D2]. destruct (cdt2_ok D OK) as (T1 & T2 & T3).
  apply inside_deep in I. destruct I as (x & z & Ex & Ez & I).
  apply (gat_shift _ _ _ _ _ _ _ _ 0 0); [change (inject_Z 0) with 0%Q; rewrite K1; ring|change (inject_Z 0) with 0%Q; rewrite K2; ring|].
  intros f a b Hf Ha Hb. rewrite !Z.add_0_r.
  cbn [push_position_2d p_x p_y load l_p M_PartSync.row p_ux p_uy p_ig] in Ha, Hb. rewrite Ex in Ha. rewrite Ez in Hb. cbn [val] in Ha, Hb. fold (cdt2 D) in Ha, Hb.
  pose proof (floor_half x _ _ D1 (half_cell _ _ _ _ T1 T2 V1)) as R1. pose proof (floor_half z _ _ D2 (half_cell _ _ _ _ T1 T3 V2)) as R2. cbv zeta in R1, R2.
  set (A := Qfloor (x / d_dx D + (1#2))) in *. set (B := Qfloor (z / d_dy D + (1#2))) in *.
  assert (deep d P a b = true) as K.
  { apply (deep_near d 2 A B); [exact I| |]; [exists (a - A)|exists (b - B)]; (split; [lia|f_equal; ring]). }
  unfold gget. rewrite (HE f a b Hf K), (HB f a b Hf K). split; reflexivity.
Qed.
(** the push carries a particle across at most one cell *)
Lemma grow_slow sp FE FB r : fast_ok r -> exists x z x' z', px _ r = Some x /\ py _ r = Some z /\ px _ (grow sp FE FB r) = Some x' /\ py _ (grow sp FE FB r) = Some z' /\
  (- d_dx D <= x' - x <= d_dx D)%Q /\ (- d_dy D <= z' - z <= d_dy D)%Q.
Proof using SUB OK.
  intros ((x & z & Ex & Ez) & V1 & V2). destruct (cdt2_ok D OK) as (T1 & T2 & T3).
  unfold P_Step2.grow, gslot, one. set (s := load (live r)).
  assert (p_x (l_p s) = x /\ p_y (l_p s) = z /\ skipped s = false) as (Sx & Sy & Sk).
  { unfold s, load, skipped. cbn [M_PartSync.row M_PartSync.dead l_p p_x p_y p_dead p_nan]. rewrite Ex, Ez. auto. }
  assert (p_ux (l_p s) = b_ux (other _ r) /\ p_uy (l_p s) = b_uy (other _ r) /\ p_ig (l_p s) = b_ig (other _ r)) as (S1 & S2 & S3) by (split; [|split]; reflexivity).
  rewrite Sk. cbv zeta. unfold ginterp. cbn [obind]. fold (cdt2 D).
  match goal with |- context [push_momentum rsqrt ?q ?m ?dt ?a] => destruct (momentum_slow rsqrt SUB q m dt a) as (M1 & M2 & _ & _ & M3 & M4); set (u := l_p (push_momentum rsqrt q m dt a)) in * end.
  cbn [l_p push_position_2d p_x p_y] in M1, M2. rewrite Sx, S1, S3 in M1. rewrite Sy, S2, S3 in M2. clearbody u.
  unfold rowof, store. cbn [M_PartSync.row px py]. rewrite Ex, Ez. cbn [isnan l_p push_position_2d p_x p_y].
  do 4 eexists. do 4 (split; [reflexivity|]). rewrite M1, M2.
  pose proof (half_cell _ _ _ _ T1 T2 V1) as A1. pose proof (half_cell _ _ _ _ T1 T3 V2) as A2. pose proof (half_cell _ _ _ _ T1 T2 M3) as A3. pose proof (half_cell _ _ _ _ T1 T3 M4) as A4.
  set (e1 := (cdt2 D * _ * b_ux _)%Q) in *. set (e2 := (cdt2 D * _ * b_uy _)%Q) in *. set (e3 := (cdt2 D * _ * p_ux u)%Q) in *. set (e4 := (cdt2 D * _ * p_uy u)%Q) in *. clearbody e1 e2 e3 e4.
  unfold Qdiv in *. change (/ 2)%Q with (1#2)%Q in *. split; lra.
Qed.
Lemma grow_inside d sp FE FB r : fast_ok r -> inside D (deep (d + 1) P) (grow sp FE FB r) = true -> inside D (deep d P) r = true.
Proof using SUB OK.
  intros F I. destruct (grow_slow sp FE FB r F) as (x & z & x' & z' & E1 & E2 & E3 & E4 & B1 & B2). destruct (ok_d D OK) as [D1 D2].
  apply inside_deep in I. destruct I as (x0 & z0 & X0 & Z0 & I). assert (x0 = x') as -> by congruence. assert (z0 = z') as -> by congruence.
  apply inside_deep. exists x, z. split; [exact E1|]. split; [exact E2|].
  pose proof (floor_near x' (x - x') _ 1 D1 ltac:(change (inject_Z 1) with 1%Q; lra)) as R1. pose proof (floor_near z' (z - z') _ 1 D2 ltac:(change (inject_Z 1) with 1%Q; lra)) as R2. cbv zeta in R1, R2.
  rewrite (Qfloor_comp ((x' + (x - x')) / d_dx D + (1#2)) (x / d_dx D + (1#2))) in R1 by (field; lra).
  rewrite (Qfloor_comp ((z' + (z - z')) / d_dy D + (1#2)) (z / d_dy D + (1#2))) in R2 by (field; lra).
  apply (deep_near d 1 _ _ _ _ I); eexists; (split; [|rewrite Zplus_minus; reflexivity]); lia.
Qed.
(** taking whole periods off does not matter *)
Lemma gwrap_inside d r : inside D (deep d P) (gwrap Nx Ny (d_dx D) (d_dy D) r) = inside D (deep d P) r.
Proof using OK.
  destruct (ok_d D OK) as [D1 D2].
  assert (forall W e v, (0 < e)%Q -> Qfloor (wrap1 W e v / e + (1#2)) mod W = Qfloor (v / e + (1#2)) mod W) as K.
  { intros W e v He. unfold wrap1. destruct (negb _); [|destruct (negb _)]; [| |reflexivity].
    - rewrite (Qfloor_comp _ (v / e + (1#2) + inject_Z (- W))) by (rewrite inject_Z_opp; field; lra). rewrite floor_shift. replace (Qfloor (v / e + (1#2)) + - W) with (Qfloor (v / e + (1#2)) + (-1) * W) by ring. apply Z_mod_plus_full.
    - rewrite (Qfloor_comp _ (v / e + (1#2) + inject_Z W)) by (field; lra). rewrite floor_shift. replace (Qfloor (v / e + (1#2)) + W) with (Qfloor (v / e + (1#2)) + 1 * W) by ring. apply Z_mod_plus_full. }
  unfold inside, gwrap. cbn [px py]. destruct (px _ r) as [x|]; [|reflexivity]. destruct (py _ r) as [z|]; [|reflexivity]. cbn [option_map].
  rewrite !K by assumption. reflexivity.
Qed.
(** a particle adds nothing to cells more than three cells away *)
Lemma gdep_far d sp r f a b : fast_ok r -> 0 <= a < Nx -> 0 <= b < Ny -> deep (d + 3) P a b = true -> inside D (deep d P) r = false ->
  (gdep Nx Ny (d_dx D) (d_dy D) (d_dt D) sp r f [a; b] == 0)%Q.
Proof using OK.
  intros ((x & z & Ex & Ez) & V1 & V2) Ha Hb H I. destruct (ok_d D OK) as [D1 D2]. destruct (cdt2_ok D OK) as (T1 & T2 & T3).
  unfold gdep. apply qsum_zero. intros e Ie. destruct (kevs_in _ _ _ _ _ Ie) as [I1 I2]. rewrite list_eqb2.
  destruct (Z.eqb_spec ((k_ix (whole Nx Ny (d_dx D) (d_dy D)) (d_dt D) (bare r) + (Z.of_nat (e_i e) - 2)) mod Nx) a) as [Ea|]; [|reflexivity].
  destruct (Z.eqb_spec ((k_iy (whole Nx Ny (d_dx D) (d_dy D)) (d_dt D) (bare r) + (Z.of_nat (e_j e) - 2)) mod Ny) b) as [Eb|]; [|reflexivity].
  exfalso. assert (inside D (deep d P) r = true) as K; [|congruence].
  apply inside_deep. exists x, z. split; [exact Ex|]. split; [exact Ez|].
  assert (forall u d0, (- (d0 / 2) <= u /\ u <= d0 / 2 -> - (inject_Z 1 * d0) <= - u <= inject_Z 1 * d0))%Q as Q1.
  { intros u d0 [U1 U2]. change (inject_Z 1) with 1%Q. unfold Qdiv in *. change (/ 2)%Q with (1#2)%Q in *. split; lra. }
  pose proof (floor_near x _ _ 1 D1 (Q1 _ _ (half_cell _ _ _ _ T1 T2 V1))) as R1. pose proof (floor_near z _ _ 1 D2 (Q1 _ _ (half_cell _ _ _ _ T1 T3 V2))) as R2. cbv zeta in R1, R2.
  assert (k_ix (whole Nx Ny (d_dx D) (d_dy D)) (d_dt D) (bare r) = Qfloor ((x + - (cdt2 D * b_ig (other _ r) * b_ux (other _ r))) / d_dx D + (1#2))) as E1.
  { unfold k_ix. apply Qfloor_comp. unfold k_X0, bare, load, vel, cdt2. cbn [l_p p_x p_ux p_ig M_PartSync.row whole g_x0 g_dx val]. rewrite Ex. cbn [val]. field. lra. }
  assert (k_iy (whole Nx Ny (d_dx D) (d_dy D)) (d_dt D) (bare r) = Qfloor ((z + - (cdt2 D * b_ig (other _ r) * b_uy (other _ r))) / d_dy D + (1#2))) as E2.
  { unfold k_iy. apply Qfloor_comp. unfold k_Y0, bare, load, vel, cdt2. cbn [l_p p_y p_uy p_ig M_PartSync.row whole g_y0 g_dy val]. rewrite Ez. cbn [val]. field. lra. }
  rewrite <- E1 in R1. rewrite <- E2 in R2. clear E1 E2 Ie.
  set (kx := k_ix _ _ _) in *. set (ky := k_iy _ _ _) in *. set (A := Qfloor (x / d_dx D + (1#2))) in *. set (B := Qfloor (z / d_dy D + (1#2))) in *. clearbody kx ky A B.
  apply (deep_near d 3 a b); [exact H| |].
  - exists (A - (kx + (Z.of_nat (e_i e) - 2))). split; [lia|]. rewrite <- Ea, Zplus_mod_idemp_l. f_equal. ring.
  - exists (B - (ky + (Z.of_nat (e_j e) - 2))). split; [lia|]. rewrite <- Eb, Zplus_mod_idemp_l. f_equal. ring.
Qed.
End Region.
