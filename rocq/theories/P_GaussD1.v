(** Gauss' law over whole runs in 3D, part 1: the charge density of particles on the whole periodic grid. *)
From Coq Require Import QArith Qabs Qround Qcanon Permutation Lqa.
From Verif Require Import Base M_Layout M_PartSync S_PartSync M_FieldSync S_FieldSync M_Maxwell S_Maxwell M_Deposit S_Deposit M_Push S_Push P_Deposit P_Deposit2 P_Deposit5 P_Deposit9 P_Push P_Layout P_FieldGeo M_Step S_Step P_Step1 P_Step2 P_Step3 P_Step4 P_Step5 P_Step6 S_Gauss P_Gauss1 M_Step3D S_Step3D P_StepD1 P_StepD2 P_StepD3 P_StepD4 P_StepD5 P_StepD6 S_Gauss3D.
Local Open Scope list_scope.
Local Open Scope Z_scope.

Section Particle.
Variable D : domain3.
Hypothesis OK : domain3_ok D.
Local Notation Nx := (cells3_x D). Local Notation Ny := (cells3_y D). Local Notation Nz := (cells3_z D).
Local Notation dx := (e_dx D). Local Notation dy := (e_dy D). Local Notation dz := (e_dz D). Local Notation dt := (e_dt D).
Local Notation G := (whole3 Nx Ny Nz dx dy dz).
Lemma cells3_big : 1 < Nx /\ 1 < Ny /\ 1 < Nz.
Proof. destruct (ok3_n D OK) as (N1 & N2 & N3). destruct (ok3_g D OK) as (G1 & G2 & G3 & G4). unfold cells3_x, cells3_y, cells3_z. nia. Qed.
Lemma cells3_pos : 0 < Nx /\ 0 < Ny /\ 0 < Nz.
Proof. destruct cells3_big as (P1 & P2 & P3). lia. Qed.
Lemma whole3_ok : grid3_ok G.
Proof. destruct cells3_big as (P1 & P2 & P3). destruct (ok3_d D OK) as (D1 & D2 & D3). repeat split; assumption. Qed.
Definition fast3_ok (r : prow body) : Prop :=
  placed r /\ (Qabs (b_ux (other _ r) * b_ig (other _ r)) <= 1)%Q /\ (Qabs (b_uy (other _ r) * b_ig (other _ r)) <= 1)%Q /\ (Qabs (b_uz (other _ r) * b_ig (other _ r)) <= 1)%Q.
Lemma one_cell3_ok u ig d : (0 < dt)%Q -> (LIGHT_SPEED * dt <= d)%Q -> (Qabs (u * ig) <= 1)%Q -> one_cell u ig dt d.
Proof.
  intros Ht Hd H. unfold one_cell. assert (u * LIGHT_SPEED * ig * dt == (u * ig) * (LIGHT_SPEED * dt))%Q as E by ring. rewrite E, Qabs_Qmult.
  assert (0 < LIGHT_SPEED * dt)%Q as P by (unfold LIGHT_SPEED; lra). rewrite (Qabs_pos (LIGHT_SPEED * dt)) by lra.
  eapply Qle_trans; [apply Qmult_le_compat_r; [exact H|lra]|]. lra.
Qed.
Lemma slow3_ok r : fast3_ok r -> slow3 G dt (bare3 r).
Proof. intros (_ & H1 & H2 & H3). destruct (ok3_t D OK) as (T1 & T2 & T3 & T4). split; [|split]; apply one_cell3_ok; auto. Qed.
Lemma charge_density3 q h lo len a b c r : 0 <= a < Nx -> 0 <= b < Ny -> 0 <= c < Nz ->
  covers lo len (X3 G dt h (bare3 r)) -> covers lo len (Y3 G dt h (bare3 r)) -> covers lo len (Z3 G dt h (bare3 r)) ->
  (density3 G dt q lo len h a b c (bare3 r) == charge_of3 D q h a b c r)%Q.
Proof.
  intros Ha Hb Hc Cx Cy Cz. destruct cells3_pos as (P1 & P2 & P3). destruct (ok3_d D OK) as (D1 & D2 & D3). unfold density3, charge_of3. cbv zeta. cbn [whole3 h_nx h_ny h_nz h_dx h_dy h_dz].
  rewrite (periodic_share_any Nx a _ lo len Ha Cx), (periodic_share_any Ny b _ lo len Hb Cy), (periodic_share_any Nz c _ lo len Hc Cz).
  assert (~ (dx == 0)%Q) as Z1 by lra. assert (~ (dy == 0)%Q) as Z2 by lra. assert (~ (dz == 0)%Q) as Z3' by lra.
  rewrite (periodic_share_eq Nx a ((val (px _ r) + h * (b_ux (other _ r) * LIGHT_SPEED * b_ig (other _ r)) * dt) / dx) (X3 G dt h (bare3 r)) P1).
  2:{ unfold X3, scaled. cbn [whole3 h_x0 h_dx bare3 load3 l_p p_x p_ux p_ig M_PartSync.row]. field. exact Z1. }
  rewrite (periodic_share_eq Ny b ((val (py _ r) + h * (b_uy (other _ r) * LIGHT_SPEED * b_ig (other _ r)) * dt) / dy) (Y3 G dt h (bare3 r)) P2).
  2:{ unfold Y3, scaled. cbn [whole3 h_y0 h_dy bare3 load3 l_p p_y p_uy p_ig M_PartSync.row]. field. exact Z2. }
  rewrite (periodic_share_eq Nz c ((val (pz _ r) + h * (b_uz (other _ r) * LIGHT_SPEED * b_ig (other _ r)) * dt) / dz) (Z3 G dt h (bare3 r)) P3).
  2:{ unfold Z3, scaled. cbn [whole3 h_z0 h_dz bare3 load3 l_p p_z p_uz p_ig M_PartSync.row]. field. exact Z3'. }
  reflexivity.
Qed.
Lemma list_eqb3 (x y z a b c : Z) : list_eqb [x; y; z] [a; b; c] = (x =? a) && (y =? b) && (z =? c).
Proof. unfold list_eqb. destruct (list_eq_dec Z.eq_dec [x; y; z] [a; b; c]) as [E|E], (Z.eqb_spec x a), (Z.eqb_spec y b), (Z.eqb_spec z c); cbn [andb]; congruence. Qed.
Lemma flat3_inj N M u v w a b c : 0 <= v < N -> 0 <= b < N -> 0 <= w < M -> 0 <= c < M -> w + v * M + u * (N * M) = c + b * M + a * (N * M) -> u = a /\ v = b /\ w = c.
Proof.
  intros Hv Hb Hw Hc E. assert (w = c /\ v + u * N = b + a * N) as [-> E2].
  { assert (w - c = M * ((b + a * N) - (v + u * N))) as K by nia. assert ((b + a * N) - (v + u * N) = 0) as K0 by nia. split; nia. }
  assert (u = a) by nia. subst. split; [reflexivity|]. split; [lia|reflexivity].
Qed.
Local Notation kernel3 q := (current_deposit_3d_fast G dt (q / (h_dx G * h_dy G * h_dz G)) (q / (h_dy G * h_dz G * dt)) (q / (h_dx G * h_dz G * dt)) (q / (h_dx G * h_dy G * dt)))%Q.
Lemma gdep3_kernel sp r f a b c : 0 <= a < Nx -> 0 <= b < Ny -> 0 <= c < Nz ->
  (gdep3 Nx Ny Nz dx dy dz dt sp r f [a; b; c] == arrf f (kernel3 (sp_q sp) reset_current (bare3 r)) (at3 G a b c))%Q.
Proof.
  intros Ha Hb Hc. destruct (ok3_d D OK) as (D1 & D2 & D3). destruct cells3_big as (B1 & B2 & B3). destruct cells3_pos as (P1 & P2 & P3).
  rewrite (kernel_events3 G dt (sp_q sp) (bare3 r) reset_current D1 D2 D3 B1 B2 B3).
  rewrite add_evs_f. assert (arrf f reset_current (at3 G a b c) == 0)%Q as E0 by (destruct f as [|[|[|f]]]; reflexivity). rewrite E0, Qplus_0_l.
  unfold gdep3, hit. cbv zeta. apply qsum_ext. intros e I. rewrite list_eqb3.
  assert (m_idx G dt (bare3 r) e = (m_iz G dt (bare3 r) + (Z.of_nat (e_k e) - 2)) mod Nz + (m_iy G dt (bare3 r) + (Z.of_nat (e_j e) - 2)) mod Ny * Nz + (m_ix G dt (bare3 r) + (Z.of_nat (e_i e) - 2)) mod Nx * (Ny * Nz)) as Ei.
  { reflexivity. }
  rewrite Ei. unfold at3. cbn [whole3 h_ny h_nz].
  set (u := (m_ix _ _ _ + _) mod Nx). set (v := (m_iy _ _ _ + _) mod Ny). set (w := (m_iz _ _ _ + _) mod Nz).
  assert (0 <= u < Nx) by (apply Z.mod_pos_bound; exact P1). assert (0 <= v < Ny) by (apply Z.mod_pos_bound; exact P2). assert (0 <= w < Nz) by (apply Z.mod_pos_bound; exact P3). clearbody u v w.
  destruct (Z.eqb_spec (w + v * Nz + u * (Ny * Nz)) (c + b * Nz + a * (Ny * Nz))) as [E|E].
  - destruct (flat3_inj Ny Nz u v w a b c) as (-> & -> & ->); auto. rewrite !Z.eqb_refl. reflexivity.
  - destruct (Z.eqb_spec u a) as [->|]; [|reflexivity]. destruct (Z.eqb_spec v b) as [->|]; [|reflexivity]. destruct (Z.eqb_spec w c) as [->|]; [congruence|reflexivity].
Qed.
Lemma alive_one3 r : fast3_ok r -> S_Deposit.alive [bare3 r] = [bare3 r].
Proof. intros (P & _). destruct (bare3_flags r P) as [F1 F2]. rewrite alive_cons, F1, F2. reflexivity. Qed.
Lemma deposit_one3 q A r : fast3_ok r -> fused_deposition_3d G dt q A [bare3 r] = kernel3 q A (bare3 r).
Proof. intros (P & _). destruct (bare3_flags r P) as [F1 F2]. unfold fused_deposition_3d. rewrite deposit_cons, F1, F2. reflexivity. Qed.
Lemma window3 r : exists lo len, covers3 G dt lo len (bare3 r).
Proof.
  destruct (covering [X3 G dt (1#2) (bare3 r); X3 G dt (-1#2) (bare3 r); Y3 G dt (1#2) (bare3 r); Y3 G dt (-1#2) (bare3 r); Z3 G dt (1#2) (bare3 r); Z3 G dt (-1#2) (bare3 r)]) as (lo & len & H).
  exists lo, len. intros h [->| ->]; (split; [|split]); apply H; cbn [In]; auto 10.
Qed.
Lemma not_zero_dt3 : ~ (dt == 0)%Q.
Proof. destruct (ok3_t D OK) as (T1 & _). lra. Qed.
Lemma particle_rho3 sp r a b c : fast3_ok r -> 0 <= a < Nx -> 0 <= b < Ny -> 0 <= c < Nz -> (gdep3 Nx Ny Nz dx dy dz dt sp r 3 [a; b; c] == charge_of3 D (sp_q sp) (1#2) a b c r)%Q.
Proof.
  intros F Ha Hb Hc. rewrite gdep3_kernel by assumption. cbn [arrf]. rewrite <- deposit_one3 by exact F. destruct (window3 r) as (lo & len & C).
  rewrite (list3_rho G dt (sp_q sp) (fused_deposition_3d G dt (sp_q sp)) [bare3 r] whole3_ok not_zero_dt3 (or_intror eq_refl)) with (lo := lo) (len := len); auto.
  - rewrite alive_one3 by exact F. rewrite qsum_cons. cbn [qsum fold_right reset_current a_rho]. destruct (C (1#2) (or_introl eq_refl)) as (C1 & C2 & C3).
    rewrite (charge_density3 (sp_q sp) (1#2) lo len a b c r Ha Hb Hc C1 C2 C3). ring.
  - rewrite alive_one3 by exact F. intros p [<-|[]]. apply slow3_ok. exact F.
  - rewrite alive_one3 by exact F. intros p [<-|[]]. exact C.
Qed.
Lemma particle_continuity3 sp r a b c : fast3_ok r -> 0 <= a < Nx -> 0 <= b < Ny -> 0 <= c < Nz ->
  let j f a b c := gdep3 Nx Ny Nz dx dy dz dt sp r f [a; b; c] in
  (charge_of3 D (sp_q sp) (1#2) a b c r - charge_of3 D (sp_q sp) (-1#2) a b c r
   + dt * ((j 0%nat a b c - j 0%nat ((a - 1) mod Nx) b c) / dx + (j 1%nat a b c - j 1%nat a ((b - 1) mod Ny) c) / dy + (j 2%nat a b c - j 2%nat a b ((c - 1) mod Nz)) / dz) == 0)%Q.
Proof.
  intros F Ha Hb Hc j. unfold j. clear j. destruct cells3_pos as (P1 & P2 & P3).
  assert (0 <= (a - 1) mod Nx < Nx) by (apply Z.mod_pos_bound; exact P1). assert (0 <= (b - 1) mod Ny < Ny) by (apply Z.mod_pos_bound; exact P2). assert (0 <= (c - 1) mod Nz < Nz) by (apply Z.mod_pos_bound; exact P3).
  rewrite !gdep3_kernel by assumption. cbn [arrf]. rewrite <- deposit_one3 by exact F. destruct (window3 r) as (lo & len & C).
  pose proof (list3_continuity G dt (sp_q sp) (fused_deposition_3d G dt (sp_q sp)) [bare3 r] whole3_ok not_zero_dt3 (or_intror eq_refl)) as K.
  rewrite alive_one3 in K by exact F.
  specialize (K ltac:(intros p [<-|[]]; apply slow3_ok; exact F) lo len ltac:(intros p [<-|[]]; exact C) reset_current a b c Ha Hb Hc). cbv zeta in K.
  rewrite !qsum_cons in K. cbn [qsum fold_right reset_current a_jx a_jy a_jz whole3 h_nx h_ny h_nz h_dx h_dy h_dz] in K.
  destruct (C (1#2) (or_introl eq_refl)) as (C1 & C2 & C3). destruct (C (-1#2) (or_intror eq_refl)) as (C4 & C5 & C6).
  rewrite (charge_density3 (sp_q sp) (1#2) lo len a b c r Ha Hb Hc C1 C2 C3), (charge_density3 (sp_q sp) (-1#2) lo len a b c r Ha Hb Hc C4 C5 C6) in K.
  unfold Qdiv in *. cbn [whole3 h_nx h_ny h_nz] in K. lra.
Qed.
(** ** the charge density under the operations of a step *)
Lemma charge_of3_rw q h i j k r r' u : (b_w (other _ r) == b_w (other _ r'))%Q ->
  (val (px _ r) + h * (b_ux (other _ r) * LIGHT_SPEED * b_ig (other _ r)) * dt == val (px _ r') + u * (b_ux (other _ r') * LIGHT_SPEED * b_ig (other _ r')) * dt)%Q ->
  (val (py _ r) + h * (b_uy (other _ r) * LIGHT_SPEED * b_ig (other _ r)) * dt == val (py _ r') + u * (b_uy (other _ r') * LIGHT_SPEED * b_ig (other _ r')) * dt)%Q ->
  (val (pz _ r) + h * (b_uz (other _ r) * LIGHT_SPEED * b_ig (other _ r)) * dt == val (pz _ r') + u * (b_uz (other _ r') * LIGHT_SPEED * b_ig (other _ r')) * dt)%Q ->
  (charge_of3 D q h i j k r == charge_of3 D q u i j k r')%Q.
Proof.
  intros E1 E2 E3 E4. destruct cells3_pos as (P1 & P2 & P3). unfold charge_of3. cbv zeta. rewrite E1.
  match goal with |- (_ * periodic_share Nx i ?X * periodic_share Ny j ?Y * periodic_share Nz k ?Z == _ * periodic_share Nx i ?X' * periodic_share Ny j ?Y' * periodic_share Nz k ?Z')%Q =>
    rewrite (periodic_share_eq Nx i X' X P1), (periodic_share_eq Ny j Y' Y P2), (periodic_share_eq Nz k Z' Z P3); [reflexivity| | |] end.
  - unfold Qdiv. rewrite E4. reflexivity.
  - unfold Qdiv. rewrite E3. reflexivity.
  - unfold Qdiv. rewrite E2. reflexivity.
Qed.
Lemma charge_of3_eq q h i j k r r' : canon r = canon r' -> (charge_of3 D q h i j k r == charge_of3 D q h i j k r')%Q.
Proof.
  intro E. destruct (canon_load3 r r' E) as [P _]. destruct P as (E1 & E2 & E3 & E4 & E5 & E6 & E7 & E8 & _).
  cbn [load3 l_p p_x p_y p_z p_ux p_uy p_uz p_ig p_w M_PartSync.row] in *. apply charge_of3_rw; [exact E8|rewrite E1, E4, E7; reflexivity|rewrite E2, E5, E7; reflexivity|rewrite E3, E6, E7; reflexivity].
Qed.
Lemma charge_of3_mod q h i j k r : charge_of3 D q h (i mod Nx) (j mod Ny) (k mod Nz) r = charge_of3 D q h i j k r.
Proof. unfold charge_of3. rewrite !periodic_share_mod. reflexivity. Qed.
Lemma charge_of3_gwrap q h i j k r : placed r -> (charge_of3 D q h i j k (gwrap3 Nx Ny Nz dx dy dz r) == charge_of3 D q h i j k r)%Q.
Proof.
  intros (x & y & z & E1 & E2 & E3). destruct cells3_pos as (P1 & P2 & P3). destruct (ok3_d D OK) as (D1 & D2 & D3). unfold charge_of3. cbv zeta. cbn [gwrap3 px py pz other]. rewrite E1, E2, E3. cbn [option_map val].
  rewrite (wrap1_share Nx dx x _ P1 ltac:(lra)), (wrap1_share Ny dy y _ P2 ltac:(lra)), (wrap1_share Nz dz z _ P3 ltac:(lra)). reflexivity.
Qed.
Lemma charge_of3_grow rsqrt sp FE FB q i j k r : placed r ->
  (charge_of3 D q (-1#2) i j k (grow3 rsqrt Nx Ny Nz dx dy dz dt sp FE FB r) == charge_of3 D q (1#2) i j k r)%Q.
Proof.
  intros (x & y & z & E1 & E2 & E3). unfold grow3, gslot3, one.
  assert (skipped (load3 (live r)) = false) as S.
  { unfold skipped, load3. cbn [l_p p_dead p_nan M_PartSync.row M_PartSync.dead]. rewrite E1, E2, E3. reflexivity. }
  rewrite S. cbv zeta. unfold ginterp3 at 1. cbn [obind].
  unfold push_momentum. cbv zeta. cbn [l_p l_f]. destruct (boris_inline _ _ _ _ _ _ _ _) as [[[ux uy] uz] ig].
  apply charge_of3_rw; unfold rowof, store3; cbn [l_p l_f M_PartSync.row px py pz other b_w b_ux b_uy b_uz b_ig val push_position_3d p_x p_y p_z p_ux p_uy p_uz p_ig load3]; rewrite ?E1, ?E2, ?E3; cbn [isnan val].
  - reflexivity.
  - ring.
  - ring.
  - ring.
Qed.
End Particle.
