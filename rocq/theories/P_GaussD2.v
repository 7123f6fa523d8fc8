(** Gauss' law over whole runs in 3D, part 2: one step and many steps. *)
From Coq Require Import QArith Qabs Qround Qcanon Permutation Lqa.
From Verif Require Import Base M_Layout S_Layout M_PartSync S_PartSync M_FieldSync S_FieldSync M_Maxwell S_Maxwell M_Deposit S_Deposit M_Push P_Layout P_Deposit P_Deposit5 P_FieldGeo P_Maxwell P_Maxwell3 M_Step S_Step P_Step1 P_Step2 P_Step3 P_Step4 P_Step5 P_Step6 P_Step7 P_Step8 S_Gauss P_Gauss1 P_Gauss2 M_Step3D S_Step3D P_StepD1 P_StepD2 P_StepD3 P_StepD4 P_StepD5 P_StepD6 P_StepD7 P_StepD8 S_Gauss3D P_GaussD1.
Local Open Scope list_scope.
Local Open Scope Z_scope.

(** * Values of the whole domain *)
Lemma cut_axis n N i : 0 < n -> 0 <= i < N * n -> 0 <= i / n < N /\ i / n * n + i mod n = i.
Proof.
  intros Hn H. split; [split; [apply Z.div_pos; lia|apply Z.div_lt_upper_bound; [lia|rewrite Z.mul_comm; lia]]|]. rewrite Z.mul_comm. symmetry. apply Z.div_mod. lia.
Qed.
Lemma flat_place NX NY NZ x y z : 0 <= x < NX -> 0 <= y < NY -> 0 <= z < NZ -> let p := (z * NY + y) * NX + x in
  0 <= p /\ p < NX * NY * NZ /\ p mod NX = x /\ (p / NX) mod NY = y /\ p / NX / NY = z.
Proof.
  intros Hx Hy Hz p. assert (0 <= z * NY + y < NZ * NY) as H by nia. unfold p. set (q := z * NY + y) in *.
  assert ((q * NX + x) / NX = q) as E by (rewrite Z.add_comm, Z.div_add, Z.div_small by (clear - Hx; lia); reflexivity).
  split; [nia|]. split; [nia|]. split; [rewrite Z.add_comm, Z.mod_add, Z.mod_small by (clear - Hx; lia); reflexivity|]. rewrite E. unfold q. split.
  - rewrite Z.add_comm, Z.mod_add, Z.mod_small by (clear - Hy; lia). reflexivity.
  - rewrite Z.add_comm, Z.div_add, Z.div_small by (clear - Hy; lia). reflexivity.
Qed.
Section Read.
Variable D : domain3.
Hypothesis OK : domain3_ok D.
Local Notation axes := [e_ax D; e_ay D; e_az D]. Local Notation ns := [e_nx D; e_ny D; e_nz D].
Local Notation Nx := (cells3_x D). Local Notation Ny := (cells3_y D). Local Notation Nz := (cells3_z D).
Local Notation sv F := (shown (Q2Qc 0) axes ns (position3 (e_ax D) (e_ay D)) F 0).
Lemma shown0_3 F f i j k : sv F f [i; j; k] = F f [i mod Nx; j mod Ny; k mod Nz].
Proof.
  destruct (ok3_n D OK) as (N1 & N2 & N3). unfold shown. rewrite place3_wrap by exact OK. unfold cells3_x, cells3_y, cells3_z.
  change (pnum 0) with 0. rewrite Z.mod_0_l, Z.div_0_l, Z.mod_0_l, Z.div_0_l by lia. rewrite !Z.mul_0_l, !Z.add_0_l. reflexivity.
Qed.
Lemma stored3_at i j k : let I := i mod Nx in let J := j mod Ny in let K := k mod Nz in let p := Z.to_nat ((K / e_nz D * ax_n (e_ay D) + J / e_ny D) * ax_n (e_ax D) + I / e_nx D) in
  (p < npatches3 D)%nat /\ interior ns [I mod e_nx D; J mod e_ny D; K mod e_nz D] /\
  place axes ns (position3 (e_ax D) (e_ay D) p) [I mod e_nx D; J mod e_ny D; K mod e_nz D] = Some [i mod Nx; j mod Ny; k mod Nz].
Proof.
  intros I J K p. destruct (ok3_n D OK) as (N1 & N2 & N3). destruct (ok3_g D OK) as (G1 & G2 & G3 & G4). destruct (cells3_pos D OK) as (P1 & P2 & P3).
  assert (0 <= I < Nx) as HI by (apply Z.mod_pos_bound; exact P1). assert (0 <= J < Ny) as HJ by (apply Z.mod_pos_bound; exact P2). assert (0 <= K < Nz) as HK by (apply Z.mod_pos_bound; exact P3).
  fold I J K. clearbody I J K. unfold cells3_x in HI. unfold cells3_y in HJ. unfold cells3_z in HK.
  assert (0 < e_nx D) as X0 by (clear - G1 G2; lia). assert (0 < e_ny D) as Y0 by (clear - G1 G3; lia). assert (0 < e_nz D) as Z0 by (clear - G1 G4; lia).
  destruct (cut_axis (e_nx D) (ax_n (e_ax D)) I X0 HI) as (HX & EX). destruct (cut_axis (e_ny D) (ax_n (e_ay D)) J Y0 HJ) as (HY & EY). destruct (cut_axis (e_nz D) (ax_n (e_az D)) K Z0 HK) as (HZ & EZ).
  destruct (flat_place (ax_n (e_ax D)) (ax_n (e_ay D)) (ax_n (e_az D)) _ _ _ HX HY HZ) as (Q0 & Q1 & Q2 & Q3 & Q4).
  assert (Z.of_nat p = (K / e_nz D * ax_n (e_ay D) + J / e_ny D) * ax_n (e_ax D) + I / e_nx D) as Ep by (unfold p; rewrite Z2Nat.id; [reflexivity|exact Q0]).
  split; [unfold npatches3, p; apply Z2Nat.inj_lt; [exact Q0|eapply Z.le_trans; [exact Q0|apply Z.lt_le_incl; exact Q1]|exact Q1]|]. split.
  - constructor; [apply Z.mod_pos_bound; exact X0|]. constructor; [apply Z.mod_pos_bound; exact Y0|]. constructor; [apply Z.mod_pos_bound; exact Z0|constructor].
  - rewrite place3_wrap by exact OK. unfold pnum. rewrite Ep, Q2, Q3, Q4, EX, EY, EZ. rewrite (Z.mod_small I), (Z.mod_small J), (Z.mod_small K) by assumption. reflexivity.
Qed.
Lemma read_currents3 F m f i j k : currents3_are D F m -> (f < 4)%nat -> on_domain3 D m f [i; j; k] = sv F f [i; j; k].
Proof.
  intros H Hf. destruct (stored3_at i j k) as (Hp & Hc & Hg). rewrite shown0_3. unfold on_domain3, stored3. cbv zeta.
  rewrite (H f _ _ Hf Hp Hc). unfold shown. rewrite Hg. reflexivity.
Qed.
Lemma read_field3 F m f i j k : field3_is D F m -> (f < 3)%nat -> on_domain3 D m f [i; j; k] = sv F f [i; j; k].
Proof.
  intros H Hf. destruct (ok3_g D OK) as (G1 & G2 & G3 & G4). destruct (stored3_at i j k) as (Hp & Hc & Hg). rewrite shown0_3. unfold on_domain3, stored3. cbv zeta.
  rewrite (H f _ _ Hf Hp (interior_within (e_ng D) [e_nx D; e_ny D; e_nz D] _ ltac:(lia) Hc)). unfold shown. rewrite Hg. reflexivity.
Qed.
Lemma inside0_3 c : place axes ns (position3 (e_ax D) (e_ay D) 0) c <> None.
Proof.
  unfold position3. destruct c as [|a [|b [|d c]]]; [discriminate| | |]; cbn [place];
    rewrite !place1_wrap by (apply (ok3_px D OK) || apply (ok3_py D OK) || apply (ok3_pz D OK)); discriminate.
Qed.
Lemma one_patch3 : (0 < npatches3 D)%nat.
Proof. destruct (ok3_n D OK) as (N1 & N2 & N3). unfold npatches3. assert (0 < ax_n (e_ax D) * ax_n (e_ay D)) by nia. nia. Qed.

Variable eps : Qc.
Local Notation A := (qc_arith eps).
Local Notation dx := (Q2Qc (e_dx D)). Local Notation dy := (Q2Qc (e_dy D)). Local Notation dz := (Q2Qc (e_dz D)).
Lemma div_gE3 FB FJ F i j k : divE3 A (sv (gE3 eps D FB FJ F)) dx dy dz i j k = (divE3 A (sv F) dx dy dz i j k - half3 D / eps * divE3 A (sv FJ) dx dy dz i j k)%Qc.
Proof. exact (divE3_step A (Q2Qc 0) (Q2Qc 1) Qcinv Qcft ns (e_ng D) bounds3 opp3 (npatches3 D) (nbr3 (e_ax D) (e_ay D) (e_az D)) axes (position3 (e_ax D) (e_ay D)) (decomp3_ok D OK) dx dy dz 0 i j k one_patch3 (half3 D) FB FJ F eq_refl (inside0_3 _) (inside0_3 _) (inside0_3 _) (inside0_3 _)). Qed.
Lemma div_gB3 FE F i j k : divB3 A (sv (gB3 eps D FE F)) dx dy dz i j k = divB3 A (sv F) dx dy dz i j k.
Proof. exact (divB3_step A (Q2Qc 0) (Q2Qc 1) Qcinv Qcft ns (e_ng D) bounds3 opp3 (npatches3 D) (nbr3 (e_ax D) (e_ay D) (e_az D)) axes (position3 (e_ax D) (e_ay D)) (decomp3_ok D OK) dx dy dz 0 i j k one_patch3 (half3 D) FE F eq_refl (inside0_3 _) (inside0_3 _) (inside0_3 _) (inside0_3 _)). Qed.
Lemma read_divE3 F m i j k : field3_is D F m -> divE3 A (on_domain3 D m) dx dy dz i j k = divE3 A (sv F) dx dy dz i j k.
Proof. intro H. unfold divE3. rewrite !(read_field3 F m) by (auto; lia). reflexivity. Qed.
Lemma read_divB3 F m i j k : field3_is D F m -> divB3 A (on_domain3 D m) dx dy dz i j k = divB3 A (sv F) dx dy dz i j k.
Proof. intro H. unfold divB3. rewrite !(read_field3 F m) by (auto; lia). reflexivity. Qed.
Lemma read_divJ3 F m i j k : currents3_are D F m -> divE3 A (on_domain3 D m) dx dy dz i j k = divE3 A (sv F) dx dy dz i j k.
Proof. intro H. unfold divE3. rewrite !(read_currents3 F m) by (auto; lia). reflexivity. Qed.
End Read.

(** * Charge of all particles *)
Section Sum.
Variable D : domain3.
Hypothesis OK : domain3_ok D.
Local Notation Nx := (cells3_x D). Local Notation Ny := (cells3_y D). Local Notation Nz := (cells3_z D).
Local Notation dep := (gdep3 Nx Ny Nz (e_dx D) (e_dy D) (e_dz D) (e_dt D)).
Definition csum3 (sps : list species) (h : Q) (i j k : Z) (pss : list (list (list prt))) : Q :=
  qsum (fun ss => qsum (charge_of3 D (sp_q (fst ss)) h i j k) (particles (snd ss))) (combine sps pss).
Definition jsum3 (sps : list species) (f : nat) (g : list Z) (pss : list (list (list prt))) : Q :=
  qsum (fun ss => qsum (fun r => dep (fst ss) r f g) (particles (snd ss))) (combine sps pss).
Definition slow_all3 (pss : list (list (list prt))) : Prop := forall st r, In st pss -> In r (particles st) -> fast3_ok r.

Lemma all_rho3 sps pss a b c : slow_all3 pss -> 0 <= a < Nx -> 0 <= b < Ny -> 0 <= c < Nz -> (jsum3 sps 3 [a; b; c] pss == csum3 sps (1#2) a b c pss)%Q.
Proof.
  intros H Ha Hb Hc. unfold jsum3, csum3. apply qsum_ext. intros [sp st] I. cbn [fst snd]. apply qsum_ext. intros r Ir.
  apply particle_rho3; auto. apply (H st r); [eapply in_combine_r; eassumption|exact Ir].
Qed.
Lemma all_continuity3 sps pss a b c : slow_all3 pss -> 0 <= a < Nx -> 0 <= b < Ny -> 0 <= c < Nz ->
  (csum3 sps (1#2) a b c pss - csum3 sps (-1#2) a b c pss
   + e_dt D * ((jsum3 sps 0 [a; b; c] pss - jsum3 sps 0 [(a - 1) mod Nx; b; c] pss) / e_dx D + (jsum3 sps 1 [a; b; c] pss - jsum3 sps 1 [a; (b - 1) mod Ny; c] pss) / e_dy D + (jsum3 sps 2 [a; b; c] pss - jsum3 sps 2 [a; b; (c - 1) mod Nz] pss) / e_dz D) == 0)%Q.
Proof.
  intros H Ha Hb Hc. unfold jsum3, csum3. revert pss H. induction sps as [|sp sps IH]; intros pss H.
  { cbn [combine qsum fold_right]. unfold Qdiv. ring. }
  destruct pss as [|st pss]; [cbn [combine qsum fold_right]; unfold Qdiv; ring|]. cbn [combine]. rewrite !qsum_cons. cbn [fst snd].
  assert (slow_all3 pss) as H' by (intros st' r I; apply H; right; exact I). specialize (IH pss H').
  assert (forall l, (forall r, In r l -> fast3_ok r) ->
    qsum (charge_of3 D (sp_q sp) (1#2) a b c) l - qsum (charge_of3 D (sp_q sp) (-1#2) a b c) l
    + e_dt D * ((qsum (fun r => dep sp r 0%nat [a; b; c]) l - qsum (fun r => dep sp r 0%nat [(a - 1) mod Nx; b; c]) l) / e_dx D
              + (qsum (fun r => dep sp r 1%nat [a; b; c]) l - qsum (fun r => dep sp r 1%nat [a; (b - 1) mod Ny; c]) l) / e_dy D
              + (qsum (fun r => dep sp r 2%nat [a; b; c]) l - qsum (fun r => dep sp r 2%nat [a; b; (c - 1) mod Nz]) l) / e_dz D) == 0)%Q as K.
  { induction l as [|r l IHl]; intro F; [cbn [qsum fold_right]; unfold Qdiv; ring|]. rewrite !qsum_cons.
    specialize (IHl (fun x I => F x (or_intror I))). pose proof (particle_continuity3 D OK sp r a b c (F r (or_introl eq_refl)) Ha Hb Hc) as C. cbv zeta in C.
    unfold Qdiv in *. lra. }
  specialize (K (particles st) (fun r I => H st r (or_introl eq_refl) I)). unfold Qdiv in *. lra.
Qed.
Lemma csum3_forall2 (P : list (list prt) -> list (list prt) -> Prop) sps h u i j k pss pss' :
  (forall sp st st', In st pss -> P st st' -> (qsum (charge_of3 D (sp_q sp) h i j k) (particles st) == qsum (charge_of3 D (sp_q sp) u i j k) (particles st'))%Q) ->
  Forall2 P pss pss' -> (csum3 sps h i j k pss == csum3 sps u i j k pss')%Q.
Proof.
  intros K F. unfold csum3. revert sps. induction F as [|st st' pss pss' H F IH]; intros [|sp sps]; try reflexivity. cbn [combine]. rewrite !qsum_cons. cbn [fst snd].
  rewrite (K sp st st' (or_introl eq_refl) H), IH; [reflexivity|]. intros sp' x y I. apply K. right. exact I.
Qed.
Lemma csum3_canon q h i j k l : (qsum (charge_of3 D q h i j k) l == qsum (charge_of3 D q h i j k) (map canon l))%Q.
Proof. rewrite qsum_map. apply qsum_ext. intros r _. apply charge_of3_eq; [exact OK|]. symmetry. apply canon_idem. Qed.
Lemma csum3_sorted sps h i j k pss pss' : Forall2 (fun st st' => Permutation (particles st) (particles st')) pss pss' -> (csum3 sps h i j k pss == csum3 sps h i j k pss')%Q.
Proof. apply csum3_forall2. intros sp st st' _ P. apply qsum_perm. exact P. Qed.
Lemma csum3_wrapped sps h i j k pss pss' : slow_all3 pss ->
  Forall2 (fun st2 st3 => Permutation (map canon (particles st3)) (map (fun r => canon (gwrap3 Nx Ny Nz (e_dx D) (e_dy D) (e_dz D) r)) (particles st2))) pss pss' ->
  (csum3 sps h i j k pss == csum3 sps h i j k pss')%Q.
Proof.
  intros H. apply csum3_forall2. intros sp st st' I P. rewrite (csum3_canon _ _ _ _ _ (particles st')), (qsum_perm _ _ _ P), qsum_map. apply qsum_ext. intros r Ir.
  rewrite <- (charge_of3_gwrap D OK) by (apply (H st r I Ir)). apply charge_of3_eq; [exact OK|]. symmetry. apply canon_idem.
Qed.
Lemma csum3_grown rsqrt FE FB sps i j k pss pss' : length pss = length sps -> slow_all3 pss ->
  Forall2 (fun ss st2 => map canon (particles st2) = map (fun r => canon (grow3 rsqrt Nx Ny Nz (e_dx D) (e_dy D) (e_dz D) (e_dt D) (fst ss) FE FB r)) (particles (snd ss))) (combine sps pss) pss' ->
  (csum3 sps (-1#2) i j k pss' == csum3 sps (1#2) i j k pss)%Q.
Proof.
  unfold csum3. revert pss pss'. induction sps as [|sp sps IH]; intros [|st pss] pss' L H F; cbn [length] in L; try lia; cbn [combine] in F; inversion F as [|? st2 ? pss2 H1 H2]; subst; cbn [combine].
  { reflexivity. }
  rewrite !qsum_cons. cbn [fst snd] in *. rewrite (IH pss pss2) by (try lia; auto; intros st' r I; apply H; right; exact I).
  apply Qplus_comp; [|reflexivity]. rewrite csum3_canon, H1, qsum_map. apply qsum_ext. intros r Ir.
  rewrite <- (charge_of3_grow D OK rsqrt sp FE FB) by (apply (H st r (or_introl eq_refl) Ir)). apply charge_of3_eq; [exact OK|]. apply canon_idem.
Qed.
Lemma csum3_mod sps h i j k pss : (csum3 sps h (i mod Nx) (j mod Ny) (k mod Nz) pss == csum3 sps h i j k pss)%Q.
Proof. unfold csum3. apply qsum_ext. intros ss _. apply qsum_ext. intros r _. rewrite charge_of3_mod. reflexivity. Qed.
Lemma settled3_slow pss : Forall (settled3 D) pss -> slow_all3 pss.
Proof.
  intros F st r I Ir. rewrite Forall_forall in F. destruct (F st I) as [L H]. unfold particles in Ir. apply in_flat_map in Ir. destruct Ir as (l & Il & Ir).
  destruct (In_nth _ _ [] Il) as (p & Hp & <-). destruct (H p r ltac:(lia) Ir) as (x & y & z & E1 & E2 & E3 & _ & _ & _ & V1 & V2 & V3). split; [exists x, y, z; auto|auto].
Qed.
End Sum.

(** * Steps *)
Section Steps.
Variable rsqrt : Q -> Q.
Hypothesis SUB : subluminal rsqrt.
Variable eps : Qc.
Variable D : domain3.
Hypothesis OK : domain3_ok D.
Variable sps : list species.
Hypothesis U : all_fused sps.
Local Notation Nx := (cells3_x D). Local Notation Ny := (cells3_y D). Local Notation Nz := (cells3_z D).
Local Notation A := (qc_arith eps).
Local Notation dx := (Q2Qc (e_dx D)). Local Notation dy := (Q2Qc (e_dy D)). Local Notation dz := (Q2Qc (e_dz D)).
Local Notation sv F := (shown (Q2Qc 0) [e_ax D; e_ay D; e_az D] [e_nx D; e_ny D; e_nz D] (position3 (e_ax D) (e_ay D)) F 0).
Local Notation cur := (gcurrents3 Nx Ny Nz (e_dx D) (e_dy D) (e_dz D) (e_dt D) sps).

Lemma moved_all3 FE FB mE mB mJ ps mJ1 ps2 : field3_is D FE mE -> field3_is D FB mB -> length ps = length sps -> Forall (settled3 D) ps ->
  push_species3 rsqrt D sps mE mB mJ ps = Some (mJ1, ps2) -> slow_all3 ps2.
Proof.
  intros HE HB L F E. destruct (push_species3_ok rsqrt SUB D OK FE FB mE mB HE HB sps ps mJ U L F) as (mJ1' & ps2' & E' & P & V).
  rewrite E in E'. apply some_eq in E'. assert (ps2' = ps2) as -> by congruence. clear - P.
  intros st r I Ir. induction P as [|ss st' l l' [L' H] P IH]; [destruct I|]. destruct I as [<-|I]; [|exact (IH I)].
  unfold particles in Ir. apply in_flat_map in Ir. destruct Ir as (x & Ix & Ir). destruct (In_nth _ _ [] Ix) as (p & Hp & <-).
  destruct (proj2 (H p ltac:(lia)) r Ir) as (u & v & w & E1 & E2 & E3 & V1 & V2 & V3 & _). split; [exists u, v, w; auto|auto].
Qed.
Lemma cur_this3 pss f i j k : (this (sv (cur pss) f [i; j; k]) == jsum3 D sps f [i mod Nx; j mod Ny; k mod Nz] pss)%Q.
Proof. rewrite shown0_3 by exact OK. unfold gcurrents3. apply this_q2qc. Qed.
(** the charge3 density changes by minus dt times the divergence of the current *)
Lemma charge_step3 FE FB ps1 ps2 ps3 i j k : length ps1 = length sps -> slow_all3 ps1 -> slow_all3 ps2 ->
  Forall2 (fun ss st2 => map canon (particles st2) = map (fun r => canon (grow3 rsqrt Nx Ny Nz (e_dx D) (e_dy D) (e_dz D) (e_dt D) (fst ss) FE FB r)) (particles (snd ss))) (combine sps ps1) ps2 ->
  Forall2 (fun st2 st3 => Permutation (map canon (particles st3)) (map (fun r => canon (gwrap3 Nx Ny Nz (e_dx D) (e_dy D) (e_dz D) r)) (particles st2))) ps2 ps3 ->
  charge3 D sps ps3 i j k = (charge3 D sps ps1 i j k - Q2Qc (e_dt D) * divE3 A (sv (cur ps2)) dx dy dz i j k)%Qc.
Proof.
  intros L H1 H2 G W. destruct (cells3_pos D OK) as (P1 & P2 & P3). apply Qc_is_canon. rewrite this_minus, this_mult. unfold divE3. cbn [plus_ minus_ over_ qc_arith].
  rewrite !this_plus, !this_div, !this_minus, !cur_this3, !this_q2qc. unfold charge3. rewrite !this_q2qc.
  change (csum3 D sps (1#2) i j k ps3 == csum3 D sps (1#2) i j k ps1 - e_dt D * ((jsum3 D sps 0 [i mod Nx; j mod Ny; k mod Nz] ps2 - jsum3 D sps 0 [(i - 1) mod Nx; j mod Ny; k mod Nz] ps2) / e_dx D
    + (jsum3 D sps 1 [i mod Nx; j mod Ny; k mod Nz] ps2 - jsum3 D sps 1 [i mod Nx; (j - 1) mod Ny; k mod Nz] ps2) / e_dy D
    + (jsum3 D sps 2 [i mod Nx; j mod Ny; k mod Nz] ps2 - jsum3 D sps 2 [i mod Nx; j mod Ny; (k - 1) mod Nz] ps2) / e_dz D))%Q.
  rewrite <- (csum3_grown D OK rsqrt FE FB sps i j k ps1 ps2 L H1 G), <- (csum3_wrapped D OK sps (1#2) i j k ps2 ps3 H2 W).
  pose proof (all_continuity3 D OK sps ps2 (i mod Nx) (j mod Ny) (k mod Nz) H2 (Z.mod_pos_bound _ _ P1) (Z.mod_pos_bound _ _ P2) (Z.mod_pos_bound _ _ P3)) as C.
  rewrite !csum3_mod in C. rewrite !Zminus_mod_idemp_l in C. unfold Qdiv in *. lra.
Qed.

Lemma defect3_step rank s s' i j k : ready3 D sps s -> consistent3 D s -> step3d rsqrt eps D sps rank s s' ->
  defect3 eps D sps s' i j k = defect3 eps D sps s i j k /\
  divB3 A (on_domain3 D (t_B s')) dx dy dz i j k = divB3 A (on_domain3 D (t_B s)) dx dy dz i j k /\
  on_domain3 D (t_J s') 3 [i; j; k] = charge3 D sps (t_parts s') i j k /\
  ready3 D sps s' /\ consistent3 D s'.
Proof.
  intros [L F] ((FE & HE) & (FB & HB) & FJ & HJ) S.
  destruct S as [mE mB mJ ps mE1 mB1 ps1 mJ1 ps2 mJ2 ps3 mB2 mE2 A1 A2 A3 A4 A5 A6 A7 A8]. cbn [t_E t_B t_J t_parts] in *.
  pose proof (up_E3_ok eps D OK rank FB FJ FE mB mJ mE mE1 HE HB HJ A1) as HE1. set (FE1 := gE3 eps D FB FJ FE) in *.
  pose proof (up_B3_ok eps D OK rank FE1 FB mE1 mB mB1 HB HE1 A2) as HB1. set (FB1 := gB3 eps D FE1 FB) in *.
  destruct (forall2_sorted3 D ps ps1 A3 F) as (F1 & L1 & Q1).
  destruct (half_step3 rsqrt SUB D OK sps U rank FE1 FB1 mE1 mB1 mJ ps1 mJ1 ps2 mJ2 ps3 HE1 HB1 ltac:(lia) F1 A4 A5 A6) as (C & L3 & F3 & G & W).
  pose proof (moved_all3 FE1 FB1 mE1 mB1 _ ps1 mJ1 ps2 HE1 HB1 ltac:(lia) F1 A4) as M.
  fold Nx Ny Nz in C, G, W. set (FJ2 := cur ps2) in *.
  pose proof (up_B3_ok eps D OK rank FE1 FB1 mE1 mB1 mB2 HB1 HE1 A7) as HB2. set (FB2 := gB3 eps D FE1 FB1) in *.
  pose proof (up_E3_ok eps D OK rank FB2 FJ2 FE1 mB2 mJ2 mE1 mE2 HE1 HB2 C A8) as HE2.
  split; [|split; [|split; [|split]]].
  - unfold defect3, gauss3. cbn [t_E t_J t_parts].
    rewrite (read_divE3 D OK eps _ mE2 i j k HE2), (read_divE3 D OK eps _ mE i j k HE), (read_divJ3 D OK eps _ mJ2 i j k C), (read_divJ3 D OK eps _ mJ i j k HJ).
    unfold FE1 in *. rewrite !div_gE3 by exact OK.
    rewrite (charge_step3 FE1 FB1 ps1 ps2 ps3 i j k ltac:(lia) (settled3_slow D ps1 F1) M G W).
    assert (charge3 D sps ps1 i j k = charge3 D sps ps i j k) as ->.
    { unfold charge3. apply q2qc_eq. apply (csum3_sorted D sps (1#2) i j k). clear - Q1. induction Q1; constructor; [apply Permutation_sym; assumption|assumption]. }
    fold FJ2. assert (Q2Qc (e_dt D) = half3 D + half3 D)%Qc as ->.
    { unfold half3. apply Qc_is_canon. rewrite this_plus, !this_q2qc. ring. }
    unfold Qcdiv. ring.
  - rewrite (read_divB3 D OK eps _ mB2 i j k HB2), (read_divB3 D OK eps _ mB i j k HB). unfold FB2, FB1. rewrite !div_gB3 by exact OK. reflexivity.
  - rewrite (read_currents3 D OK _ mJ2 3 i j k C) by lia. destruct (cells3_pos D OK) as (P1 & P2 & P3). apply Qc_is_canon. unfold FJ2. rewrite cur_this3. unfold charge3. rewrite this_q2qc.
    rewrite (all_rho3 D OK sps ps2 _ _ _ M (Z.mod_pos_bound _ _ P1) (Z.mod_pos_bound _ _ P2) (Z.mod_pos_bound _ _ P3)). rewrite csum3_mod. apply (csum3_wrapped D OK sps (1#2) i j k ps2 ps3 M W).
  - split; assumption.
  - split; [eexists; exact HE2|]. split; eexists; eassumption.
Qed.
Lemma defect3_steps m : forall s s' i j k, ready3 D sps s -> consistent3 D s -> steps3d rsqrt eps D sps m s s' ->
  defect3 eps D sps s' i j k = defect3 eps D sps s i j k /\ divB3 A (on_domain3 D (t_B s')) dx dy dz i j k = divB3 A (on_domain3 D (t_B s)) dx dy dz i j k /\
  ((0 < m)%nat -> on_domain3 D (t_J s') 3 [i; j; k] = charge3 D sps (t_parts s') i j k) /\ ready3 D sps s' /\ consistent3 D s'.
Proof.
  induction m as [|m IH]; intros s s' i j k R C T; inversion T as [|k' rank s0 s1 s2 T1 T2]; subst.
  { split; [reflexivity|]. split; [reflexivity|]. split; [lia|]. auto. }
  destruct (defect3_step rank s s1 i j k R C T1) as (E1 & E2 & E3 & R1 & C1). destruct (IH s1 s' i j k R1 C1 T2) as (E4 & E5 & E6 & R2 & C2).
  split; [congruence|]. split; [congruence|]. split; [|auto]. intros _. destruct m as [|m]; [inversion T2; subst; exact E3|]. apply E6. lia.
Qed.
(** the field that acts on the particles in the next step *)
Lemma pushing_field3 rank s mE1 i j k : consistent3 D s -> sync_guards3 D rank (up_E3 eps D (t_B s) (t_J s) (t_E s)) mE1 ->
  gauss3 eps D mE1 (charge3 D sps (t_parts s)) i j k = defect3 eps D sps s i j k.
Proof.
  intros ((FE & HE) & (FB & HB) & FJ & HJ) A1. pose proof (up_E3_ok eps D OK rank FB FJ FE _ _ _ mE1 HE HB HJ A1) as HE1.
  unfold defect3, gauss3. rewrite (read_divE3 D OK eps _ mE1 i j k HE1), (read_divE3 D OK eps _ _ i j k HE), (read_divJ3 D OK eps _ _ i j k HJ), div_gE3 by exact OK. ring.
Qed.
End Steps.
