(** Energy of the fields, part 4: whole steps of a 3D periodic simulation. *)
From Coq Require Import QArith Qabs Qcanon Permutation Lqa.
From Verif Require Import Base M_Layout S_Layout M_PartSync S_PartSync M_FieldSync S_FieldSync M_Maxwell S_Maxwell M_Deposit S_Deposit M_Push P_Layout P_Deposit P_Deposit5 P_FieldGeo P_Maxwell P_Maxwell2 P_Maxwell3 M_Step S_Step P_Step1 P_Step2 P_Step3 P_Step4 P_Step5 P_Step6 P_Step7 P_Step8 S_Gauss P_Gauss1 P_Gauss2 M_Step3D S_Step3D P_StepD1 P_StepD2 P_StepD3 P_StepD4 P_StepD5 P_StepD6 P_StepD7 P_StepD8 S_Gauss3D P_GaussD1 P_GaussD2 S_Energy P_Energy1 P_Energy2 P_Energy3.
Local Open Scope list_scope.
Local Open Scope Z_scope.

Section Three.
Variable eps : Qc.
Variable D : domain3.
Hypothesis OK : domain3_ok D.
Local Notation Nx := (cells3_x D). Local Notation Ny := (cells3_y D). Local Notation Nz := (cells3_z D).
Local Notation dx := (Q2Qc (e_dx D)). Local Notation dy := (Q2Qc (e_dy D)). Local Notation dz := (Q2Qc (e_dz D)).
Local Notation axes := [e_ax D; e_ay D; e_az D]. Local Notation ns := [e_nx D; e_ny D; e_nz D].
Local Notation sv F := (shown (Q2Qc 0) axes ns (position3 (e_ax D) (e_ay D)) F 0).
Definition lift3 (u : nat -> list Z -> Qc) : vec := fun f i j k => u f [i; j; k].
Lemma per_sv3 F : pervec Nx Ny Nz (lift3 (sv F)).
Proof.
  destruct (P_GaussD1.cells3_pos D OK) as (P1 & P2 & P3). intro f. unfold lift3. repeat split; intros; rewrite ?shown0_3 by exact OK; f_equal.
  - rewrite <- (Z.mul_1_l Nx) at 1. rewrite Z.mod_add by lia. reflexivity.
  - rewrite <- (Z.mul_1_l Ny) at 1. rewrite Z.mod_add by lia. reflexivity.
  - rewrite <- (Z.mul_1_l Nz) at 1. rewrite Z.mod_add by lia. reflexivity.
Qed.
Lemma inner_dot3 u v : inner3 D u v = dot Nx Ny Nz (lift3 u) (lift3 v).
Proof. reflexivity. Qed.
Lemma curl_cb3 u f i j k : curl3 D u f [i; j; k] = cb dx dy dz (lift3 u) f i j k.
Proof.
  unfold cb, curl3, lift3, bx, by_, bz. destruct f as [|[|f]]; reflexivity.
Qed.
Lemma value_gE3 FB FJ F f i j k : (f < 3)%nat ->
  sv (gE3 eps D FB FJ F) f [i; j; k] = (sv F f [i; j; k] + half3 D * light2 * curl3 D (sv FB) f [i; j; k] - half3 D / eps * sv FJ f [i; j; k])%Qc.
Proof.
  intro Hf. unfold gE3. rewrite (shown_step (Q2Qc 0) ns (e_ng D) bounds3 opp3 (npatches3 D) (nbr3 (e_ax D) (e_ay D) (e_az D)) axes (position3 (e_ax D) (e_ay D)) (decomp3_ok D OK)); [|apply local_SE3|apply (one_patch3 D OK)|reflexivity|apply (inside0_3 D OK)].
  cbv beta iota zeta delta [SE3]. unfold light2, curl3. destruct f as [|[|[|f]]]; [| | |lia]; offsets; unfold qc_arith; cbn [plus_ minus_ times_ over_ minus1_ csq eps0]; unfold Qcdiv; ring.
Qed.
Lemma value_gB3 FE F f i j k : (f < 3)%nat ->
  sv (gB3 eps D FE F) f [i; j; k] = (sv F f [i; j; k] - half3 D * cf dx dy dz (lift3 (sv FE)) f i j k)%Qc.
Proof.
  intro Hf. unfold gB3. rewrite (shown_step (Q2Qc 0) ns (e_ng D) bounds3 opp3 (npatches3 D) (nbr3 (e_ax D) (e_ay D) (e_az D)) axes (position3 (e_ax D) (e_ay D)) (decomp3_ok D OK)); [|apply local_SB3|apply (one_patch3 D OK)|reflexivity|apply (inside0_3 D OK)].
  cbv beta iota zeta delta [SB3]. unfold cf, lift3, fx, fy, fz. destruct f as [|[|[|f]]]; [| | |lia]; offsets; unfold qc_arith; cbn [plus_ minus_ times_ over_ minus1_ csq eps0]; unfold Qcdiv; ring.
Qed.
Lemma energy_of3_ext E E' B B' : (forall f i j k, (f < 3)%nat -> E f [i; j; k] = E' f [i; j; k]) -> (forall f i j k, (f < 3)%nat -> B f [i; j; k] = B' f [i; j; k]) ->
  energy_of3 D E B = ham Nx Ny Nz dx dy dz (half3 D) light2 (lift3 E') (lift3 B').
Proof.
  intros H1 H2. unfold energy_of3, ham, norm3. rewrite !inner_dot3.
  rewrite (dot_ext Nx Ny Nz (lift3 E) (lift3 E') (lift3 E) (lift3 E')) by (intros; unfold lift3; auto).
  rewrite (dot_ext Nx Ny Nz (lift3 B) (lift3 B') (lift3 B) (lift3 B')) by (intros; unfold lift3; auto).
  assert (forall f i j k, (f < 3)%nat -> lift3 (curl3 D B) f i j k = cb dx dy dz (lift3 B') f i j k) as K.
  { intros f i j k Hf. unfold lift3 at 1. rewrite (curl_cb3 B f i j k). unfold cb, bx, by_, bz, lift3. destruct f as [|[|[|f]]]; [| | |lia]; rewrite !H2 by lia; reflexivity. }
  rewrite (dot_ext Nx Ny Nz (lift3 (curl3 D B)) (cb dx dy dz (lift3 B')) (lift3 (curl3 D B)) (cb dx dy dz (lift3 B'))) by exact K. ring.
Qed.

Section Steps.
Variable rsqrt : Q -> Q.
Hypothesis SUB : subluminal rsqrt.
Variable sps : list species.
Hypothesis U : all_fused sps.
Local Notation cur := (gcurrents3 Nx Ny Nz (e_dx D) (e_dy D) (e_dz D) (e_dt D) sps).
Lemma balance3_step rank s s' : ready3 D sps s -> consistent3 D s -> step3d rsqrt eps D sps rank s s' ->
  energy3 D eps s' = (energy3 D eps s - Q2Qc (2 * e_dt D) / eps * inner3 D (on_domain3 D (t_J s')) (on_domain3 D (t_E s')))%Qc /\
  (no_particles (t_parts s) -> no_particles (t_parts s') /\ forall f i j k, (f < 4)%nat -> on_domain3 D (t_J s') f [i; j; k] = Q2Qc 0) /\
  ready3 D sps s' /\ consistent3 D s'.
Proof.
  intros [L F] ((FE & HE) & (FB & HB) & FJ & HJ) S.
  destruct S as [mE mB mJ ps mE1 mB1 ps1 mJ1 ps2 mJ2 ps3 mB2 mE2 A1 A2 A3 A4 A5 A6 A7 A8]. cbn [t_E t_B t_J t_parts] in *.
  pose proof (up_E3_ok eps D OK rank FB FJ FE mB mJ mE mE1 HE HB HJ A1) as HE1. set (FE1 := gE3 eps D FB FJ FE) in *.
  pose proof (up_B3_ok eps D OK rank FE1 FB mE1 mB mB1 HB HE1 A2) as HB1. set (FB1 := gB3 eps D FE1 FB) in *.
  destruct (forall2_sorted3 D ps ps1 A3 F) as (F1 & L1 & Q1).
  destruct (half_step3 rsqrt SUB D OK sps U rank FE1 FB1 mE1 mB1 mJ ps1 mJ1 ps2 mJ2 ps3 HE1 HB1 ltac:(lia) F1 A4 A5 A6) as (C & L3 & F3 & G & W).
  fold Nx Ny Nz in C, G, W. set (FJ2 := cur ps2) in *.
  pose proof (up_B3_ok eps D OK rank FE1 FB1 mE1 mB1 mB2 HB1 HE1 A7) as HB2. set (FB2 := gB3 eps D FE1 FB1) in *.
  pose proof (up_E3_ok eps D OK rank FB2 FJ2 FE1 mB2 mJ2 mE1 mE2 HE1 HB2 C A8) as HE2. set (FE2 := gE3 eps D FB2 FJ2 FE1) in *.
  split; [|split; [|split]].
  - unfold energy3. cbn [t_E t_B t_J].
    rewrite (energy_of3_ext _ (fun f c => (sv FE2 f c - half3 D / eps * sv FJ2 f c)%Qc) _ (sv FB2)) by (intros f i j k Hf; rewrite ?(read_field3 D OK FE2 mE2 f i j k HE2 Hf), ?(read_currents3 D OK FJ2 mJ2 f i j k C) by lia; try reflexivity; apply (read_field3 D OK FB2 mB2 f i j k HB2 Hf)).
    rewrite (energy_of3_ext _ (fun f c => (sv FE f c - half3 D / eps * sv FJ f c)%Qc) _ (sv FB)) by (intros f i j k Hf; rewrite ?(read_field3 D OK FE mE f i j k HE Hf), ?(read_currents3 D OK FJ mJ f i j k HJ) by lia; try reflexivity; apply (read_field3 D OK FB mB f i j k HB Hf)).
    rewrite inner_dot3, (dot_ext Nx Ny Nz _ (lift3 (sv FJ2)) _ (lift3 (sv FE2))); [|intros f i j k Hf; apply (read_currents3 D OK FJ2 mJ2 f i j k C); lia|intros f i j k Hf; apply (read_field3 D OK FE2 mE2 f i j k HE2 Hf)].
    pose proof (energy_step Nx Ny Nz dx dy dz (half3 D) light2 (half3 D / eps)%Qc (lift3 (fun f c => (sv FE f c - half3 D / eps * sv FJ f c)%Qc)) (lift3 (sv FB)) (lift3 (sv FE1)) (lift3 (sv FB2)) (lift3 (sv FE2)) (lift3 (sv FJ2)) (per_sv3 FB) (per_sv3 FE1) (per_sv3 FB2)) as K.
    match type of K with ?a -> _ => assert a as K1 end.
    { intros f i j k Hf. rewrite <- (curl_cb3 (sv FB) f i j k). unfold lift3. unfold FE1. rewrite value_gE3 by exact Hf. ring. }
    specialize (K K1). clear K1. match type of K with ?a -> _ => assert a as K1 end.
    { intros f i j k Hf. unfold lift3 at 1 2. unfold FB2. rewrite (value_gB3 FE1 FB1 f i j k Hf). unfold FB1. rewrite (value_gB3 FE1 FB f i j k Hf). ring. }
    specialize (K K1). clear K1. match type of K with ?a -> _ => assert a as K1 end.
    { intros f i j k Hf. rewrite <- (curl_cb3 (sv FB2) f i j k). unfold lift3. unfold FE2. rewrite value_gE3 by exact Hf. ring. }
    specialize (K K1). clear K1.
    change (lift3 (fun f c => (sv FE2 f c - half3 D / eps * sv FJ2 f c)%Qc)) with (fun f i j k => (lift3 (sv FE2) f i j k - half3 D / eps * lift3 (sv FJ2) f i j k)%Qc).
    rewrite K. assert (Q2Qc (2 * e_dt D) = half3 D * ((1 + 1) * (1 + 1)))%Qc as ->.
    { unfold half3. apply Qc_is_canon. rewrite !this_mult, !this_plus, !this_q2qc. change (this 1) with 1%Q. field. }
    unfold Qcdiv. ring.
  - intro N. assert (no_particles ps1) as N1.
    { clear - N A3 Q1. unfold no_particles in *. revert N. induction Q1 as [|st st' l l' P Q IH]; intro N; [constructor|]. inversion N as [|? ? N1 N2]; subst. constructor; [|apply IH; auto; inversion A3; assumption]. rewrite N1 in P. apply Permutation_sym, Permutation_nil in P || apply Permutation_nil in P. exact P. }
    assert (no_particles ps2) as N2.
    { exact (no_grown (fun sp r => canon (grow3 rsqrt Nx Ny Nz (e_dx D) (e_dy D) (e_dz D) (e_dt D) sp FE1 FB1 r)) sps ps1 ps2 ltac:(lia) N1 G). }
    split.
    + clear - N2 W. unfold no_particles in *. induction W as [|st st' l l' P W IH]; [constructor|]. inversion N2 as [|? ? E N3]; subst. constructor; [|auto].
      rewrite E in P. cbn [map] in P. apply Permutation_sym, Permutation_nil, map_eq_nil in P. exact P.
    + intros f i j k Hf. rewrite (read_currents3 D OK FJ2 mJ2 f i j k C Hf), shown0_3 by exact OK. unfold FJ2, gcurrents3. apply q2qc_eq.
      exact (no_sum (fun sp r => gdep3 Nx Ny Nz (e_dx D) (e_dy D) (e_dz D) (e_dt D) sp r f [i mod Nx; j mod Ny; k mod Nz]) sps ps2 N2).
  - split; assumption.
  - split; [eexists; exact HE2|]. split; eexists; eassumption.
Qed.
Lemma balance3_steps m : forall s s', ready3 D sps s -> consistent3 D s -> no_particles (t_parts s) -> steps3d rsqrt eps D sps m s s' ->
  energy3 D eps s' = energy3 D eps s /\ no_particles (t_parts s') /\ ((forall f i j k, (f < 3)%nat -> on_domain3 D (t_J s) f [i; j; k] = Q2Qc 0) -> forall f i j k, (f < 3)%nat -> on_domain3 D (t_J s') f [i; j; k] = Q2Qc 0) /\ ready3 D sps s' /\ consistent3 D s'.
Proof.
  induction m as [|m IH]; intros s s' R C N T; inversion T as [|k' rank s0 s1 s2 T1 T2]; subst.
  { auto. }
  destruct (balance3_step rank s s1 R C T1) as (E1 & V & R1 & C1). destruct (V N) as [N1 J1]. destruct (IH s1 s' R1 C1 N1 T2) as (E4 & N2 & J2 & R2 & C2).
  split; [|split; [exact N2|]; split; [intros _; apply J2; intros; apply J1; lia|auto]].
  rewrite E4, E1. assert (inner3 D (on_domain3 D (t_J s1)) (on_domain3 D (t_E s1)) = Q2Qc 0) as ->; [|change (Q2Qc 0) with 0%Qc; ring].
  rewrite inner_dot3. rewrite (dot_ext Nx Ny Nz _ (fun f i j k => (lift3 (on_domain3 D (t_E s1)) f i j k + - (1) * lift3 (on_domain3 D (t_E s1)) f i j k)%Qc) _ (lift3 (on_domain3 D (t_E s1)))).
  - rewrite dot_lin. change (Q2Qc 0) with 0%Qc. ring.
  - intros f i j k Hf. unfold lift3 at 1. rewrite J1 by lia. change (Q2Qc 0) with 0%Qc. ring.
  - reflexivity.
Qed.
(** the fields after a step without currents *)
Lemma vacuum_values3 rank s s' : ready3 D sps s -> consistent3 D s -> no_particles (t_parts s) -> (forall f i j k, (f < 3)%nat -> on_domain3 D (t_J s) f [i; j; k] = Q2Qc 0) ->
  step3d rsqrt eps D sps rank s s' -> exists E1,
  (forall f i j k, (f < 3)%nat -> E1 f [i; j; k] = (on_domain3 D (t_E s) f [i; j; k] + half3 D * light2 * curl3 D (on_domain3 D (t_B s)) f [i; j; k])%Qc) /\
  (forall f i j k, (f < 3)%nat -> on_domain3 D (t_B s') f [i; j; k] = (on_domain3 D (t_B s) f [i; j; k] - (half3 D + half3 D) * cf dx dy dz (lift3 E1) f i j k)%Qc) /\
  (forall f i j k, (f < 3)%nat -> on_domain3 D (t_E s') f [i; j; k] = (E1 f [i; j; k] + half3 D * light2 * curl3 D (on_domain3 D (t_B s')) f [i; j; k])%Qc).
Proof.
  intros R C0 N J0 S0. destruct (balance3_step rank s s' R C0 S0) as (_ & V & _). destruct (V N) as [_ J1]. clear V.
  destruct R as [L F]. destruct C0 as ((FE & HE) & (FB & HB) & FJ & HJ).
  destruct S0 as [mE mB mJ ps mE1 mB1 ps1 mJ1 ps2 mJ2 ps3 mB2 mE2 A1 A2 A3 A4 A5 A6 A7 A8]. cbn [t_E t_B t_J t_parts] in *.
  pose proof (up_E3_ok eps D OK rank FB FJ FE mB mJ mE mE1 HE HB HJ A1) as HE1. set (FE1 := gE3 eps D FB FJ FE) in *.
  pose proof (up_B3_ok eps D OK rank FE1 FB mE1 mB mB1 HB HE1 A2) as HB1. set (FB1 := gB3 eps D FE1 FB) in *.
  destruct (forall2_sorted3 D ps ps1 A3 F) as (F1 & L1 & Q1).
  destruct (half_step3 rsqrt SUB D OK sps U rank FE1 FB1 mE1 mB1 mJ ps1 mJ1 ps2 mJ2 ps3 HE1 HB1 ltac:(lia) F1 A4 A5 A6) as (C & _ & _ & _ & _).
  fold Nx Ny Nz in C. set (FJ2 := cur ps2) in *.
  pose proof (up_B3_ok eps D OK rank FE1 FB1 mE1 mB1 mB2 HB1 HE1 A7) as HB2. set (FB2 := gB3 eps D FE1 FB1) in *.
  pose proof (up_E3_ok eps D OK rank FB2 FJ2 FE1 mB2 mJ2 mE1 mE2 HE1 HB2 C A8) as HE2. set (FE2 := gE3 eps D FB2 FJ2 FE1) in *.
  assert (forall F m f i j k, field3_is D F m -> (f < 3)%nat -> curl3 D (on_domain3 D m) f [i; j; k] = curl3 D (sv F) f [i; j; k]) as RC.
  { intros F0 m f i j k H Hf. unfold curl3. destruct f as [|[|[|f]]]; [| | |lia]; rewrite !(read_field3 D OK F0 m _ _ _ _ H) by lia; reflexivity. }
  exists (sv FE1). split; [|split]; intros f i j k Hf.
  - rewrite (RC FB mB f i j k HB Hf), (read_field3 D OK FE mE f i j k HE Hf). unfold FE1. rewrite value_gE3 by exact Hf. rewrite <- (read_currents3 D OK FJ mJ f i j k HJ) by lia. rewrite J0 by exact Hf. change (Q2Qc 0) with 0%Qc. ring.
  - rewrite (read_field3 D OK FB2 mB2 f i j k HB2 Hf), (read_field3 D OK FB mB f i j k HB Hf). unfold FB2. rewrite (value_gB3 FE1 FB1 f i j k Hf). unfold FB1. rewrite (value_gB3 FE1 FB f i j k Hf). ring.
  - rewrite (RC FB2 mB2 f i j k HB2 Hf), (read_field3 D OK FE2 mE2 f i j k HE2 Hf). unfold FE2. rewrite value_gE3 by exact Hf. rewrite <- (read_currents3 D OK FJ2 mJ2 f i j k C) by lia. rewrite J1 by lia. change (Q2Qc 0) with 0%Qc. ring.
Qed.
End Steps.

(** bounds for the energy of a state *)
Variable q : Q.
Hypothesis CFL : courant3 D q.
Lemma cfl_ok3 : (light2 * (four * (half3 D * half3 D)) * (/ dx * / dx + / dy * / dy + (if true then / dz * / dz else 0)) <= Q2Qc q)%Qc.
Proof.
  destruct (ok3_d D OK) as (D1 & D2 & D3). unfold Qcle. rewrite this_q2qc. unfold four, light2, half3.
  repeat (rewrite ?this_mult, ?this_plus, ?this_inv, ?this_q2qc). change (this 1) with 1%Q. change (this 0) with 0%Q.
  eapply Qle_trans; [|exact CFL]. apply Qle_lteq. right. field. repeat split; intro E; rewrite E in *; lra.
Qed.
Lemma low3 E B F : field3_is D F B -> (norm3 D E + light2 * Q2Qc (1 - q) * norm3 D (on_domain3 D B) <= energy_of3 D E (on_domain3 D B))%Qc.
Proof.
  intro HB. assert (forall f i j k, (f < 3)%nat -> on_domain3 D B f [i; j; k] = sv F f [i; j; k]) as K by (intros; apply read_field3; auto).
  rewrite (energy_of3_ext E E (on_domain3 D B) (sv F)) by (auto; intros; reflexivity).
  pose proof (ham_low Nx Ny Nz dx dy dz (half3 D) light2 (Q2Qc q) true) as H. assert (0 <= light2)%Qc as LP by (unfold light2, Qcle; rewrite (this_q2qc (LIGHT_SPEED * LIGHT_SPEED)); change (this 0) with 0%Q; apply sq_nonneg).
  specialize (H LP cfl_ok3 (lift3 E) (lift3 (sv F)) (per_sv3 F) ltac:(discriminate)).
  unfold norm3. rewrite !inner_dot3. rewrite (dot_ext Nx Ny Nz (lift3 (on_domain3 D B)) (lift3 (sv F)) (lift3 (on_domain3 D B)) (lift3 (sv F))) by (intros; unfold lift3; auto).
  replace (Q2Qc (1 - q)) with (1 - Q2Qc q)%Qc; [exact H|]. apply Qc_is_canon. rewrite this_minus, !this_q2qc. reflexivity.
Qed.
Lemma high3 E B : (energy_of3 D E B <= norm3 D E + light2 * norm3 D B)%Qc.
Proof.
  rewrite (energy_of3_ext E E B B) by reflexivity. unfold norm3. rewrite !inner_dot3. apply ham_high.
Qed.
End Three.
