(** Energy of the fields, part 3: whole steps of a 2D periodic simulation. *)
From Coq Require Import QArith Qabs Qcanon Permutation Lqa.
From Verif Require Import Base M_Layout S_Layout M_PartSync S_PartSync M_FieldSync S_FieldSync M_Maxwell S_Maxwell M_Deposit S_Deposit M_Push P_Layout P_Deposit P_Deposit5 P_FieldGeo P_Maxwell P_Maxwell2 P_Maxwell3 M_Step S_Step P_Step1 P_Step2 P_Step3 P_Step4 P_Step5 P_Step6 P_Step7 P_Step8 S_Gauss P_Gauss1 P_Gauss2 S_Energy P_Energy1 P_Energy2.
Local Open Scope list_scope.
Local Open Scope Z_scope.

Ltac offsets := cbn [M_Layout.add]; rewrite ?Z.add_0_r; repeat match goal with |- context [?x + -1] => change (x + -1) with (x - 1) end.
Lemma no_grown (h : species -> prow body -> prow body) : forall sps ps1 ps2, length sps = length ps1 -> no_particles ps1 ->
  Forall2 (fun ss st2 => map canon (particles st2) = map (fun r => h (fst ss) r) (particles (snd ss))) (combine sps ps1) ps2 -> no_particles ps2.
Proof.
  intros sps ps1 ps2 Q N. revert sps ps2 Q. unfold no_particles in *. induction N as [|st l E N IH]; intros sps ps2 Q G.
  - destruct sps; [|discriminate]. cbn [combine] in G. inversion G. constructor.
  - destruct sps as [|sp sps]; [discriminate|]. cbn [combine] in G. inversion G as [|? st2 ? l2 H G2]; subst. constructor; [|apply (IH sps); auto].
    cbn [snd fst] in H. rewrite E in H. apply map_eq_nil in H. exact H.
Qed.
Lemma no_sum (d : species -> prow body -> Q) : forall sps ps, no_particles ps ->
  (qsum (fun ss => qsum (fun r => d (fst ss) r) (particles (snd ss))) (combine sps ps) == 0)%Q.
Proof.
  intros sps ps N. revert sps. unfold no_particles in N. induction N as [|st l E N IH]; intros [|sp sps]; try (change (0 == 0)%Q; reflexivity).
  cbn [combine]. specialize (IH sps). unfold qsum at 1 in IH. unfold qsum at 1. cbn [fold_right snd fst]. rewrite E. rewrite IH. change (0 + 0 == 0)%Q. reflexivity.
Qed.
Section Two.
Variable eps : Qc.
Variable D : domain2.
Hypothesis OK : domain_ok D.
Local Notation Nx := (cells_x D). Local Notation Ny := (cells_y D).
Local Notation dx := (Q2Qc (d_dx D)). Local Notation dy := (Q2Qc (d_dy D)).
Local Notation axes := [d_ax D; d_ay D]. Local Notation ns := [d_nx D; d_ny D].
Local Notation sv F := (shown (Q2Qc 0) axes ns (position2 (d_ax D)) F 0).
Definition lift (u : nat -> list Z -> Qc) : vec := fun f i j k => u f [i; j].
Lemma per_sv F : pervec Nx Ny 1 (lift (sv F)).
Proof.
  destruct (cells_pos D OK) as [P1 P2]. intro f. unfold lift. repeat split; intros; rewrite ?shown0 by exact OK; f_equal.
  - rewrite <- (Z.mul_1_l Nx) at 1. rewrite Z.mod_add by lia. reflexivity.
  - rewrite <- (Z.mul_1_l Ny) at 1. rewrite Z.mod_add by lia. reflexivity.
Qed.
Lemma inner_dot u v : inner2 D u v = dot Nx Ny 1 (lift u) (lift v).
Proof.
  unfold inner2, dot, tot, lift. apply zsum_ext. intros i _. apply zsum_ext. intros j _. unfold zsum. change (zseq 1) with [0]. cbn [fold_right].
  change (Q2Qc 0) with 0%Qc. ring.
Qed.
Lemma curl_cb u f i j k : curl2 D u f [i; j] = cb dx dy 1%Qc (lift u) f i j k.
Proof.
  unfold cb, curl2, lift, bx, by_, bz. destruct f as [|[|f]]; unfold Qcdiv; ring.
Qed.
Lemma value_gE FB FJ F f i j : (f < 3)%nat ->
  sv (gE eps D FB FJ F) f [i; j] = (sv F f [i; j] + half D * light2 * curl2 D (sv FB) f [i; j] - half D / eps * sv FJ f [i; j])%Qc.
Proof.
  intro Hf. unfold gE. rewrite (shown_step (Q2Qc 0) ns (d_ng D) bounds2 opp2 (npatches2 D) (nbr2 (d_ax D) (d_ay D)) axes (position2 (d_ax D)) (decomp_ok D OK)); [|apply local_SE2|apply (one_patch D OK)|reflexivity|apply (inside0 D OK)].
  cbv beta iota zeta delta [SE2]. unfold light2, curl2. destruct f as [|[|[|f]]]; [| | |lia]; offsets; unfold qc_arith; cbn [plus_ minus_ times_ over_ minus1_ csq eps0]; unfold Qcdiv; ring.
Qed.
Lemma value_gB FE F f i j k : (f < 3)%nat ->
  sv (gB eps D FE F) f [i; j] = (sv F f [i; j] - half D * cf dx dy 1%Qc (lift (sv FE)) f i j k)%Qc.
Proof.
  intro Hf. unfold gB. rewrite (shown_step (Q2Qc 0) ns (d_ng D) bounds2 opp2 (npatches2 D) (nbr2 (d_ax D) (d_ay D)) axes (position2 (d_ax D)) (decomp_ok D OK)); [|apply local_SB2|apply (one_patch D OK)|reflexivity|apply (inside0 D OK)].
  cbv beta iota zeta delta [SB2]. unfold cf, lift, fx, fy, fz. destruct f as [|[|[|f]]]; [| | |lia]; offsets; unfold qc_arith; cbn [plus_ minus_ times_ over_ minus1_ csq eps0]; unfold Qcdiv; ring.
Qed.
Lemma energy_of_ext E E' B B' : (forall f i j, (f < 3)%nat -> E f [i; j] = E' f [i; j]) -> (forall f i j, (f < 3)%nat -> B f [i; j] = B' f [i; j]) ->
  energy_of D E B = ham Nx Ny 1 dx dy 1%Qc (half D) light2 (lift E') (lift B').
Proof.
  intros H1 H2. unfold energy_of, ham, norm2. rewrite !inner_dot.
  rewrite (dot_ext Nx Ny 1 (lift E) (lift E') (lift E) (lift E')) by (intros; unfold lift; auto).
  rewrite (dot_ext Nx Ny 1 (lift B) (lift B') (lift B) (lift B')) by (intros; unfold lift; auto).
  assert (forall f i j k, (f < 3)%nat -> lift (curl2 D B) f i j k = cb dx dy 1%Qc (lift B') f i j k) as K.
  { intros f i j k Hf. unfold lift at 1. rewrite (curl_cb B f i j k). unfold cb, bx, by_, bz, lift. destruct f as [|[|[|f]]]; [| | |lia]; rewrite !H2 by lia; reflexivity. }
  rewrite (dot_ext Nx Ny 1 (lift (curl2 D B)) (cb dx dy 1%Qc (lift B')) (lift (curl2 D B)) (cb dx dy 1%Qc (lift B'))) by exact K. ring.
Qed.

Section Steps.
Variable rsqrt : Q -> Q.
Hypothesis SUB : subluminal rsqrt.
Variable sps : list species.
Local Notation cur := (gcurrents Nx Ny (d_dx D) (d_dy D) (d_dt D) sps).
Lemma balance_step rank s s' : ready D sps s -> consistent D s -> step2 rsqrt eps D sps rank s s' ->
  energy D eps s' = (energy D eps s - Q2Qc (2 * d_dt D) / eps * inner2 D (on_domain D (t_J s')) (on_domain D (t_E s')))%Qc /\
  (no_particles (t_parts s) -> no_particles (t_parts s') /\ forall f i j, (f < 4)%nat -> on_domain D (t_J s') f [i; j] = Q2Qc 0) /\
  ready D sps s' /\ consistent D s'.
Proof.
  intros [L F] ((FE & HE) & (FB & HB) & FJ & HJ) S.
  destruct S as [mE mB mJ ps mE1 mB1 ps1 mJ1 ps2 mJ2 ps3 mB2 mE2 A1 A2 A3 A4 A5 A6 A7 A8]. cbn [t_E t_B t_J t_parts] in *.
  pose proof (up_E_ok eps D OK rank FB FJ FE mB mJ mE mE1 HE HB HJ A1) as HE1. set (FE1 := gE eps D FB FJ FE) in *.
  pose proof (up_B_ok eps D OK rank FE1 FB mE1 mB mB1 HB HE1 A2) as HB1. set (FB1 := gB eps D FE1 FB) in *.
  destruct (forall2_sorted D ps ps1 A3 F) as (F1 & L1 & Q1).
  destruct (half_step rsqrt SUB D OK sps rank FE1 FB1 mE1 mB1 mJ ps1 mJ1 ps2 mJ2 ps3 HE1 HB1 ltac:(lia) F1 A4 A5 A6) as (C & L3 & F3 & G & W).
  fold Nx Ny in C, G, W. set (FJ2 := cur ps2) in *.
  pose proof (up_B_ok eps D OK rank FE1 FB1 mE1 mB1 mB2 HB1 HE1 A7) as HB2. set (FB2 := gB eps D FE1 FB1) in *.
  pose proof (up_E_ok eps D OK rank FB2 FJ2 FE1 mB2 mJ2 mE1 mE2 HE1 HB2 C A8) as HE2. set (FE2 := gE eps D FB2 FJ2 FE1) in *.
  split; [|split; [|split]].
  - unfold energy. cbn [t_E t_B t_J].
    rewrite (energy_of_ext _ (fun f c => (sv FE2 f c - half D / eps * sv FJ2 f c)%Qc) _ (sv FB2)) by (intros f i j Hf; rewrite ?(read_field D OK FE2 mE2 f i j HE2 Hf), ?(read_currents D OK FJ2 mJ2 f i j C) by lia; try reflexivity; apply (read_field D OK FB2 mB2 f i j HB2 Hf)).
    rewrite (energy_of_ext _ (fun f c => (sv FE f c - half D / eps * sv FJ f c)%Qc) _ (sv FB)) by (intros f i j Hf; rewrite ?(read_field D OK FE mE f i j HE Hf), ?(read_currents D OK FJ mJ f i j HJ) by lia; try reflexivity; apply (read_field D OK FB mB f i j HB Hf)).
    rewrite inner_dot, (dot_ext Nx Ny 1 _ (lift (sv FJ2)) _ (lift (sv FE2))); [|intros f i j k Hf; apply (read_currents D OK FJ2 mJ2 f i j C); lia|intros f i j k Hf; apply (read_field D OK FE2 mE2 f i j HE2 Hf)].
    pose proof (energy_step Nx Ny 1 dx dy 1%Qc (half D) light2 (half D / eps)%Qc (lift (fun f c => (sv FE f c - half D / eps * sv FJ f c)%Qc)) (lift (sv FB)) (lift (sv FE1)) (lift (sv FB2)) (lift (sv FE2)) (lift (sv FJ2)) (per_sv FB) (per_sv FE1) (per_sv FB2)) as K.
    match type of K with ?a -> _ => assert a as K1 end.
    { intros f i j k Hf. rewrite <- (curl_cb (sv FB) f i j k). unfold lift. unfold FE1. rewrite value_gE by exact Hf. ring. }
    specialize (K K1). clear K1. match type of K with ?a -> _ => assert a as K1 end.
    { intros f i j k Hf. unfold lift at 1 2. unfold FB2. rewrite (value_gB FE1 FB1 f i j k Hf). unfold FB1. rewrite (value_gB FE1 FB f i j k Hf). ring. }
    specialize (K K1). clear K1. match type of K with ?a -> _ => assert a as K1 end.
    { intros f i j k Hf. rewrite <- (curl_cb (sv FB2) f i j k). unfold lift. unfold FE2. rewrite value_gE by exact Hf. ring. }
    specialize (K K1). clear K1.
    change (lift (fun f c => (sv FE2 f c - half D / eps * sv FJ2 f c)%Qc)) with (fun f i j k => (lift (sv FE2) f i j k - half D / eps * lift (sv FJ2) f i j k)%Qc).
    rewrite K. assert (Q2Qc (2 * d_dt D) = half D * ((1 + 1) * (1 + 1)))%Qc as ->.
    { unfold half. apply Qc_is_canon. rewrite !this_mult, !this_plus, !this_q2qc. change (this 1) with 1%Q. field. }
    unfold Qcdiv. ring.
  - intro N. assert (no_particles ps1) as N1.
    { clear - N A3 Q1. unfold no_particles in *. revert N. induction Q1 as [|st st' l l' P Q IH]; intro N; [constructor|]. inversion N as [|? ? N1 N2]; subst. constructor; [|apply IH; auto; inversion A3; assumption]. rewrite N1 in P. apply Permutation_sym, Permutation_nil in P || apply Permutation_nil in P. exact P. }
    assert (no_particles ps2) as N2.
    { exact (no_grown (fun sp r => canon (grow rsqrt Nx Ny (d_dx D) (d_dy D) (d_dt D) sp FE1 FB1 r)) sps ps1 ps2 ltac:(lia) N1 G). }
    split.
    + clear - N2 W. unfold no_particles in *. induction W as [|st st' l l' P W IH]; [constructor|]. inversion N2 as [|? ? E N3]; subst. constructor; [|auto].
      rewrite E in P. cbn [map] in P. apply Permutation_sym, Permutation_nil, map_eq_nil in P. exact P.
    + intros f i j Hf. rewrite (read_currents D OK FJ2 mJ2 f i j C Hf), shown0 by exact OK. unfold FJ2, gcurrents. apply q2qc_eq.
      exact (no_sum (fun sp r => gdep Nx Ny (d_dx D) (d_dy D) (d_dt D) sp r f [i mod Nx; j mod Ny]) sps ps2 N2).
  - split; assumption.
  - split; [eexists; exact HE2|]. split; eexists; eassumption.
Qed.
Lemma balance_steps k : forall s s', ready D sps s -> consistent D s -> no_particles (t_parts s) -> steps2 rsqrt eps D sps k s s' ->
  energy D eps s' = energy D eps s /\ no_particles (t_parts s') /\ ((forall f i j, (f < 3)%nat -> on_domain D (t_J s) f [i; j] = Q2Qc 0) -> forall f i j, (f < 3)%nat -> on_domain D (t_J s') f [i; j] = Q2Qc 0) /\ ready D sps s' /\ consistent D s'.
Proof.
  induction k as [|k IH]; intros s s' R C N T; inversion T as [|k' rank s0 s1 s2 T1 T2]; subst.
  { auto. }
  destruct (balance_step rank s s1 R C T1) as (E1 & V & R1 & C1). destruct (V N) as [N1 J1]. destruct (IH s1 s' R1 C1 N1 T2) as (E4 & N2 & J2 & R2 & C2).
  split; [|split; [exact N2|]; split; [intros _; apply J2; intros; apply J1; lia|auto]].
  rewrite E4, E1. assert (inner2 D (on_domain D (t_J s1)) (on_domain D (t_E s1)) = Q2Qc 0) as ->; [|change (Q2Qc 0) with 0%Qc; ring].
  unfold inner2. rewrite (zsum_ext _ _ (fun i => (0 * (fun _ => 0) i)%Qc)).
  - rewrite zsum_scale. apply Qcmult_0_l.
  - intros i _. rewrite (zsum_ext _ _ (fun i => (0 * (fun _ => 0) i)%Qc)); [rewrite zsum_scale; apply Qcmult_0_l|]. intros j _. rewrite !J1 by lia. change (Q2Qc 0) with 0%Qc. ring.
Qed.
(** the fields after a step without currents *)
Lemma vacuum_values rank s s' : ready D sps s -> consistent D s -> no_particles (t_parts s) -> (forall f i j, (f < 3)%nat -> on_domain D (t_J s) f [i; j] = Q2Qc 0) ->
  step2 rsqrt eps D sps rank s s' -> exists E1,
  (forall f i j, (f < 3)%nat -> E1 f [i; j] = (on_domain D (t_E s) f [i; j] + half D * light2 * curl2 D (on_domain D (t_B s)) f [i; j])%Qc) /\
  (forall f i j, (f < 3)%nat -> on_domain D (t_B s') f [i; j] = (on_domain D (t_B s) f [i; j] - (half D + half D) * cf dx dy 1%Qc (lift E1) f i j 0%Z)%Qc) /\
  (forall f i j, (f < 3)%nat -> on_domain D (t_E s') f [i; j] = (E1 f [i; j] + half D * light2 * curl2 D (on_domain D (t_B s')) f [i; j])%Qc).
Proof.
  intros R C0 N J0 S0. destruct (balance_step rank s s' R C0 S0) as (_ & V & _). destruct (V N) as [_ J1]. clear V.
  destruct R as [L F]. destruct C0 as ((FE & HE) & (FB & HB) & FJ & HJ).
  destruct S0 as [mE mB mJ ps mE1 mB1 ps1 mJ1 ps2 mJ2 ps3 mB2 mE2 A1 A2 A3 A4 A5 A6 A7 A8]. cbn [t_E t_B t_J t_parts] in *.
  pose proof (up_E_ok eps D OK rank FB FJ FE mB mJ mE mE1 HE HB HJ A1) as HE1. set (FE1 := gE eps D FB FJ FE) in *.
  pose proof (up_B_ok eps D OK rank FE1 FB mE1 mB mB1 HB HE1 A2) as HB1. set (FB1 := gB eps D FE1 FB) in *.
  destruct (forall2_sorted D ps ps1 A3 F) as (F1 & L1 & Q1).
  destruct (half_step rsqrt SUB D OK sps rank FE1 FB1 mE1 mB1 mJ ps1 mJ1 ps2 mJ2 ps3 HE1 HB1 ltac:(lia) F1 A4 A5 A6) as (C & _ & _ & _ & _).
  fold Nx Ny in C. set (FJ2 := cur ps2) in *.
  pose proof (up_B_ok eps D OK rank FE1 FB1 mE1 mB1 mB2 HB1 HE1 A7) as HB2. set (FB2 := gB eps D FE1 FB1) in *.
  pose proof (up_E_ok eps D OK rank FB2 FJ2 FE1 mB2 mJ2 mE1 mE2 HE1 HB2 C A8) as HE2. set (FE2 := gE eps D FB2 FJ2 FE1) in *.
  assert (forall F m f i j, field_is D F m -> (f < 3)%nat -> curl2 D (on_domain D m) f [i; j] = curl2 D (sv F) f [i; j]) as RC.
  { intros F0 m f i j H Hf. unfold curl2. destruct f as [|[|[|f]]]; [| | |lia]; rewrite !(read_field D OK F0 m _ _ _ H) by lia; reflexivity. }
  exists (sv FE1). split; [|split]; intros f i j Hf.
  - rewrite (RC FB mB f i j HB Hf), (read_field D OK FE mE f i j HE Hf). unfold FE1. rewrite value_gE by exact Hf. rewrite <- (read_currents D OK FJ mJ f i j HJ) by lia. rewrite J0 by exact Hf. change (Q2Qc 0) with 0%Qc. ring.
  - rewrite (read_field D OK FB2 mB2 f i j HB2 Hf), (read_field D OK FB mB f i j HB Hf). unfold FB2. rewrite (value_gB FE1 FB1 f i j 0 Hf). unfold FB1. rewrite (value_gB FE1 FB f i j 0 Hf). ring.
  - rewrite (RC FB2 mB2 f i j HB2 Hf), (read_field D OK FE2 mE2 f i j HE2 Hf). unfold FE2. rewrite value_gE by exact Hf. rewrite <- (read_currents D OK FJ2 mJ2 f i j C) by lia. rewrite J1 by lia. change (Q2Qc 0) with 0%Qc. ring.
Qed.
End Steps.

(** bounds for the energy of a state *)
Variable q : Q.
Hypothesis CFL : courant2 D q.
Lemma cfl_ok : (light2 * (four * (half D * half D)) * (/ dx * / dx + / dy * / dy + (if false then / 1 * / 1 else 0)) <= Q2Qc q)%Qc.
Proof.
  destruct (ok_d D OK) as [D1 D2]. unfold Qcle. rewrite this_q2qc. unfold four, light2, half.
  repeat (rewrite ?this_mult, ?this_plus, ?this_inv, ?this_q2qc). change (this 1) with 1%Q. change (this 0) with 0%Q.
  eapply Qle_trans; [|exact CFL]. apply Qle_lteq. right. field. split; intro E; rewrite E in *; lra.
Qed.
Lemma low E B F : field_is D F B -> (norm2 D E + light2 * Q2Qc (1 - q) * norm2 D (on_domain D B) <= energy_of D E (on_domain D B))%Qc.
Proof.
  intro HB. assert (forall f i j, (f < 3)%nat -> on_domain D B f [i; j] = sv F f [i; j]) as K by (intros; apply read_field; auto).
  rewrite (energy_of_ext E E (on_domain D B) (sv F)) by (auto; intros; reflexivity).
  pose proof (ham_low Nx Ny 1 dx dy 1%Qc (half D) light2 (Q2Qc q) false) as H. assert (0 <= light2)%Qc as LP by (unfold light2, Qcle; rewrite (this_q2qc (LIGHT_SPEED * LIGHT_SPEED)); change (this 0) with 0%Q; apply sq_nonneg).
  specialize (H LP cfl_ok (lift E) (lift (sv F)) (per_sv F) ltac:(reflexivity)).
  unfold norm2. rewrite !inner_dot. rewrite (dot_ext Nx Ny 1 (lift (on_domain D B)) (lift (sv F)) (lift (on_domain D B)) (lift (sv F))) by (intros; unfold lift; auto).
  replace (Q2Qc (1 - q)) with (1 - Q2Qc q)%Qc; [exact H|]. apply Qc_is_canon. rewrite this_minus, !this_q2qc. reflexivity.
Qed.
Lemma high E B : (energy_of D E B <= norm2 D E + light2 * norm2 D B)%Qc.
Proof.
  rewrite (energy_of_ext E E B B) by reflexivity. unfold norm2. rewrite !inner_dot. apply ham_high.
Qed.
End Two.
