(** Gauss' law with open sides in 3D, part 1: the fields outside the layers. *)
From Coq Require Import Field_theory QArith Qabs Qround Qcanon Permutation Lqa.
From Verif Require Import Base M_Layout S_Layout M_PartSync S_PartSync M_FieldSync S_FieldSync M_Maxwell S_Maxwell M_Cpml S_Cpml M_Deposit S_Deposit M_Push P_Layout P_FieldGeo P_Maxwell P_Maxwell2 P_Maxwell3 P_Cpml P_Cpml2 P_Cpml3 P_Cpml4 P_Cpml5 P_Deposit M_Step S_Step M_Step3D S_Step3D M_StepO S_StepO M_StepO3D S_StepO3D P_Step1 P_Step2 P_Step3 P_Step4 P_Step5 P_Step6 P_Step7 P_StepD1 P_StepD2 P_StepD3 P_StepD4 P_StepD5 P_StepD6 P_StepD7 S_Gauss S_GaussO S_Gauss3D S_GaussO3D P_Gauss1 P_Gauss2 P_GaussD1 P_GaussD2 P_StepO1 P_StepO3 P_StepO4 P_StepQ1 P_StepQ2 P_StepQ3 P_StepQ4 P_GaussO1.
Local Open Scope list_scope.
Local Open Scope Z_scope.

Definition per3 (D : domain3) (F : nat -> list Z -> Qc) (f : nat) (c : list Z) : Qc := match c with [i; j; k] => F f [i mod cells3_x D; j mod cells3_y D; k mod cells3_z D] | _ => Q2Qc 0 end.

Section Fields.
Variable eps : Qc.
Variable K : layer Qc. Variable D : domain3. Variable pmls : nat -> list pml_side.
Hypothesis OK : open3_ok K D pmls.
Local Notation axes := [e_ax D; e_ay D; e_az D]. Local Notation ns := [e_nx D; e_ny D; e_nz D].
Local Notation Nx := (cells3_x D). Local Notation Ny := (cells3_y D). Local Notation Nz := (cells3_z D). Local Notation th := (thick K).
Local Notation dx := (Q2Qc (e_dx D)). Local Notation dy := (Q2Qc (e_dy D)). Local Notation dz := (Q2Qc (e_dz D)).
Local Notation A := (qc_arith eps).
Local Notation sv F := (shown (Q2Qc 0) axes ns (position3 (e_ax D) (e_ay D)) F 0).
Local Notation sides3 := P_Cpml4.sides3.
Lemma ocells3_pos : 0 < Nx /\ 0 < Ny /\ 0 < Nz.
Proof. destruct (P_GaussD1.cells3_pos (twin3 D) (twin3_ok K D pmls OK)) as (P1 & P2 & P3). exact (conj P1 (conj P2 P3)). Qed.
Lemma oone_patch3 : (0 < npatches3 D)%nat.
Proof. exact (one_patch3 (twin3 D) (twin3_ok K D pmls OK)). Qed.
Lemma oshown0_3 F f i j k : inr (e_ax D) Nx i -> inr (e_ay D) Ny j -> inr (e_az D) Nz k -> sv F f [i; j; k] = per3 D F f [i; j; k] /\ place axes ns (position3 (e_ax D) (e_ay D) 0) [i; j; k] <> None.
Proof.
  intros H1 H2 H3. destruct ocells3_pos as (P1 & P2 & P3). destruct (oo3_n K D pmls OK) as (N1 & N2 & N3). unfold shown, position3, per3. change (Z.of_nat 0) with 0. rewrite Z.mod_0_l, Z.div_0_l, Z.mod_0_l, Z.div_0_l by lia.
  cbn [place]. rewrite (place1_inr (e_ax D) (e_nx D) i P1 H1), (place1_inr (e_ay D) (e_ny D) j P2 H2), (place1_inr (e_az D) (e_nz D) k P3 H3). split; [reflexivity|discriminate].
Qed.
Lemma ostored3_at i j k : let I := i mod Nx in let J := j mod Ny in let L := k mod Nz in let p := Z.to_nat ((L / e_nz D * ax_n (e_ay D) + J / e_ny D) * ax_n (e_ax D) + I / e_nx D) in
  (p < npatches3 D)%nat /\ interior ns [I mod e_nx D; J mod e_ny D; L mod e_nz D] /\
  place axes ns (position3 (e_ax D) (e_ay D) p) [I mod e_nx D; J mod e_ny D; L mod e_nz D] = Some [i mod Nx; j mod Ny; k mod Nz].
Proof.
  intros I J L p. destruct (oo3_n K D pmls OK) as (N1 & N2 & N3). destruct (oo3_g K D pmls OK) as (G1 & G2 & G3 & G4). destruct ocells3_pos as (P1 & P2 & P3).
  assert (0 <= I < Nx) as HI by (apply Z.mod_pos_bound; exact P1). assert (0 <= J < Ny) as HJ by (apply Z.mod_pos_bound; exact P2). assert (0 <= L < Nz) as HL by (apply Z.mod_pos_bound; exact P3).
  change (i mod Nx) with I. change (j mod Ny) with J. change (k mod Nz) with L. clearbody I J L. unfold cells3_x in HI. unfold cells3_y in HJ. unfold cells3_z in HL.
  assert (0 < e_nx D) as X0 by (clear - G1 G2; lia). assert (0 < e_ny D) as Y0 by (clear - G1 G3; lia). assert (0 < e_nz D) as Z0 by (clear - G1 G4; lia).
  destruct (cut_axis (e_nx D) (ax_n (e_ax D)) I X0 HI) as (HX & EX). destruct (cut_axis (e_ny D) (ax_n (e_ay D)) J Y0 HJ) as (HY & EY). destruct (cut_axis (e_nz D) (ax_n (e_az D)) L Z0 HL) as (HZ & EZ).
  destruct (flat_place (ax_n (e_ax D)) (ax_n (e_ay D)) (ax_n (e_az D)) _ _ _ HX HY HZ) as (Q0 & Q1 & Q2 & Q3 & Q4).
  assert (Z.of_nat p = (L / e_nz D * ax_n (e_ay D) + J / e_ny D) * ax_n (e_ax D) + I / e_nx D) as Ep by (unfold p; rewrite Z2Nat.id; [reflexivity|exact Q0]).
  split; [unfold npatches3, p; apply Z2Nat.inj_lt; [exact Q0|eapply Z.le_trans; [exact Q0|apply Z.lt_le_incl; exact Q1]|exact Q1]|]. split.
  - constructor; [apply Z.mod_pos_bound; exact X0|]. constructor; [apply Z.mod_pos_bound; exact Y0|]. constructor; [apply Z.mod_pos_bound; exact Z0|constructor].
  - unfold position3. rewrite Ep, Q2, Q3, Q4. cbn [place]. rewrite (place1_in (e_ax D) (e_nx D) I HI _ _ EX), (place1_in (e_ay D) (e_ny D) J HJ _ _ EY), (place1_in (e_az D) (e_nz D) L HL _ _ EZ). reflexivity.
Qed.
Lemma oread_currents3 F m f i j k : currents3_are D F m -> (f < 4)%nat -> on_domain3 D m f [i; j; k] = per3 D F f [i; j; k].
Proof.
  intros H Hf. destruct (ostored3_at i j k) as (Hp & Hc & Hg). unfold on_domain3, stored3. cbv zeta.
  rewrite (H f _ _ Hf Hp Hc). unfold shown. rewrite Hg. reflexivity.
Qed.
Lemma oread_field3 F m f i j k : field3_is D F m -> (f < 3)%nat -> on_domain3 D m f [i; j; k] = per3 D F f [i; j; k].
Proof.
  intros H Hf. destruct (oo3_g K D pmls OK) as (G1 & G2 & G3 & G4). assert (0 <= e_ng D) as G0 by (clear - G1; lia). destruct (ostored3_at i j k) as (Hp & Hc & Hg). unfold on_domain3, stored3. cbv zeta.
  rewrite (H f _ _ Hf Hp (interior_within (e_ng D) [e_nx D; e_ny D; e_nz D] _ G0 Hc)). unfold shown. rewrite Hg. reflexivity.
Qed.
Lemma oread_divE3 F m i j k : field3_is D F m -> divE3 A (on_domain3 D m) dx dy dz i j k = divE3 A (per3 D F) dx dy dz i j k.
Proof. intro H. unfold divE3. rewrite !(oread_field3 F m) by (auto; lia). reflexivity. Qed.
Lemma oread_divB3 F m i j k : field3_is D F m -> divB3 A (on_domain3 D m) dx dy dz i j k = divB3 A (per3 D F) dx dy dz i j k.
Proof. intro H. unfold divB3. rewrite !(oread_field3 F m) by (auto; lia). reflexivity. Qed.
Lemma oread_divJ3 F m i j k : currents3_are D F m -> divE3 A (on_domain3 D m) dx dy dz i j k = divE3 A (per3 D F) dx dy dz i j k.
Proof. intro H. unfold divE3. rewrite !(oread_currents3 F m) by (auto; lia). reflexivity. Qed.

(** outside the layers the fields are advanced as without them *)
Definition out_e3 (a b c : Z) : Prop := (ax_lo (e_ax D) = Pml -> th <= a < Nx - th) /\ (ax_lo (e_ay D) = Pml -> th <= b < Ny - th) /\ (ax_lo (e_az D) = Pml -> th <= c < Nz - th).
Definition out_b3 (a b c : Z) : Prop := (ax_lo (e_ax D) = Pml -> th <= a < Nx - th - 1) /\ (ax_lo (e_ay D) = Pml -> th <= b < Ny - th - 1) /\ (ax_lo (e_az D) = Pml -> th <= c < Nz - th - 1).
Lemma gact_off3 (e : bool) a b c s : (if e then out_e3 a b c else out_b3 a b c) -> In s sides3 -> P_Cpml2.gact K e (opens axes) (totals axes ns) s [a; b; c] = false.
Proof.
  intros H I. pose proof (oo3_th K D pmls OK) as T.
  assert (X : forall ax W m x, W = ax_n ax * m -> (ax_lo ax = Pml -> th <= x < W - th - (if e then 0 else 1)) -> forall s, open_ ax && in_range K e s W x = false).
  { clear - T. intros ax W m x _ B s'. unfold open_. destruct (ax_lo ax); [|reflexivity]. specialize (B eq_refl). cbn [bc_eqb andb]. unfold in_range, l_start, l_stop.
    destruct (is_min s'), e; destruct (Z.leb_spec 0 x); destruct (Z.ltb_spec x th); try lia;
    destruct (Z.leb_spec (W - th) x); destruct (Z.leb_spec (W - th - 1) x); try lia; reflexivity. }
  assert ((ax_lo (e_ax D) = Pml -> th <= a < Nx - th - (if e then 0 else 1)) /\ (ax_lo (e_ay D) = Pml -> th <= b < Ny - th - (if e then 0 else 1)) /\ (ax_lo (e_az D) = Pml -> th <= c < Nz - th - (if e then 0 else 1))) as (B1 & B2 & B3).
  { destruct e; destruct H as (H1 & H2 & H3); split; [|split| |split]; intro P; [specialize (H1 P)|specialize (H2 P)|specialize (H3 P)|specialize (H1 P)|specialize (H2 P)|specialize (H3 P)]; lia. }
  unfold P_Cpml2.gact, opens, totals. cbn [P_Cpml4.sides3 In] in I.
  destruct I as [<-|[<-|[<-|[<-|[<-|[<-|[]]]]]]]; cbn [axis_of map nth combine fst snd coord];
    [apply (X (e_ax D) _ (e_nx D) a eq_refl B1)|apply (X (e_ax D) _ (e_nx D) a eq_refl B1)|apply (X (e_ay D) _ (e_ny D) b eq_refl B2)|apply (X (e_ay D) _ (e_ny D) b eq_refl B2)|apply (X (e_az D) _ (e_nz D) c eq_refl B3)|apply (X (e_az D) _ (e_nz D) c eq_refl B3)].
Qed.
Lemma plainE3 FB FJ F PF f a b c : out_e3 a b c -> (f < 3)%nat -> oE3 eps K D FB FJ F PF f [a; b; c] = gE3 eps D FB FJ F f [a; b; c].
Proof.
  intros H Hf. unfold oE3, P_Cpml2.gfield. pose proof (gact_off3 true a b c) as G. cbn iota in G. specialize (fun s => G s H).
  assert (forall x, P_Cpml2.gkappa A K sides3 true (opens axes) (totals axes ns) [a; b; c] x = Q2Qc 1) as Ek.
  { intro x. unfold P_Cpml2.gkappa. unfold P_Cpml4.sides3. cbn [fold_left]. rewrite !G by (cbn [P_Cpml4.sides3 In]; tauto). rewrite !andb_false_r. exact (oo3_one K D pmls OK). }
  unfold P_Cpml4.sides3 at 1. cbn [fold_left]. unfold P_Cpml2.ggain. rewrite !G by (cbn [P_Cpml4.sides3 In]; tauto).
  unfold gE3, grid_step. change (fun f' d => P_Cpml2.gget (Q2Qc 0) (place axes ns (zeros ns)) FB f' (add [a; b; c] d)) with (fun f' d => match place axes ns (zeros ns) (add [a; b; c] d) with Some h => FB f' h | None => Q2Qc 0 end).
  set (o := fun f' d => match place axes ns (zeros ns) (add [a; b; c] d) with Some h => FB f' h | None => Q2Qc 0 end). clearbody o.
  unfold KE3, SE3. rewrite !Ek. cbv zeta. cbn [qc_arith plus_ minus_ times_ over_ csq eps0 minus1_].
  assert (forall x : Qc, x / Q2Qc 1 = x)%Qc as E1 by (intro x; apply Qc_is_canon; rewrite P_Gauss2.this_div, this_q2qc; field).
  destruct f as [|[|f]]; cbv beta iota; rewrite ?E1; unfold Qcdiv; ring.
Qed.
Lemma plainB3 FE F PF f a b c : out_b3 a b c -> (f < 3)%nat -> oB3 eps K D FE F PF f [a; b; c] = gB3 eps D FE F f [a; b; c].
Proof.
  intros H Hf. unfold oB3, P_Cpml2.gfield. pose proof (gact_off3 false a b c) as G. cbn iota in G. specialize (fun s => G s H).
  assert (forall x, P_Cpml2.gkappa A K sides3 false (opens axes) (totals axes ns) [a; b; c] x = Q2Qc 1) as Ek.
  { intro x. unfold P_Cpml2.gkappa. unfold P_Cpml4.sides3. cbn [fold_left]. rewrite !G by (cbn [P_Cpml4.sides3 In]; tauto). rewrite !andb_false_r. exact (oo3_one K D pmls OK). }
  unfold P_Cpml4.sides3 at 1. cbn [fold_left]. unfold P_Cpml2.ggain. rewrite !G by (cbn [P_Cpml4.sides3 In]; tauto).
  unfold gB3, grid_step. change (fun f' d => P_Cpml2.gget (Q2Qc 0) (place axes ns (zeros ns)) FE f' (add [a; b; c] d)) with (fun f' d => match place axes ns (zeros ns) (add [a; b; c] d) with Some h => FE f' h | None => Q2Qc 0 end).
  set (o := fun f' d => match place axes ns (zeros ns) (add [a; b; c] d) with Some h => FE f' h | None => Q2Qc 0 end). clearbody o.
  unfold KB3, SB3. rewrite !Ek. cbv zeta. cbn [qc_arith plus_ minus_ times_ over_ csq eps0 minus1_].
  assert (forall x : Qc, x / Q2Qc 1 = x)%Qc as E1 by (intro x; apply Qc_is_canon; rewrite P_Gauss2.this_div, this_q2qc; field).
  destruct f as [|[|f]]; cbv beta iota; rewrite ?E1; unfold Qcdiv; ring.
Qed.
Lemma odecomp3 : decomp ns (e_ng D) bounds3 opp3 (npatches3 D) (nbr3 (e_ax D) (e_ay D) (e_az D)) axes (position3 (e_ax D) (e_ay D)).
Proof. destruct (osetting3 eps K D pmls OK) as [TD _ _ _ _ _ _]. exact TD. Qed.
Lemma div_oE3 FB FJ F PF i j k : beside_layers3 th D i j k ->
  divE3 A (per3 D (oE3 eps K D FB FJ F PF)) dx dy dz i j k = (divE3 A (per3 D F) dx dy dz i j k - half3 D / eps * divE3 A (per3 D FJ) dx dy dz i j k)%Qc.
Proof.
  intros (H1 & H2 & H3). pose proof (oo3_th K D pmls OK) as T.
  assert (forall x y z, (ax_lo (e_ax D) = Pml -> th <= x < Nx - th) -> (ax_lo (e_ay D) = Pml -> th <= y < Ny - th) -> (ax_lo (e_az D) = Pml -> th <= z < Nz - th) ->
     inr (e_ax D) Nx x /\ inr (e_ay D) Ny y /\ inr (e_az D) Nz z /\ out_e3 (x mod Nx) (y mod Ny) (z mod Nz)) as X.
  { clear - T. intros x y z B1 B2 B3. split; [intro P; specialize (B1 P); lia|]. split; [intro P; specialize (B2 P); lia|]. split; [intro P; specialize (B3 P); lia|].
    assert (Nx - th <= Nx) as L1 by lia. assert (Ny - th <= Ny) as L2 by lia. assert (Nz - th <= Nz) as L3 by lia.
    split; [|split]; intro P; [rewrite (mod_in (e_ax D) Nx x th (Nx - th) T L1 B1 P)|rewrite (mod_in (e_ay D) Ny y th (Ny - th) T L2 B2 P)|rewrite (mod_in (e_az D) Nz z th (Nz - th) T L3 B3 P)]; auto. }
  destruct (X i j k) as (I0 & J0 & K0 & O0); try (intro P; first [specialize (H1 P)|specialize (H2 P)|specialize (H3 P)]; lia).
  destruct (X (i - 1) j k) as (I1 & _ & _ & O1); try (intro P; first [specialize (H1 P)|specialize (H2 P)|specialize (H3 P)]; lia).
  destruct (X i (j - 1) k) as (_ & J1 & _ & O2); try (intro P; first [specialize (H1 P)|specialize (H2 P)|specialize (H3 P)]; lia).
  destruct (X i j (k - 1)) as (_ & _ & K1 & O3); try (intro P; first [specialize (H1 P)|specialize (H2 P)|specialize (H3 P)]; lia). clear X.
  assert (forall G, divE3 A (per3 D G) dx dy dz i j k = divE3 A (sv G) dx dy dz i j k) as R.
  { intro G. unfold divE3. rewrite (proj1 (oshown0_3 G 0 i j k I0 J0 K0)), (proj1 (oshown0_3 G 1 i j k I0 J0 K0)), (proj1 (oshown0_3 G 2 i j k I0 J0 K0)), (proj1 (oshown0_3 G 0 (i - 1) j k I1 J0 K0)), (proj1 (oshown0_3 G 1 i (j - 1) k I0 J1 K0)), (proj1 (oshown0_3 G 2 i j (k - 1) I0 J0 K1)). reflexivity. }
  transitivity (divE3 A (per3 D (gE3 eps D FB FJ F)) dx dy dz i j k).
  { unfold divE3, per3. rewrite !plainE3 by (auto; lia). reflexivity. }
  rewrite !R. exact (divE3_step A (Q2Qc 0) (Q2Qc 1) Qcinv Qcft ns (e_ng D) bounds3 opp3 (npatches3 D) (nbr3 (e_ax D) (e_ay D) (e_az D)) axes (position3 (e_ax D) (e_ay D)) odecomp3 dx dy dz 0 i j k oone_patch3 (half3 D) FB FJ F eq_refl
    (proj2 (oshown0_3 F 0 i j k I0 J0 K0)) (proj2 (oshown0_3 F 0 (i - 1) j k I1 J0 K0)) (proj2 (oshown0_3 F 0 i (j - 1) k I0 J1 K0)) (proj2 (oshown0_3 F 0 i j (k - 1) I0 J0 K1))).
Qed.
Definition beside_b3 (i j k : Z) : Prop := (ax_lo (e_ax D) = Pml -> th <= i < Nx - th - 2) /\ (ax_lo (e_ay D) = Pml -> th <= j < Ny - th - 2) /\ (ax_lo (e_az D) = Pml -> th <= k < Nz - th - 2).
Lemma div_oB3 FE F PF i j k : beside_b3 i j k -> divB3 A (per3 D (oB3 eps K D FE F PF)) dx dy dz i j k = divB3 A (per3 D F) dx dy dz i j k.
Proof.
  intros (H1 & H2 & H3). pose proof (oo3_th K D pmls OK) as T.
  assert (forall x y z, (ax_lo (e_ax D) = Pml -> th <= x < Nx - th - 1) -> (ax_lo (e_ay D) = Pml -> th <= y < Ny - th - 1) -> (ax_lo (e_az D) = Pml -> th <= z < Nz - th - 1) ->
     inr (e_ax D) Nx x /\ inr (e_ay D) Ny y /\ inr (e_az D) Nz z /\ out_b3 (x mod Nx) (y mod Ny) (z mod Nz)) as X.
  { clear - T. intros x y z B1 B2 B3. split; [intro P; specialize (B1 P); lia|]. split; [intro P; specialize (B2 P); lia|]. split; [intro P; specialize (B3 P); lia|].
    assert (Nx - th - 1 <= Nx) as L1 by lia. assert (Ny - th - 1 <= Ny) as L2 by lia. assert (Nz - th - 1 <= Nz) as L3 by lia.
    split; [|split]; intro P; [rewrite (mod_in (e_ax D) Nx x th (Nx - th - 1) T L1 B1 P)|rewrite (mod_in (e_ay D) Ny y th (Ny - th - 1) T L2 B2 P)|rewrite (mod_in (e_az D) Nz z th (Nz - th - 1) T L3 B3 P)]; auto. }
  destruct (X i j k) as (I0 & J0 & K0 & O0); try (intro P; first [specialize (H1 P)|specialize (H2 P)|specialize (H3 P)]; lia).
  destruct (X (i + 1) j k) as (I1 & _ & _ & O1); try (intro P; first [specialize (H1 P)|specialize (H2 P)|specialize (H3 P)]; lia).
  destruct (X i (j + 1) k) as (_ & J1 & _ & O2); try (intro P; first [specialize (H1 P)|specialize (H2 P)|specialize (H3 P)]; lia).
  destruct (X i j (k + 1)) as (_ & _ & K1 & O3); try (intro P; first [specialize (H1 P)|specialize (H2 P)|specialize (H3 P)]; lia). clear X.
  assert (forall G, divB3 A (per3 D G) dx dy dz i j k = divB3 A (sv G) dx dy dz i j k) as R.
  { intro G. unfold divB3. rewrite (proj1 (oshown0_3 G 0 i j k I0 J0 K0)), (proj1 (oshown0_3 G 1 i j k I0 J0 K0)), (proj1 (oshown0_3 G 2 i j k I0 J0 K0)), (proj1 (oshown0_3 G 0 (i + 1) j k I1 J0 K0)), (proj1 (oshown0_3 G 1 i (j + 1) k I0 J1 K0)), (proj1 (oshown0_3 G 2 i j (k + 1) I0 J0 K1)). reflexivity. }
  transitivity (divB3 A (per3 D (gB3 eps D FE F)) dx dy dz i j k).
  { unfold divB3, per3. rewrite !plainB3 by (auto; lia). reflexivity. }
  rewrite !R. exact (divB3_step A (Q2Qc 0) (Q2Qc 1) Qcinv Qcft ns (e_ng D) bounds3 opp3 (npatches3 D) (nbr3 (e_ax D) (e_ay D) (e_az D)) axes (position3 (e_ax D) (e_ay D)) odecomp3 dx dy dz 0 i j k oone_patch3 (half3 D) FE F eq_refl
    (proj2 (oshown0_3 F 0 i j k I0 J0 K0)) (proj2 (oshown0_3 F 0 (i + 1) j k I1 J0 K0)) (proj2 (oshown0_3 F 0 i (j + 1) k I0 J1 K0)) (proj2 (oshown0_3 F 0 i j (k + 1) I0 J0 K1))).
Qed.
End Fields.
