(** Gauss' law with open sides, part 1: the fields outside the layers. *)
From Coq Require Import Field_theory QArith Qabs Qround Qcanon Permutation Lqa.
From Verif Require Import Base M_Layout S_Layout M_PartSync S_PartSync M_FieldSync S_FieldSync M_Maxwell S_Maxwell M_Cpml S_Cpml M_Deposit S_Deposit M_Push P_Layout P_FieldGeo P_Maxwell P_Maxwell2 P_Maxwell3 P_Cpml P_Cpml2 P_Cpml3 P_Cpml4 P_Cpml5 P_Deposit M_Step S_Step M_StepO S_StepO P_Step1 P_Step2 P_Step3 P_Step4 P_Step5 P_Step6 P_Step7 S_Gauss S_GaussO P_Gauss1 P_Gauss2 P_StepO1 P_StepO2 P_StepO3 P_StepO4.
Local Open Scope list_scope.
Local Open Scope Z_scope.

Definition per (D : domain2) (F : nat -> list Z -> Qc) (f : nat) (c : list Z) : Qc := match c with [i; j] => F f [i mod cells_x D; j mod cells_y D] | _ => Q2Qc 0 end.
Lemma place1_in a m x : 0 <= x < ax_n a * m -> forall k y, k * m + y = x -> place1 a m k y = Some x.
Proof. intros H k y E. unfold place1. cbv zeta. rewrite E. destruct (Z.leb_spec 0 x), (Z.ltb_spec x (ax_n a * m)); try lia. reflexivity. Qed.
Definition inr (a : M_Layout.axis) (W i : Z) : Prop := ax_lo a = Pml -> 0 <= i < W.
Lemma place1_inr a m i : 0 < ax_n a * m -> inr a (ax_n a * m) i -> place1 a m 0 i = Some (i mod (ax_n a * m)).
Proof.
  intros P H. unfold place1. cbv zeta. rewrite Z.mul_0_l, Z.add_0_l. set (W := ax_n a * m) in *. clearbody W.
  destruct (Z.leb_spec 0 i); cbn [andb]; [destruct (Z.ltb_spec i W)|]; [rewrite Z.mod_small by lia; reflexivity| |];
    (unfold inr in H; destruct (ax_lo a); [specialize (H eq_refl); lia|reflexivity]).
Qed.

Section Fields.
Variable eps : Qc.
Variable K : layer Qc. Variable D : domain2. Variable pmls : nat -> list pml_side.
Hypothesis OK : open_ok K D pmls.
Local Notation axes := [d_ax D; d_ay D]. Local Notation ns := [d_nx D; d_ny D].
Local Notation Nx := (cells_x D). Local Notation Ny := (cells_y D). Local Notation th := (thick K).
Local Notation dx := (Q2Qc (d_dx D)). Local Notation dy := (Q2Qc (d_dy D)).
Local Notation A := (qc_arith eps).
Local Notation sv F := (shown (Q2Qc 0) axes ns (position2 (d_ax D)) F 0).
Lemma ocells_pos : 0 < Nx /\ 0 < Ny.
Proof. destruct (cells_pos (twin D) (twin_ok K D pmls OK)) as [P1 P2]. exact (conj P1 P2). Qed.
Lemma oone_patch : (0 < npatches2 D)%nat.
Proof. destruct (oo_n K D pmls OK) as [N1 N2]. unfold npatches2. nia. Qed.
Lemma oshown0 F f i j : inr (d_ax D) Nx i -> inr (d_ay D) Ny j -> sv F f [i; j] = per D F f [i; j] /\ place axes ns (position2 (d_ax D) 0) [i; j] <> None.
Proof.
  intros H1 H2. destruct ocells_pos as [P1 P2]. destruct (oo_n K D pmls OK) as [N1 N2]. unfold shown, position2, per. change (Z.of_nat 0) with 0. rewrite Z.mod_0_l, Z.div_0_l by lia.
  cbn [place]. rewrite (place1_inr (d_ax D) (d_nx D) i P1 H1), (place1_inr (d_ay D) (d_ny D) j P2 H2). split; [reflexivity|discriminate].
Qed.
Lemma ostored_at i j : let I := i mod Nx in let J := j mod Ny in let p := Z.to_nat (J / d_ny D * ax_n (d_ax D) + I / d_nx D) in
  (p < npatches2 D)%nat /\ interior ns [I mod d_nx D; J mod d_ny D] /\
  place axes ns (position2 (d_ax D) p) [I mod d_nx D; J mod d_ny D] = Some [i mod Nx; j mod Ny].
Proof.
  intros I J p. destruct (oo_n K D pmls OK) as [N1 N2]. destruct (oo_g K D pmls OK) as (G1 & G2 & G3). destruct ocells_pos as [P1 P2].
  assert (0 <= I < Nx) as HI by (apply Z.mod_pos_bound; exact P1). assert (0 <= J < Ny) as HJ by (apply Z.mod_pos_bound; exact P2).
  change (i mod Nx) with I. change (j mod Ny) with J. clearbody I J.
  unfold cells_x in HI. unfold cells_y in HJ.
  assert (0 <= I / d_nx D < ax_n (d_ax D)) as HX by (split; [apply Z.div_pos; lia|apply Z.div_lt_upper_bound; lia]).
  assert (0 <= J / d_ny D < ax_n (d_ay D)) as HY by (split; [apply Z.div_pos; lia|apply Z.div_lt_upper_bound; lia]).
  assert (Z.of_nat p = J / d_ny D * ax_n (d_ax D) + I / d_nx D) as Ep by (unfold p; rewrite Z2Nat.id; nia).
  split; [unfold npatches2; apply Nat2Z.inj_lt; rewrite Ep, Z2Nat.id by nia; nia|]. split.
  - constructor; [apply Z.mod_pos_bound; lia|]. constructor; [apply Z.mod_pos_bound; lia|constructor].
  - unfold position2. rewrite Ep.
    assert ((J / d_ny D * ax_n (d_ax D) + I / d_nx D) mod ax_n (d_ax D) = I / d_nx D) as -> by (rewrite Z.add_comm, Z.mod_add, Z.mod_small by lia; reflexivity).
    assert ((J / d_ny D * ax_n (d_ax D) + I / d_nx D) / ax_n (d_ax D) = J / d_ny D) as -> by (rewrite Z.add_comm, Z.div_add, Z.div_small by lia; lia).
    cbn [place]. rewrite (place1_in (d_ax D) (d_nx D) I HI) by (rewrite Z.mul_comm; symmetry; apply Z.div_mod; lia).
    rewrite (place1_in (d_ay D) (d_ny D) J HJ) by (rewrite Z.mul_comm; symmetry; apply Z.div_mod; lia). reflexivity.
Qed.
Lemma oread_currents F m f i j : currents_are D F m -> (f < 4)%nat -> on_domain D m f [i; j] = per D F f [i; j].
Proof.
  intros H Hf. destruct (ostored_at i j) as (Hp & Hc & Hg). unfold on_domain, stored. cbv zeta.
  rewrite (H f _ _ Hf Hp Hc). unfold shown. rewrite Hg. reflexivity.
Qed.
Lemma oread_field F m f i j : field_is D F m -> (f < 3)%nat -> on_domain D m f [i; j] = per D F f [i; j].
Proof.
  intros H Hf. destruct (oo_g K D pmls OK) as (G1 & G2 & G3). destruct (ostored_at i j) as (Hp & Hc & Hg). unfold on_domain, stored. cbv zeta.
  rewrite (H f _ _ Hf Hp (interior_within (d_ng D) [d_nx D; d_ny D] _ ltac:(lia) Hc)). unfold shown. rewrite Hg. reflexivity.
Qed.
Lemma oread_divE F m i j : field_is D F m -> divE2 A (on_domain D m) dx dy i j = divE2 A (per D F) dx dy i j.
Proof. intro H. unfold divE2. rewrite !(oread_field F m) by (auto; lia). reflexivity. Qed.
Lemma oread_divB F m i j : field_is D F m -> divB2 A (on_domain D m) dx dy i j = divB2 A (per D F) dx dy i j.
Proof. intro H. unfold divB2. rewrite !(oread_field F m) by (auto; lia). reflexivity. Qed.
Lemma oread_divJ F m i j : currents_are D F m -> divE2 A (on_domain D m) dx dy i j = divE2 A (per D F) dx dy i j.
Proof. intro H. unfold divE2. rewrite !(oread_currents F m) by (auto; lia). reflexivity. Qed.

(** outside the layers the fields are advanced as without them *)
Definition out_e (a b : Z) : Prop := (ax_lo (d_ax D) = Pml -> th <= a < Nx - th) /\ (ax_lo (d_ay D) = Pml -> th <= b < Ny - th).
Definition out_b (a b : Z) : Prop := (ax_lo (d_ax D) = Pml -> th <= a < Nx - th - 1) /\ (ax_lo (d_ay D) = Pml -> th <= b < Ny - th - 1).
Lemma gact_off (e : bool) a b s : (if e then out_e a b else out_b a b) -> In s sides2 -> P_Cpml2.gact K e (opens axes) (totals axes ns) s [a; b] = false.
Proof.
  intros H I. pose proof (oo_th K D pmls OK) as T.
  assert (X : forall ax W m x, W = ax_n ax * m -> (ax_lo ax = Pml -> th <= x < W - th - (if e then 0 else 1)) -> forall s, open_ ax && in_range K e s W x = false).
  { intros ax W m x _ B s'. unfold open_. destruct (ax_lo ax); [|reflexivity]. specialize (B eq_refl). cbn [bc_eqb andb]. unfold in_range, l_start, l_stop.
    destruct (is_min s'), e; destruct (Z.leb_spec 0 x); destruct (Z.ltb_spec x th); try lia;
    destruct (Z.leb_spec (W - th) x); destruct (Z.leb_spec (W - th - 1) x); try lia; reflexivity. }
  assert ((ax_lo (d_ax D) = Pml -> th <= a < Nx - th - (if e then 0 else 1)) /\ (ax_lo (d_ay D) = Pml -> th <= b < Ny - th - (if e then 0 else 1))) as [B1 B2].
  { destruct e; destruct H as [H1 H2]; split; intro P; [specialize (H1 P)|specialize (H2 P)|specialize (H1 P)|specialize (H2 P)]; lia. }
  unfold P_Cpml2.gact, opens, totals. cbn [sides2 In] in I.
  destruct I as [<-|[<-|[<-|[<-|[]]]]]; cbn [axis_of map nth combine fst snd coord]; [apply (X (d_ax D) _ (d_nx D) a eq_refl B1)|apply (X (d_ax D) _ (d_nx D) a eq_refl B1)|apply (X (d_ay D) _ (d_ny D) b eq_refl B2)|apply (X (d_ay D) _ (d_ny D) b eq_refl B2)].
Qed.
Lemma plainE FB FJ F PF f a b : out_e a b -> (f < 3)%nat -> oE eps K D FB FJ F PF f [a; b] = gE eps D FB FJ F f [a; b].
Proof.
  intros H Hf. unfold oE, P_Cpml2.gfield. pose proof (gact_off true a b) as G. cbn iota in G. specialize (fun s => G s H).
  assert (forall x, P_Cpml2.gkappa A K sides2 true (opens axes) (totals axes ns) [a; b] x = Q2Qc 1) as Ek.
  { intro x. unfold P_Cpml2.gkappa. unfold sides2. cbn [fold_left]. rewrite !G by (cbn [sides2 In]; tauto). rewrite !andb_false_r. exact (oo_one K D pmls OK). }
  unfold sides2 at 1. cbn [fold_left]. unfold P_Cpml2.ggain. rewrite !G by (cbn [sides2 In]; tauto).
  unfold gE, grid_step. change (fun f' d => P_Cpml2.gget (Q2Qc 0) (place axes ns (zeros ns)) FB f' (add [a; b] d)) with (fun f' d => match place axes ns (zeros ns) (add [a; b] d) with Some h => FB f' h | None => Q2Qc 0 end).
  set (o := fun f' d => match place axes ns (zeros ns) (add [a; b] d) with Some h => FB f' h | None => Q2Qc 0 end). clearbody o.
  unfold KE2, SE2. rewrite !Ek. cbv zeta. cbn [qc_arith plus_ minus_ times_ over_ csq eps0 minus1_].
  assert (forall x : Qc, x / Q2Qc 1 = x)%Qc as E1 by (intro x; apply Qc_is_canon; rewrite P_Gauss2.this_div, this_q2qc; field).
  destruct f as [|[|f]]; cbv beta iota; rewrite ?E1; ring.
Qed.
Lemma plainB FE F PF f a b : out_b a b -> (f < 3)%nat -> oB eps K D FE F PF f [a; b] = gB eps D FE F f [a; b].
Proof.
  intros H Hf. unfold oB, P_Cpml2.gfield. pose proof (gact_off false a b) as G. cbn iota in G. specialize (fun s => G s H).
  assert (forall x, P_Cpml2.gkappa A K sides2 false (opens axes) (totals axes ns) [a; b] x = Q2Qc 1) as Ek.
  { intro x. unfold P_Cpml2.gkappa. unfold sides2. cbn [fold_left]. rewrite !G by (cbn [sides2 In]; tauto). rewrite !andb_false_r. exact (oo_one K D pmls OK). }
  unfold sides2 at 1. cbn [fold_left]. unfold P_Cpml2.ggain. rewrite !G by (cbn [sides2 In]; tauto).
  unfold gB, grid_step. change (fun f' d => P_Cpml2.gget (Q2Qc 0) (place axes ns (zeros ns)) FE f' (add [a; b] d)) with (fun f' d => match place axes ns (zeros ns) (add [a; b] d) with Some h => FE f' h | None => Q2Qc 0 end).
  set (o := fun f' d => match place axes ns (zeros ns) (add [a; b] d) with Some h => FE f' h | None => Q2Qc 0 end). clearbody o.
  unfold KB2, SB2. rewrite !Ek. cbv zeta. cbn [qc_arith plus_ minus_ times_ over_ csq eps0 minus1_].
  assert (forall x : Qc, x / Q2Qc 1 = x)%Qc as E1 by (intro x; apply Qc_is_canon; rewrite P_Gauss2.this_div, this_q2qc; field).
  destruct f as [|[|f]]; cbv beta iota; rewrite ?E1; ring.
Qed.
Lemma odecomp : decomp ns (d_ng D) bounds2 opp2 (npatches2 D) (nbr2 (d_ax D) (d_ay D)) axes (position2 (d_ax D)).
Proof. destruct (osetting eps K D pmls OK) as [TD _ _ _ _ _ _]. exact TD. Qed.
Lemma mod_in a W i lo hi : 0 <= lo -> hi <= W -> (ax_lo a = Pml -> lo <= i < hi) -> ax_lo a = Pml -> i mod W = i.
Proof. intros H1 H2 H P. specialize (H P). apply Z.mod_small. lia. Qed.
Lemma div_oE FB FJ F PF i j : beside_layers th D i j ->
  divE2 A (per D (oE eps K D FB FJ F PF)) dx dy i j = (divE2 A (per D F) dx dy i j - half D / eps * divE2 A (per D FJ) dx dy i j)%Qc.
Proof.
  intros [H1 H2]. pose proof (oo_th K D pmls OK) as T.
  assert (forall x y, (ax_lo (d_ax D) = Pml -> th <= x < Nx - th) -> (ax_lo (d_ay D) = Pml -> th <= y < Ny - th) ->
     inr (d_ax D) Nx x /\ inr (d_ay D) Ny y /\ out_e (x mod Nx) (y mod Ny)) as X.
  { intros x y B1 B2. split; [intro P; specialize (B1 P); lia|]. split; [intro P; specialize (B2 P); lia|].
    split; intro P; [rewrite (mod_in (d_ax D) Nx x th (Nx - th) T ltac:(lia) B1 P)|rewrite (mod_in (d_ay D) Ny y th (Ny - th) T ltac:(lia) B2 P)]; auto. }
  destruct (X i j) as (I0 & J0 & O0); [intro P; specialize (H1 P); lia|intro P; specialize (H2 P); lia|].
  destruct (X (i - 1) j) as (I1 & _ & O1); [intro P; specialize (H1 P); lia|intro P; specialize (H2 P); lia|].
  destruct (X i (j - 1)) as (_ & J1 & O2); [intro P; specialize (H1 P); lia|intro P; specialize (H2 P); lia|]. clear X.
  assert (forall G, divE2 A (per D G) dx dy i j = divE2 A (sv G) dx dy i j) as R.
  { intro G. unfold divE2. rewrite (proj1 (oshown0 G 0 i j I0 J0)), (proj1 (oshown0 G 1 i j I0 J0)), (proj1 (oshown0 G 0 (i - 1) j I1 J0)), (proj1 (oshown0 G 1 i (j - 1) I0 J1)). reflexivity. }
  transitivity (divE2 A (per D (gE eps D FB FJ F)) dx dy i j).
  { unfold divE2, per. rewrite !plainE by (auto; lia). reflexivity. }
  rewrite !R. exact (divE2_step A (Q2Qc 0) (Q2Qc 1) Qcinv Qcft ns (d_ng D) bounds2 opp2 (npatches2 D) (nbr2 (d_ax D) (d_ay D)) axes (position2 (d_ax D)) odecomp dx dy 0 i j oone_patch (half D) FB FJ F eq_refl
    (proj2 (oshown0 F 0 i j I0 J0)) (proj2 (oshown0 F 0 (i - 1) j I1 J0)) (proj2 (oshown0 F 0 i (j - 1) I0 J1))).
Qed.
Definition beside_b (i j : Z) : Prop := (ax_lo (d_ax D) = Pml -> th <= i < Nx - th - 2) /\ (ax_lo (d_ay D) = Pml -> th <= j < Ny - th - 2).
Lemma div_oB FE F PF i j : beside_b i j -> divB2 A (per D (oB eps K D FE F PF)) dx dy i j = divB2 A (per D F) dx dy i j.
Proof.
  intros [H1 H2]. pose proof (oo_th K D pmls OK) as T.
  assert (forall x y, (ax_lo (d_ax D) = Pml -> th <= x < Nx - th - 1) -> (ax_lo (d_ay D) = Pml -> th <= y < Ny - th - 1) ->
     inr (d_ax D) Nx x /\ inr (d_ay D) Ny y /\ out_b (x mod Nx) (y mod Ny)) as X.
  { intros x y B1 B2. split; [intro P; specialize (B1 P); lia|]. split; [intro P; specialize (B2 P); lia|].
    split; intro P; [rewrite (mod_in (d_ax D) Nx x th (Nx - th - 1) T ltac:(lia) B1 P)|rewrite (mod_in (d_ay D) Ny y th (Ny - th - 1) T ltac:(lia) B2 P)]; auto. }
  destruct (X i j) as (I0 & J0 & O0); [intro P; specialize (H1 P); lia|intro P; specialize (H2 P); lia|].
  destruct (X (i + 1) j) as (I1 & _ & O1); [intro P; specialize (H1 P); lia|intro P; specialize (H2 P); lia|].
  destruct (X i (j + 1)) as (_ & J1 & O2); [intro P; specialize (H1 P); lia|intro P; specialize (H2 P); lia|]. clear X.
  assert (forall G, divB2 A (per D G) dx dy i j = divB2 A (sv G) dx dy i j) as R.
  { intro G. unfold divB2. rewrite (proj1 (oshown0 G 0 i j I0 J0)), (proj1 (oshown0 G 1 i j I0 J0)), (proj1 (oshown0 G 0 (i + 1) j I1 J0)), (proj1 (oshown0 G 1 i (j + 1) I0 J1)). reflexivity. }
  transitivity (divB2 A (per D (gB eps D FE F)) dx dy i j).
  { unfold divB2, per. rewrite !plainB by (auto; lia). reflexivity. }
  rewrite !R. exact (divB2_step A (Q2Qc 0) (Q2Qc 1) Qcinv Qcft ns (d_ng D) bounds2 opp2 (npatches2 D) (nbr2 (d_ax D) (d_ay D)) axes (position2 (d_ax D)) odecomp dx dy 0 i j oone_patch (half D) FE F eq_refl
    (proj2 (oshown0 F 0 i j I0 J0)) (proj2 (oshown0 F 0 (i + 1) j I1 J0)) (proj2 (oshown0 F 0 i (j + 1) I0 J1))).
Qed.
End Fields.
