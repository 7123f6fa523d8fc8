(** Symmetries, part 1: the updates of the fields. *)
From Coq Require Import QArith Qabs Qround Qcanon Permutation Lqa.
From Verif Require Import Base M_Layout S_Layout M_PartSync S_PartSync M_FieldSync S_FieldSync M_Maxwell S_Maxwell M_Deposit S_Deposit M_Push P_Maxwell P_Maxwell2 P_Maxwell3 M_Step S_Step P_Step1 P_Step2 P_Step7 S_Sym.
Local Open Scope list_scope.
Local Open Scope Z_scope.

Lemma widths D : domain_ok D -> 0 < Cx D /\ 0 < Cy D.
Proof. intro OK. destruct (ok_n D OK), (ok_g D OK) as (G1 & G2 & G3). unfold Cx, Cy. nia. Qed.
Lemma place_zeros D (OK : domain_ok D) a b : place [d_ax D; d_ay D] [d_nx D; d_ny D] (zeros [d_nx D; d_ny D]) [a; b] = Some [a mod Cx D; b mod Cy D].
Proof.
  cbn [zeros map place]. rewrite !place1_wrap by (apply (ok_px D OK) || apply (ok_py D OK)). reflexivity.
Qed.
Lemma within_two ng a b c : within ng [a; b] c -> exists x y, c = [x; y].
Proof. intro W. inversion W as [|? x ? l _ W2]; subst. inversion W2 as [|? z ? l2 _ W3]; subst. inversion W3; subst. eauto. Qed.
Lemma field_ext2 D (OK : domain_ok D) F F' m : (forall f a b, (f < 3)%nat -> 0 <= a < Cx D -> 0 <= b < Cy D -> F f [a; b] = F' f [a; b]) -> field_is D F m -> field_is D F' m.
Proof.
  intros H K f p c Hf Hp Hc. rewrite (K f p c Hf Hp Hc). destruct (within_two _ _ _ c Hc) as (x & z & ->).
  unfold shown. rewrite (place_wrap D OK). destruct (widths D OK). apply H; [exact Hf| |]; apply Z.mod_pos_bound; assumption.
Qed.
Lemma currents_ext2 D (OK : domain_ok D) F F' m : (forall f a b, (f < 4)%nat -> 0 <= a < Cx D -> 0 <= b < Cy D -> F f [a; b] = F' f [a; b]) -> currents_are D F m -> currents_are D F' m.
Proof.
  intros H K f p c Hf Hp Hc. rewrite (K f p c Hf Hp Hc).
  assert (exists x z, c = [x; z]) as (x & z & ->).
  { inversion Hc as [|? x ? l _ W2]; subst. inversion W2 as [|? z ? l2 _ W3]; subst. inversion W3; subst. eauto. }
  unfold shown. rewrite (place_wrap D OK). destruct (widths D OK). apply H; [exact Hf| |]; apply Z.mod_pos_bound; assumption.
Qed.

(** * Cells *)
Definition base (rev : bool) (shift a : Z) : Z := if rev then shift - a else a - shift.
Definition off (rev : bool) (h : bool) (d : Z) : Z := if rev then - d - (if h then 1 else 0) else d.
Lemma origin_off rev shift N h a d : 0 < N -> origin_of rev shift N h ((a + d) mod N) = (base rev shift a + off rev h d) mod N.
Proof.
  intro HN. unfold origin_of, base, off. destruct rev.
  - rewrite Zminus_mod, (Zminus_mod shift), Zmod_mod, <- (Zminus_mod shift), <- Zminus_mod. f_equal. destruct h; lia.
  - rewrite Zminus_mod, Zmod_mod, <- Zminus_mod. f_equal. lia.
Qed.
Lemma origin_base rev shift N h a : origin_of rev shift N h a = (base rev shift a + off rev h 0) mod N.
Proof. unfold origin_of, base, off. destruct rev, h; f_equal; lia. Qed.
Lemma mod_add a d e N : 0 < N -> ((a + d) mod N + e) mod N = (a + (d + e)) mod N.
Proof. intro. rewrite Zplus_mod_idemp_l. f_equal. lia. Qed.

Section Fields.
Variable eps : Qc.
Variables D D' : domain2.
Hypothesis OK : domain_ok D.
Hypothesis OK' : domain_ok D'.
Variable y : symmetry.
Hypothesis ID : image_domain y D D'.
Local Notation imE := (image_E y D'). Local Notation imB := (image_B y D').

Lemma sgn_c b : Q2Qc (sgn b) = if b then (- (1))%Qc else 1%Qc.
Proof. destruct b; apply Qc_is_canon; reflexivity. Qed.
Lemma gE_image FB FJ F f a b : (f < 3)%nat -> gE eps D' (imB FB) (imE FJ) (imE F) f [a; b] = imE (gE eps D FB FJ F) f [a; b].
Proof using OK OK' ID.
  intro Hf. destruct (widths D OK) as [P1 P2]. destruct (widths D' OK') as [P1' P2'].
  unfold gE, image_E, image_B. unfold image at 4. unfold grid_step. unfold half. destruct ID as [I1 ->].
  set (bx := base (y_fx y) (y_ax y) a). set (by_ := base (y_fy y) (y_ay y) b).
  assert (forall d, origin_of (y_fx y) (y_ax y) (Cx D') d a = (bx + off (y_fx y) d 0) mod Cx D') as Ea by (intro; apply origin_base).
  assert (forall d, origin_of (y_fy y) (y_ay y) (Cy D') d b = (by_ + off (y_fy y) d 0) mod Cy D') as Eb by (intro; apply origin_base).
  assert (forall h d, origin_of (y_fx y) (y_ax y) (Cx D') h ((a + d) mod Cx D') = (bx + off (y_fx y) h d) mod Cx D') as Fa by (intros; apply origin_off; assumption).
  assert (forall h d, origin_of (y_fy y) (y_ay y) (Cy D') h ((b + d) mod Cy D') = (by_ + off (y_fy y) h d) mod Cy D') as Fb by (intros; apply origin_off; assumption).
  clearbody bx by_.
  destruct f as [|[|[|f]]]; [| | |lia]; clear Hf; unfold SE2; cbn [add]; rewrite ?(place_zeros D' OK'); unfold image; cbv zeta; rewrite ?Ea, ?Eb, ?Fa, ?Fb; clear Ea Eb Fa Fb; rewrite ?sgn_c;
  unfold sign_B, sign_E, improper, rev_, comp in *; destruct (y_swap y); destruct I1 as (I1 & I2 & I3 & I4);
  cbv beta iota; cbn [add]; rewrite ?(place_zeros D OK), <- ?I1, <- ?I2, ?I3, ?I4, ?mod_add by assumption;
  cbn [plus_ minus_ times_ over_ minus1_ csq eps0 qc_arith]; cbn [half_Ex half_Ey half_Bx half_By Nat.eqb orb];
  destruct (y_conj y), (y_fx y), (y_fy y), (y_fz y); cbn [xorb off Z.add Z.opp Z.sub Z.pos_sub Pos.pred_double Pos.add]; unfold Qcdiv; ring.
Qed.
Lemma gB_image FE F f a b : (f < 3)%nat -> gB eps D' (imE FE) (imB F) f [a; b] = imB (gB eps D FE F) f [a; b].
Proof using OK OK' ID.
  intro Hf. destruct (widths D OK) as [P1 P2]. destruct (widths D' OK') as [P1' P2'].
  unfold gB, image_E, image_B. unfold image at 4. unfold grid_step. unfold half. destruct ID as [I1 ->].
  set (bx := base (y_fx y) (y_ax y) a). set (by_ := base (y_fy y) (y_ay y) b).
  assert (forall d, origin_of (y_fx y) (y_ax y) (Cx D') d a = (bx + off (y_fx y) d 0) mod Cx D') as Ea by (intro; apply origin_base).
  assert (forall d, origin_of (y_fy y) (y_ay y) (Cy D') d b = (by_ + off (y_fy y) d 0) mod Cy D') as Eb by (intro; apply origin_base).
  assert (forall h d, origin_of (y_fx y) (y_ax y) (Cx D') h ((a + d) mod Cx D') = (bx + off (y_fx y) h d) mod Cx D') as Fa by (intros; apply origin_off; assumption).
  assert (forall h d, origin_of (y_fy y) (y_ay y) (Cy D') h ((b + d) mod Cy D') = (by_ + off (y_fy y) h d) mod Cy D') as Fb by (intros; apply origin_off; assumption).
  clearbody bx by_.
  destruct f as [|[|[|f]]]; [| | |lia]; clear Hf; unfold SB2; cbn [add]; rewrite ?(place_zeros D' OK'); unfold image; cbv zeta; rewrite ?Ea, ?Eb, ?Fa, ?Fb; clear Ea Eb Fa Fb; rewrite ?sgn_c;
  unfold sign_B, sign_E, improper, rev_, comp in *; destruct (y_swap y); destruct I1 as (I1 & I2 & I3 & I4);
  cbv beta iota; cbn [add]; rewrite ?(place_zeros D OK), <- ?I1, <- ?I2, ?I3, ?I4, ?mod_add by assumption;
  cbn [plus_ minus_ times_ over_ minus1_ csq eps0 qc_arith]; cbn [half_Ex half_Ey half_Bx half_By Nat.eqb orb];
  destruct (y_conj y), (y_fx y), (y_fy y), (y_fz y); cbn [xorb off Z.add Z.opp Z.sub Z.pos_sub Pos.pred_double Pos.add]; unfold Qcdiv; ring.
Qed.
End Fields.
