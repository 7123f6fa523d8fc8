(** Gauss' law over whole runs, part 2: one step and many steps. *)
From Coq Require Import QArith Qabs Qround Qcanon Permutation Lqa.
From Verif Require Import Base M_Layout S_Layout M_PartSync S_PartSync M_FieldSync S_FieldSync M_Maxwell S_Maxwell M_Deposit S_Deposit M_Push P_Layout P_Deposit P_Deposit5 P_FieldGeo P_Maxwell P_Maxwell3 M_Step S_Step P_Step1 P_Step2 P_Step3 P_Step4 P_Step5 P_Step6 P_Step7 P_Step8 S_Gauss P_Gauss1.
Local Open Scope list_scope.
Local Open Scope Z_scope.

(** * Values of the whole domain *)
Section Read.
Variable D : domain2.
Hypothesis OK : domain_ok D.
Local Notation axes := [d_ax D; d_ay D]. Local Notation ns := [d_nx D; d_ny D].
Local Notation Nx := (cells_x D). Local Notation Ny := (cells_y D).
Local Notation sv F := (shown (Q2Qc 0) axes ns (position2 (d_ax D)) F 0).
Lemma shown0 F f i j : sv F f [i; j] = F f [i mod Nx; j mod Ny].
Proof.
  destruct (ok_n D OK) as [N1 N2]. unfold shown. rewrite place_wrap by exact OK. unfold cells_x, cells_y.
  change (pnum 0) with 0. rewrite Z.mod_0_l, Z.div_0_l by lia. rewrite !Z.mul_0_l, !Z.add_0_l. reflexivity.
Qed.
Lemma stored_at i j : let I := i mod Nx in let J := j mod Ny in let p := Z.to_nat (J / d_ny D * ax_n (d_ax D) + I / d_nx D) in
  (p < npatches2 D)%nat /\ interior ns [I mod d_nx D; J mod d_ny D] /\
  place axes ns (position2 (d_ax D) p) [I mod d_nx D; J mod d_ny D] = Some [i mod Nx; j mod Ny].
Proof.
  intros I J p. destruct (ok_n D OK) as [N1 N2]. destruct (ok_g D OK) as (G1 & G2 & G3). destruct (cells_pos D OK) as [P1 P2].
  assert (0 <= I < Nx) as HI by (apply Z.mod_pos_bound; exact P1). assert (0 <= J < Ny) as HJ by (apply Z.mod_pos_bound; exact P2).
  unfold cells_x in HI. unfold cells_y in HJ.
  assert (0 <= I / d_nx D < ax_n (d_ax D)) as HX by (split; [apply Z.div_pos; lia|apply Z.div_lt_upper_bound; lia]).
  assert (0 <= J / d_ny D < ax_n (d_ay D)) as HY by (split; [apply Z.div_pos; lia|apply Z.div_lt_upper_bound; lia]).
  assert (Z.of_nat p = J / d_ny D * ax_n (d_ax D) + I / d_nx D) as Ep by (unfold p; rewrite Z2Nat.id; nia).
  split; [unfold npatches2; apply Nat2Z.inj_lt; rewrite Ep, Z2Nat.id by nia; nia|]. split.
  - constructor; [apply Z.mod_pos_bound; lia|]. constructor; [apply Z.mod_pos_bound; lia|constructor].
  - rewrite place_wrap by exact OK. unfold pnum. rewrite Ep.
    assert ((J / d_ny D * ax_n (d_ax D) + I / d_nx D) mod ax_n (d_ax D) = I / d_nx D) as -> by (rewrite Z.add_comm, Z.mod_add, Z.mod_small by lia; reflexivity).
    assert ((J / d_ny D * ax_n (d_ax D) + I / d_nx D) / ax_n (d_ax D) = J / d_ny D) as -> by (rewrite Z.add_comm, Z.div_add, Z.div_small by lia; lia).
    replace (I / d_nx D * d_nx D + I mod d_nx D) with I by (rewrite Z.mul_comm; apply Z.div_mod; lia).
    replace (J / d_ny D * d_ny D + J mod d_ny D) with J by (rewrite Z.mul_comm; apply Z.div_mod; lia).
    rewrite !Z.mod_small by lia. reflexivity.
Qed.
Lemma read_currents F m f i j : currents_are D F m -> (f < 4)%nat -> on_domain D m f [i; j] = sv F f [i; j].
Proof.
  intros H Hf. destruct (stored_at i j) as (Hp & Hc & Hg). rewrite shown0. unfold on_domain, stored. cbv zeta.
  rewrite (H f _ _ Hf Hp Hc). unfold shown. rewrite Hg. reflexivity.
Qed.
Lemma read_field F m f i j : field_is D F m -> (f < 3)%nat -> on_domain D m f [i; j] = sv F f [i; j].
Proof.
  intros H Hf. destruct (ok_g D OK) as (G1 & G2 & G3). destruct (stored_at i j) as (Hp & Hc & Hg). rewrite shown0. unfold on_domain, stored. cbv zeta.
  rewrite (H f _ _ Hf Hp (interior_within (d_ng D) [d_nx D; d_ny D] _ ltac:(lia) Hc)). unfold shown. rewrite Hg. reflexivity.
Qed.
Lemma inside0 c : place axes ns (position2 (d_ax D) 0) c <> None.
Proof. destruct c as [|a [|b c]]; [discriminate| |].
  - unfold position2. cbn [place]. rewrite place1_wrap by apply (ok_px D OK). discriminate.
  - unfold position2. cbn [place]. rewrite !place1_wrap by (apply (ok_px D OK) || apply (ok_py D OK)). discriminate.
Qed.
Lemma one_patch : (0 < npatches2 D)%nat.
Proof. destruct (ok_n D OK) as [N1 N2]. unfold npatches2. nia. Qed.

Variable eps : Qc.
Local Notation A := (qc_arith eps).
Local Notation dx := (Q2Qc (d_dx D)). Local Notation dy := (Q2Qc (d_dy D)).
Lemma div_gE FB FJ F i j : divE2 A (sv (gE eps D FB FJ F)) dx dy i j = (divE2 A (sv F) dx dy i j - half D / eps * divE2 A (sv FJ) dx dy i j)%Qc.
Proof. exact (divE2_step A (Q2Qc 0) (Q2Qc 1) Qcinv Qcft ns (d_ng D) bounds2 opp2 (npatches2 D) (nbr2 (d_ax D) (d_ay D)) axes (position2 (d_ax D)) (decomp_ok D OK) dx dy 0 i j one_patch (half D) FB FJ F eq_refl (inside0 _) (inside0 _) (inside0 _)). Qed.
Lemma div_gB FE F i j : divB2 A (sv (gB eps D FE F)) dx dy i j = divB2 A (sv F) dx dy i j.
Proof. exact (divB2_step A (Q2Qc 0) (Q2Qc 1) Qcinv Qcft ns (d_ng D) bounds2 opp2 (npatches2 D) (nbr2 (d_ax D) (d_ay D)) axes (position2 (d_ax D)) (decomp_ok D OK) dx dy 0 i j one_patch (half D) FE F eq_refl (inside0 _) (inside0 _) (inside0 _)). Qed.
Lemma read_divE F m i j : field_is D F m -> divE2 A (on_domain D m) dx dy i j = divE2 A (sv F) dx dy i j.
Proof. intro H. unfold divE2. rewrite !(read_field F m) by (auto; lia). reflexivity. Qed.
Lemma read_divB F m i j : field_is D F m -> divB2 A (on_domain D m) dx dy i j = divB2 A (sv F) dx dy i j.
Proof. intro H. unfold divB2. rewrite !(read_field F m) by (auto; lia). reflexivity. Qed.
Lemma read_divJ F m i j : currents_are D F m -> divE2 A (on_domain D m) dx dy i j = divE2 A (sv F) dx dy i j.
Proof. intro H. unfold divE2. rewrite !(read_currents F m) by (auto; lia). reflexivity. Qed.
End Read.

(** * Charge of all particles *)
Section Sum.
Variable D : domain2.
Hypothesis OK : domain_ok D.
Local Notation Nx := (cells_x D). Local Notation Ny := (cells_y D).
Local Notation dep := (gdep Nx Ny (d_dx D) (d_dy D) (d_dt D)).
Definition csum (sps : list species) (h : Q) (i j : Z) (pss : list (list (list prt))) : Q :=
  qsum (fun ss => qsum (charge_of D (sp_q (fst ss)) h i j) (particles (snd ss))) (combine sps pss).
Definition jsum (sps : list species) (f : nat) (g : list Z) (pss : list (list (list prt))) : Q :=
  qsum (fun ss => qsum (fun r => dep (fst ss) r f g) (particles (snd ss))) (combine sps pss).
Definition slow_all (pss : list (list (list prt))) : Prop := forall st r, In st pss -> In r (particles st) -> fast_ok r.

Lemma qsum_lin2 {T} (c1 c2 : Q) (f g : T -> Q) l : (qsum (fun t => c1 * f t + c2 * g t) l == c1 * qsum f l + c2 * qsum g l)%Q.
Proof. rewrite qsum_add, !qsum_scale. reflexivity. Qed.
Lemma all_rho sps pss a b : slow_all pss -> 0 <= a < Nx -> 0 <= b < Ny -> (jsum sps 3 [a; b] pss == csum sps (1#2) a b pss)%Q.
Proof.
  intros H Ha Hb. unfold jsum, csum. apply qsum_ext. intros [sp st] I. cbn [fst snd]. apply qsum_ext. intros r Ir.
  apply particle_rho; auto. apply (H st r); [eapply in_combine_r; eassumption|exact Ir].
Qed.
Lemma all_continuity sps pss a b : slow_all pss -> 0 <= a < Nx -> 0 <= b < Ny ->
  (csum sps (1#2) a b pss - csum sps (-1#2) a b pss
   + d_dt D * ((jsum sps 0 [a; b] pss - jsum sps 0 [(a - 1) mod Nx; b] pss) / d_dx D + (jsum sps 1 [a; b] pss - jsum sps 1 [a; (b - 1) mod Ny] pss) / d_dy D) == 0)%Q.
Proof.
  intros H Ha Hb. unfold jsum, csum. revert pss H. induction sps as [|sp sps IH]; intros pss H.
  { cbn [combine qsum fold_right]. unfold Qdiv. ring. }
  destruct pss as [|st pss]; [cbn [combine qsum fold_right]; unfold Qdiv; ring|]. cbn [combine]. rewrite !qsum_cons. cbn [fst snd].
  assert (slow_all pss) as H' by (intros st' r I; apply H; right; exact I). specialize (IH pss H').
  assert (forall l, (forall r, In r l -> fast_ok r) ->
    qsum (charge_of D (sp_q sp) (1#2) a b) l - qsum (charge_of D (sp_q sp) (-1#2) a b) l
    + d_dt D * ((qsum (fun r => dep sp r 0%nat [a; b]) l - qsum (fun r => dep sp r 0%nat [(a - 1) mod Nx; b]) l) / d_dx D
              + (qsum (fun r => dep sp r 1%nat [a; b]) l - qsum (fun r => dep sp r 1%nat [a; (b - 1) mod Ny]) l) / d_dy D) == 0)%Q as K.
  { induction l as [|r l IHl]; intro F; [cbn [qsum fold_right]; unfold Qdiv; ring|]. rewrite !qsum_cons.
    specialize (IHl (fun x I => F x (or_intror I))). pose proof (particle_continuity D OK sp r a b (F r (or_introl eq_refl)) Ha Hb) as C. cbv zeta in C.
    unfold Qdiv in *. lra. }
  specialize (K (particles st) (fun r I => H st r (or_introl eq_refl) I)). unfold Qdiv in *. lra.
Qed.
Lemma csum_forall2 (P : list (list prt) -> list (list prt) -> Prop) sps h u i j pss pss' :
  (forall sp st st', In st pss -> P st st' -> (qsum (charge_of D (sp_q sp) h i j) (particles st) == qsum (charge_of D (sp_q sp) u i j) (particles st'))%Q) ->
  Forall2 P pss pss' -> (csum sps h i j pss == csum sps u i j pss')%Q.
Proof.
  intros K F. unfold csum. revert sps. induction F as [|st st' pss pss' H F IH]; intros [|sp sps]; try reflexivity. cbn [combine]. rewrite !qsum_cons. cbn [fst snd].
  rewrite (K sp st st' (or_introl eq_refl) H), IH; [reflexivity|]. intros sp' x y I. apply K. right. exact I.
Qed.
Lemma csum_canon q h i j l : (qsum (charge_of D q h i j) l == qsum (charge_of D q h i j) (map canon l))%Q.
Proof. rewrite qsum_map. apply qsum_ext. intros r _. apply charge_of_eq; [exact OK|]. symmetry. apply canon_idem. Qed.
Lemma csum_sorted sps h i j pss pss' : Forall2 (fun st st' => Permutation (particles st) (particles st')) pss pss' -> (csum sps h i j pss == csum sps h i j pss')%Q.
Proof. apply csum_forall2. intros sp st st' _ P. apply qsum_perm. exact P. Qed.
Lemma csum_wrapped sps h i j pss pss' : slow_all pss ->
  Forall2 (fun st2 st3 => Permutation (map canon (particles st3)) (map (fun r => canon (gwrap Nx Ny (d_dx D) (d_dy D) r)) (particles st2))) pss pss' ->
  (csum sps h i j pss == csum sps h i j pss')%Q.
Proof.
  intros H. apply csum_forall2. intros sp st st' I P. rewrite (csum_canon _ _ _ _ (particles st')), (qsum_perm _ _ _ P), qsum_map. apply qsum_ext. intros r Ir.
  rewrite <- (charge_of_gwrap D OK) by (apply (H st r I Ir)). apply charge_of_eq; [exact OK|]. symmetry. apply canon_idem.
Qed.
Lemma csum_grown rsqrt FE FB sps i j pss pss' : length pss = length sps -> slow_all pss ->
  Forall2 (fun ss st2 => map canon (particles st2) = map (fun r => canon (grow rsqrt Nx Ny (d_dx D) (d_dy D) (d_dt D) (fst ss) FE FB r)) (particles (snd ss))) (combine sps pss) pss' ->
  (csum sps (-1#2) i j pss' == csum sps (1#2) i j pss)%Q.
Proof.
  unfold csum. revert pss pss'. induction sps as [|sp sps IH]; intros [|st pss] pss' L H F; cbn [length] in L; try lia; cbn [combine] in F; inversion F as [|? st2 ? pss2 H1 H2]; subst; cbn [combine].
  { reflexivity. }
  rewrite !qsum_cons. cbn [fst snd] in *. rewrite (IH pss pss2) by (try lia; auto; intros st' r I; apply H; right; exact I).
  apply Qplus_comp; [|reflexivity]. rewrite csum_canon, H1, qsum_map. apply qsum_ext. intros r Ir.
  rewrite <- (charge_of_grow D OK rsqrt sp FE FB) by (apply (H st r (or_introl eq_refl) Ir)). apply charge_of_eq; [exact OK|]. apply canon_idem.
Qed.
Lemma csum_mod sps h i j pss : (csum sps h (i mod Nx) (j mod Ny) pss == csum sps h i j pss)%Q.
Proof. unfold csum. apply qsum_ext. intros ss _. apply qsum_ext. intros r _. rewrite charge_of_mod. reflexivity. Qed.
Lemma settled_slow pss : Forall (settled D) pss -> slow_all pss.
Proof.
  intros F st r I Ir. rewrite Forall_forall in F. destruct (F st I) as [L H]. unfold particles in Ir. apply in_flat_map in Ir. destruct Ir as (l & Il & Ir).
  destruct (In_nth _ _ [] Il) as (p & Hp & <-). destruct (H p r ltac:(lia) Ir) as (x & y & E1 & E2 & _ & _ & V1 & V2). split; [exists x, y; auto|auto].
Qed.
End Sum.

(** * Steps *)
Lemma this_plus a b : (this (a + b)%Qc == this a + this b)%Q. Proof. cbn [Qcplus this Q2Qc]. apply Qred_correct. Qed.
Lemma this_mult a b : (this (a * b)%Qc == this a * this b)%Q. Proof. cbn [Qcmult this Q2Qc]. apply Qred_correct. Qed.
Lemma this_opp a : (this (- a)%Qc == - this a)%Q. Proof. cbn [Qcopp this Q2Qc]. apply Qred_correct. Qed.
Lemma this_minus a b : (this (a - b)%Qc == this a - this b)%Q. Proof. unfold Qcminus. rewrite this_plus, this_opp. reflexivity. Qed.
Lemma this_inv a : (this (/ a)%Qc == / this a)%Q. Proof. cbn [Qcinv this Q2Qc]. apply Qred_correct. Qed.
Lemma this_div a b : (this (a / b)%Qc == this a / this b)%Q. Proof. unfold Qcdiv. rewrite this_mult, this_inv. reflexivity. Qed.

Section Steps.
Variable rsqrt : Q -> Q.
Hypothesis SUB : subluminal rsqrt.
Variable eps : Qc.
Variable D : domain2.
Hypothesis OK : domain_ok D.
Variable sps : list species.
Local Notation Nx := (cells_x D). Local Notation Ny := (cells_y D).
Local Notation A := (qc_arith eps).
Local Notation dx := (Q2Qc (d_dx D)). Local Notation dy := (Q2Qc (d_dy D)).
Local Notation sv F := (shown (Q2Qc 0) [d_ax D; d_ay D] [d_nx D; d_ny D] (position2 (d_ax D)) F 0).
Local Notation cur := (gcurrents Nx Ny (d_dx D) (d_dy D) (d_dt D) sps).

Lemma moved_all FE FB mE mB mJ ps mJ1 ps2 : field_is D FE mE -> field_is D FB mB -> length ps = length sps -> Forall (settled D) ps ->
  push_species rsqrt D sps mE mB mJ ps = Some (mJ1, ps2) -> slow_all ps2.
Proof.
  intros HE HB L F E. destruct (push_species_ok rsqrt SUB D OK FE FB mE mB HE HB sps ps mJ L F) as (mJ1' & ps2' & E' & P & V).
  rewrite E in E'. apply some_eq in E'. assert (ps2' = ps2) as -> by congruence. clear - P.
  intros st r I Ir. induction P as [|ss st' l l' [L' H] P IH]; [destruct I|]. destruct I as [<-|I]; [|exact (IH I)].
  unfold particles in Ir. apply in_flat_map in Ir. destruct Ir as (x & Ix & Ir). destruct (In_nth _ _ [] Ix) as (p & Hp & <-).
  destruct (proj2 (H p ltac:(lia)) r Ir) as (u & v & E1 & E2 & V1 & V2 & _). split; [exists u, v; auto|auto].
Qed.
Lemma cur_this pss f i j : (this (sv (cur pss) f [i; j]) == jsum D sps f [i mod Nx; j mod Ny] pss)%Q.
Proof. rewrite shown0 by exact OK. unfold gcurrents. apply this_q2qc. Qed.
(** the charge density changes by minus dt times the divergence of the current *)
Lemma charge_step FE FB ps1 ps2 ps3 i j : length ps1 = length sps -> slow_all ps1 -> slow_all ps2 ->
  Forall2 (fun ss st2 => map canon (particles st2) = map (fun r => canon (grow rsqrt Nx Ny (d_dx D) (d_dy D) (d_dt D) (fst ss) FE FB r)) (particles (snd ss))) (combine sps ps1) ps2 ->
  Forall2 (fun st2 st3 => Permutation (map canon (particles st3)) (map (fun r => canon (gwrap Nx Ny (d_dx D) (d_dy D) r)) (particles st2))) ps2 ps3 ->
  charge D sps ps3 i j = (charge D sps ps1 i j - Q2Qc (d_dt D) * divE2 A (sv (cur ps2)) dx dy i j)%Qc.
Proof.
  intros L H1 H2 G W. destruct (cells_pos D OK) as [P1 P2]. apply Qc_is_canon. rewrite this_minus, this_mult. unfold divE2. cbn [plus_ minus_ over_ qc_arith].
  rewrite this_plus, !this_div, !this_minus, !cur_this, !this_q2qc. unfold charge. rewrite !this_q2qc.
  change (csum D sps (1#2) i j ps3 == csum D sps (1#2) i j ps1 - d_dt D * ((jsum D sps 0 [i mod Nx; j mod Ny] ps2 - jsum D sps 0 [(i - 1) mod Nx; j mod Ny] ps2) / d_dx D
    + (jsum D sps 1 [i mod Nx; j mod Ny] ps2 - jsum D sps 1 [i mod Nx; (j - 1) mod Ny] ps2) / d_dy D))%Q.
  rewrite <- (csum_grown D OK rsqrt FE FB sps i j ps1 ps2 L H1 G), <- (csum_wrapped D OK sps (1#2) i j ps2 ps3 H2 W).
  pose proof (all_continuity D OK sps ps2 (i mod Nx) (j mod Ny) H2 (Z.mod_pos_bound _ _ P1) (Z.mod_pos_bound _ _ P2)) as C.
  rewrite !csum_mod in C. rewrite !Zminus_mod_idemp_l in C. unfold Qdiv in *. lra.
Qed.

Lemma defect_step rank s s' i j : ready D sps s -> consistent D s -> step2 rsqrt eps D sps rank s s' ->
  defect eps D sps s' i j = defect eps D sps s i j /\
  divB2 A (on_domain D (t_B s')) dx dy i j = divB2 A (on_domain D (t_B s)) dx dy i j /\
  on_domain D (t_J s') 3 [i; j] = charge D sps (t_parts s') i j /\
  ready D sps s' /\ consistent D s'.
Proof.
  intros [L F] ((FE & HE) & (FB & HB) & FJ & HJ) S.
  destruct S as [mE mB mJ ps mE1 mB1 ps1 mJ1 ps2 mJ2 ps3 mB2 mE2 A1 A2 A3 A4 A5 A6 A7 A8]. cbn [t_E t_B t_J t_parts] in *.
  pose proof (up_E_ok eps D OK rank FB FJ FE mB mJ mE mE1 HE HB HJ A1) as HE1. set (FE1 := gE eps D FB FJ FE) in *.
  pose proof (up_B_ok eps D OK rank FE1 FB mE1 mB mB1 HB HE1 A2) as HB1. set (FB1 := gB eps D FE1 FB) in *.
  destruct (forall2_sorted D ps ps1 A3 F) as (F1 & L1 & Q1).
  destruct (half_step rsqrt SUB D OK sps rank FE1 FB1 mE1 mB1 mJ ps1 mJ1 ps2 mJ2 ps3 HE1 HB1 ltac:(lia) F1 A4 A5 A6) as (C & L3 & F3 & G & W).
  pose proof (moved_all FE1 FB1 mE1 mB1 _ ps1 mJ1 ps2 HE1 HB1 ltac:(lia) F1 A4) as M.
  fold Nx Ny in C, G, W. set (FJ2 := cur ps2) in *.
  pose proof (up_B_ok eps D OK rank FE1 FB1 mE1 mB1 mB2 HB1 HE1 A7) as HB2. set (FB2 := gB eps D FE1 FB1) in *.
  pose proof (up_E_ok eps D OK rank FB2 FJ2 FE1 mB2 mJ2 mE1 mE2 HE1 HB2 C A8) as HE2.
  split; [|split; [|split; [|split]]].
  - unfold defect, gauss. cbn [t_E t_J t_parts].
    rewrite (read_divE D OK eps _ mE2 i j HE2), (read_divE D OK eps _ mE i j HE), (read_divJ D OK eps _ mJ2 i j C), (read_divJ D OK eps _ mJ i j HJ).
    unfold FE1 in *. rewrite !div_gE by exact OK.
    rewrite (charge_step FE1 FB1 ps1 ps2 ps3 i j ltac:(lia) (settled_slow D ps1 F1) M G W).
    assert (charge D sps ps1 i j = charge D sps ps i j) as ->.
    { unfold charge. apply q2qc_eq. apply (csum_sorted D sps (1#2) i j). clear - Q1. induction Q1; constructor; [apply Permutation_sym; assumption|assumption]. }
    fold FJ2. assert (Q2Qc (d_dt D) = half D + half D)%Qc as ->.
    { unfold half. apply Qc_is_canon. rewrite this_plus, !this_q2qc. ring. }
    unfold Qcdiv. ring.
  - rewrite (read_divB D OK eps _ mB2 i j HB2), (read_divB D OK eps _ mB i j HB). unfold FB2, FB1. rewrite !div_gB by exact OK. reflexivity.
  - rewrite (read_currents D OK _ mJ2 3 i j C) by lia. destruct (cells_pos D OK) as [P1 P2]. apply Qc_is_canon. unfold FJ2. rewrite cur_this. unfold charge. rewrite this_q2qc.
    rewrite (all_rho D OK sps ps2 _ _ M (Z.mod_pos_bound _ _ P1) (Z.mod_pos_bound _ _ P2)). rewrite csum_mod. apply (csum_wrapped D OK sps (1#2) i j ps2 ps3 M W).
  - split; assumption.
  - split; [eexists; exact HE2|]. split; eexists; eassumption.
Qed.
Lemma defect_steps k : forall s s' i j, ready D sps s -> consistent D s -> steps2 rsqrt eps D sps k s s' ->
  defect eps D sps s' i j = defect eps D sps s i j /\ divB2 A (on_domain D (t_B s')) dx dy i j = divB2 A (on_domain D (t_B s)) dx dy i j /\
  ((0 < k)%nat -> on_domain D (t_J s') 3 [i; j] = charge D sps (t_parts s') i j) /\ ready D sps s' /\ consistent D s'.
Proof.
  induction k as [|k IH]; intros s s' i j R C T; inversion T as [|k' rank s0 s1 s2 T1 T2]; subst.
  { split; [reflexivity|]. split; [reflexivity|]. split; [lia|]. auto. }
  destruct (defect_step rank s s1 i j R C T1) as (E1 & E2 & E3 & R1 & C1). destruct (IH s1 s' i j R1 C1 T2) as (E4 & E5 & E6 & R2 & C2).
  split; [congruence|]. split; [congruence|]. split; [|auto]. intros _. destruct k as [|k]; [inversion T2; subst; exact E3|]. apply E6. lia.
Qed.
(** the field that acts on the particles in the next step *)
Lemma pushing_field rank s mE1 i j : consistent D s -> sync_guards D rank (up_E eps D (t_B s) (t_J s) (t_E s)) mE1 ->
  gauss eps D mE1 (charge D sps (t_parts s)) i j = defect eps D sps s i j.
Proof.
  intros ((FE & HE) & (FB & HB) & FJ & HJ) A1. pose proof (up_E_ok eps D OK rank FB FJ FE _ _ _ mE1 HE HB HJ A1) as HE1.
  unfold defect, gauss. rewrite (read_divE D OK eps _ mE1 i j HE1), (read_divE D OK eps _ _ i j HE), (read_divJ D OK eps _ _ i j HJ), div_gE by exact OK. ring.
Qed.
End Steps.
