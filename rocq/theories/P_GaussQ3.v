(** Gauss' law with open sides in 3D, part 3: one step and many steps. *)
From Coq Require Import QArith Qabs Qround Qcanon Permutation Lqa.
From Verif Require Import Base M_Layout S_Layout M_PartSync S_PartSync M_FieldSync S_FieldSync M_Maxwell S_Maxwell M_Cpml S_Cpml M_Deposit S_Deposit M_Push S_Push P_Layout P_FieldGeo P_Maxwell P_Maxwell3 P_Deposit P_Deposit2 P_Deposit5 P_Push M_Step S_Step M_Step3D S_Step3D M_StepO S_StepO M_StepO3D S_StepO3D P_Step1 P_Step2 P_Step3 P_Step4 P_Step5 P_Step6 P_Step7 P_Step8 P_StepD1 P_StepD2 P_StepD3 P_StepD4 P_StepD5 P_StepD6 P_StepD7 S_Gauss S_GaussO S_Gauss3D S_GaussO3D P_Gauss1 P_Gauss2 P_GaussD1 P_GaussD2 P_StepO1 P_StepO2 P_StepO3 P_StepO4 P_StepO5 P_StepQ1 P_StepQ2 P_StepQ3 P_StepQ4 P_GaussO1 P_GaussO2 P_GaussQ1 P_StepQ5 P_GaussO3 P_GaussQ2.
Local Open Scope list_scope.
Local Open Scope Z_scope.

Section Sum.
Variable K : layer Qc. Variable D : domain3. Variable pmls : nat -> list pml_side.
Hypothesis OK : open3_ok K D pmls.
Local Notation Nx := (cells3_x D). Local Notation Ny := (cells3_y D). Local Notation Nz := (cells3_z D). Local Notation dx := (e_dx D). Local Notation dy := (e_dy D). Local Notation dz := (e_dz D). Local Notation dt := (e_dt D). Local Notation th := (thick K).
Local Notation dep := (odep3 (PL3 D) dx dy dz dt).
Definition ocsum3 (sps : list species) (h : Q) (i j k : Z) (rows : list (list (prow body))) : Q :=
  qsum (fun ss => qsum (charge_of_o3 D (sp_q (fst ss)) h i j k) (snd ss)) (combine sps rows).
Definition ojsum3 (sps : list species) (f : nat) (g : list Z) (pss : list (list (list prt))) : Q :=
  qsum (fun ss => qsum (fun r => dep (fst ss) r f g) (particles (snd ss))) (combine sps pss).
Definition gone_of3 (pss : list (list (list prt))) : list (list (prow body)) := map (fun st => filter (is_gone3 K D) (particles st)) pss.

Lemma oall_rho3 sps a b c : 0 <= a < Nx -> 0 <= b < Ny -> 0 <= c < Nz -> forall pss, slow_all3 pss -> (ojsum3 sps 3 [a; b; c] pss == ocsum3 sps (1#2) a b c (map particles pss))%Q.
Proof.
  intros Ha Hb Hc. unfold ojsum3, ocsum3. induction sps as [|sp sps IH]; intros [|st pss] H; try reflexivity. cbn [map combine]. rewrite !qsum_cons. cbn [fst snd].
  rewrite (IH pss) by (intros st' r I; apply H; right; exact I). apply Qplus_comp; [|reflexivity]. apply qsum_ext. intros r Ir.
  apply (o_rho3 K D pmls OK); auto. apply (H st r (or_introl eq_refl) Ir).
Qed.
Lemma oall_continuity3 sps a b c : 0 <= a < Nx -> 0 <= b < Ny -> 0 <= c < Nz -> (ax_lo (e_ax D) = Pml -> 1 <= a) -> (ax_lo (e_ay D) = Pml -> 1 <= b) -> (ax_lo (e_az D) = Pml -> 1 <= c) -> forall pss, slow_all3 pss ->
  (ocsum3 sps (1#2) a b c (map particles pss) - ocsum3 sps (-1#2) a b c (map particles pss)
   + dt * ((ojsum3 sps 0 [a; b; c] pss - ojsum3 sps 0 [(a - 1) mod Nx; b; c] pss) / dx + (ojsum3 sps 1 [a; b; c] pss - ojsum3 sps 1 [a; (b - 1) mod Ny; c] pss) / dy + (ojsum3 sps 2 [a; b; c] pss - ojsum3 sps 2 [a; b; (c - 1) mod Nz] pss) / dz) == 0)%Q.
Proof.
  intros Ha Hb Hc Oa Ob Oc. unfold ojsum3, ocsum3. induction sps as [|sp sps IH]; intros pss H.
  { cbn [combine qsum fold_right]. unfold Qdiv. ring. }
  destruct pss as [|st pss]; [cbn [map combine qsum fold_right]; unfold Qdiv; ring|]. cbn [map combine]. rewrite !qsum_cons. cbn [fst snd].
  assert (slow_all3 pss) as H' by (intros st' r I; apply H; right; exact I). specialize (IH pss H').
  assert (forall l, (forall r, In r l -> fast3_ok r) ->
    qsum (charge_of_o3 D (sp_q sp) (1#2) a b c) l - qsum (charge_of_o3 D (sp_q sp) (-1#2) a b c) l
    + dt * ((qsum (fun r => dep sp r 0%nat [a; b; c]) l - qsum (fun r => dep sp r 0%nat [(a - 1) mod Nx; b; c]) l) / dx
          + (qsum (fun r => dep sp r 1%nat [a; b; c]) l - qsum (fun r => dep sp r 1%nat [a; (b - 1) mod Ny; c]) l) / dy
          + (qsum (fun r => dep sp r 2%nat [a; b; c]) l - qsum (fun r => dep sp r 2%nat [a; b; (c - 1) mod Nz]) l) / dz) == 0)%Q as C.
  { induction l as [|r l IHl]; intro F; [cbn [qsum fold_right]; unfold Qdiv; ring|]. rewrite !qsum_cons.
    specialize (IHl (fun x I => F x (or_intror I))). pose proof (o_continuity3 K D pmls OK sp r a b c (F r (or_introl eq_refl)) Ha Hb Hc Oa Ob Oc) as C.
    unfold Qdiv in *. lra. }
  specialize (C (particles st) (fun r I => H st r (or_introl eq_refl) I)). unfold Qdiv in *. lra.
Qed.
Lemma ocsum3_canon q h i j k l : (qsum (charge_of_o3 D q h i j k) l == qsum (charge_of_o3 D q h i j k) (map canon l))%Q.
Proof. rewrite qsum_map. apply qsum_ext. intros r _. apply (CO3_eq K D pmls OK). symmetry. apply canon_idem. Qed.
Lemma ocsum3_sorted sps h i j k : forall pss pss', Forall2 (fun st st' => Permutation (particles st) (particles st')) pss pss' -> (ocsum3 sps h i j k (map particles pss) == ocsum3 sps h i j k (map particles pss'))%Q.
Proof.
  unfold ocsum3. intros pss pss' F. revert sps. induction F as [|st st' pss pss' H F IH]; intros [|sp sps]; try reflexivity. cbn [map combine]. rewrite !qsum_cons, IH. cbn [fst snd].
  apply Qplus_comp; [|reflexivity]. apply qsum_perm. exact H.
Qed.
Lemma kept_sum3 q h i j k l : (forall r, In r l -> fast3_ok r) ->
  (qsum (charge_of_o3 D q h i j k) l == qsum (charge_of_o3 D q h i j k) (flat_map (fun r => map canon (okept3 K D r)) l) + qsum (charge_of_o3 D q h i j k) (filter (is_gone3 K D) l))%Q.
Proof.
  induction l as [|r l IH]; intro F; [reflexivity|]. cbn [flat_map filter]. rewrite qsum_cons, qsum_app, <- ocsum3_canon, (IH (fun x I => F x (or_intror I))).
  pose proof (CO3_kept K D pmls OK q h i j k r (proj1 (F r (or_introl eq_refl)))) as E. change (fun r => charge_of_o3 D q h i j k r) with (charge_of_o3 D q h i j k) in E.
  destruct (is_gone3 K D r); [rewrite qsum_cons|]; lra.
Qed.
Lemma ocsum3_kept sps h i j k : forall pss pss', slow_all3 pss ->
  Forall2 (fun st2 st3 => Permutation (map canon (particles st3)) (flat_map (fun r => map canon (okept3 K D r)) (particles st2))) pss pss' ->
  (ocsum3 sps h i j k (map particles pss) == ocsum3 sps h i j k (map particles pss') + ocsum3 sps h i j k (gone_of3 pss))%Q.
Proof.
  unfold ocsum3, gone_of3. intros pss pss' H F. revert sps. induction F as [|st st' pss pss' P F IH]; intros [|sp sps]; try reflexivity. cbn [map combine]. rewrite !qsum_cons. cbn [fst snd].
  rewrite IH by (intros s r I; apply H; right; exact I). rewrite (kept_sum3 _ _ _ _ _ (particles st)) by (intros r; apply (H st r (or_introl eq_refl))).
  rewrite (ocsum3_canon _ _ _ _ _ (particles st')), (qsum_perm _ _ _ P). ring.
Qed.
Lemma ocsum3_pushed rsqrt FE FB sps i j k : forall pss pss', length pss = length sps -> slow_all3 pss ->
  Forall2 (fun ss st2 => map canon (particles st2) = map (fun r => canon (orow3 rsqrt (PL3 D) dx dy dz dt (fst ss) FE FB r)) (particles (snd ss))) (combine sps pss) pss' ->
  (ocsum3 sps (-1#2) i j k (map particles pss') == ocsum3 sps (1#2) i j k (map particles pss))%Q.
Proof.
  unfold ocsum3. induction sps as [|sp sps IH]; intros [|st pss] pss' L H F; cbn [length] in L; try lia; cbn [combine] in F; inversion F as [|? st2 ? pss2 H1 H2]; subst; cbn [map combine].
  { change (0 == 0)%Q. reflexivity. }
  rewrite !qsum_cons. cbn [fst snd] in *. rewrite (IH pss pss2) by (try lia; auto; intros st' r I; apply H; right; exact I).
  apply Qplus_comp; [|reflexivity]. rewrite ocsum3_canon, H1, qsum_map. apply qsum_ext. intros r Ir.
  rewrite <- (CO3_orow K D pmls OK rsqrt sp FE FB) by (apply (H st r (or_introl eq_refl) Ir)). apply (CO3_eq K D pmls OK). apply canon_idem.
Qed.
Lemma ocsum3_mod sps h i j k rows : inr (e_ax D) Nx i -> inr (e_ay D) Ny j -> inr (e_az D) Nz k -> (ocsum3 sps h (i mod Nx) (j mod Ny) (k mod Nz) rows == ocsum3 sps h i j k rows)%Q.
Proof. intros H1 H2 H3. unfold ocsum3. apply qsum_ext. intros ss _. apply qsum_ext. intros r _. rewrite (CO3_mod K D pmls OK) by assumption. reflexivity. Qed.
Lemma gone_far3 sps i j k pss : slow_all3 pss -> off_layers3 th D i j k -> (ocsum3 sps (1#2) i j k (gone_of3 pss) == 0)%Q.
Proof.
  intros H O. unfold ocsum3, gone_of3. revert pss H. induction sps as [|sp sps IH]; intros [|st pss] H; try reflexivity. cbn [map combine]. rewrite qsum_cons. cbn [fst snd].
  rewrite (IH pss) by (intros st' r I; apply H; right; exact I). rewrite Qplus_0_r.
  transitivity (qsum (fun _ : prow body => 0%Q) (filter (is_gone3 K D) (particles st))).
  - apply qsum_ext. intros r Ir. apply filter_In in Ir as [Ir G]. apply (CO3_far K D pmls OK); [apply (H st r (or_introl eq_refl) Ir)|apply gone3_in_layers; exact G|exact O].
  - clear. induction (filter _ _) as [|r l IH]; [reflexivity|]. rewrite qsum_cons, IH. ring.
Qed.
Lemma osettled3_slow pss : Forall (settled3 D) pss -> slow_all3 pss.
Proof. exact (settled3_slow D pss). Qed.
Lemma gone_tags3 l : Permutation (map tag l) (map tag (flat_map (fun r => map canon (okept3 K D r)) l) ++ map tag (filter (is_gone3 K D) l)).
Proof.
  induction l as [|r l IH]; [constructor|]. cbn [flat_map map filter]. rewrite map_app, <- tags.
  assert (okept3 K D r = [] \/ exists r', okept3 K D r = [r'] /\ tag r' = tag r) as [E|(r' & E' & E)].
  { unfold okept3, okeep3. destruct (px _ r); [|right; eauto]. destruct (py _ r); [|right; eauto]. destruct (pz _ r); [|right; eauto]. destruct (keep1 _ _ _ _ q); [|left; reflexivity]. destruct (keep1 _ _ _ _ q0); [|left; reflexivity]. destruct (keep1 _ _ _ _ q1); [|left; reflexivity].
    right. eexists. split; [reflexivity|]. reflexivity. }
  - unfold is_gone3 at 1. rewrite E. cbn [map app]. rewrite IH. apply Permutation_middle.
  - unfold is_gone3 at 1. rewrite E'. cbn [map app]. rewrite E, IH. reflexivity.
Qed.
End Sum.

Section Steps.
Variable rsqrt : Q -> Q.
Hypothesis SUB : subluminal rsqrt.
Variable eps : Qc.
Variable K : layer Qc. Variable D : domain3. Variable pmls : nat -> list pml_side.
Hypothesis OK : open3_ok K D pmls.
Variable sps : list species.
Hypothesis U0 : all_fused sps.
Local Notation Nx := (cells3_x D). Local Notation Ny := (cells3_y D). Local Notation Nz := (cells3_z D). Local Notation th := (thick K).
Local Notation A := (qc_arith eps).
Local Notation dx := (Q2Qc (e_dx D)). Local Notation dy := (Q2Qc (e_dy D)). Local Notation dz := (Q2Qc (e_dz D)).
Local Notation cur := (ocurrents3 (PL3 D) (e_dx D) (e_dy D) (e_dz D) (e_dt D) sps).

Lemma omoved_all3 FE FB mE mB mJ ps mJ1 ps2 : field3_is D FE mE -> field3_is D FB mB -> length ps = length sps -> Forall (settled3 D) ps ->
  push_species3 rsqrt D sps mE mB mJ ps = Some (mJ1, ps2) -> slow_all3 ps2.
Proof.
  intros HE HB L F E. destruct (opush_species3_ok rsqrt SUB K D pmls OK FE FB mE mB HE HB sps ps mJ U0 L F) as (mJ1' & ps2' & E' & P & V).
  rewrite E in E'. apply some_eq in E'. assert (ps2' = ps2) as -> by congruence. clear - P.
  intros st r I Ir. induction P as [|ss st' l l' [L' H] P IH]; [destruct I|]. destruct I as [<-|I]; [|exact (IH I)].
  unfold particles in Ir. apply in_flat_map in Ir. destruct Ir as (x & Ix & Ir). destruct (In_nth _ _ [] Ix) as (p & Hp & <-).
  destruct (proj2 (H p ltac:(lia)) r Ir) as (u & v & w & E1 & E2 & E3 & V1 & V2 & V3 & _). split; [exists u, v, w; auto|auto].
Qed.
Lemma ocur_this3 pss f i j k : (this (per3 D (cur pss) f [i; j; k]) == ojsum3 D sps f [i mod Nx; j mod Ny; k mod Nz] pss)%Q.
Proof. unfold per3, ocurrents3. apply this_q2qc. Qed.
Lemma inr_of3 i j k : beside_layers3 th D i j k -> inr (e_ax D) Nx i /\ inr (e_ay D) Ny j /\ inr (e_az D) Nz k.
Proof. intros (H1 & H2 & H3). pose proof (oo3_th K D pmls OK). split; [|split]; intro P; [specialize (H1 P)|specialize (H2 P)|specialize (H3 P)]; lia. Qed.
Lemma ocharge_step3 FE FB ps1 ps2 ps3 i j k : length ps1 = length sps -> slow_all3 ps1 -> slow_all3 ps2 -> beside_layers3 th D i j k ->
  Forall2 (fun ss st2 => map canon (particles st2) = map (fun r => canon (orow3 rsqrt (PL3 D) (e_dx D) (e_dy D) (e_dz D) (e_dt D) (fst ss) FE FB r)) (particles (snd ss))) (combine sps ps1) ps2 ->
  Forall2 (fun st2 st3 => Permutation (map canon (particles st3)) (flat_map (fun r => map canon (okept3 K D r)) (particles st2))) ps2 ps3 ->
  charge_o3 D sps ps3 i j k = (charge_o3 D sps ps1 i j k - Q2Qc (e_dt D) * divE3 A (per3 D (cur ps2)) dx dy dz i j k - charge_rows3 D sps (gone_of3 K D ps2) i j k)%Qc.
Proof.
  intros L H1 H2 B G W. destruct (ocells3_pos K D pmls OK) as (P1 & P2 & P3). destruct (inr_of3 i j k B) as (R1 & R2 & R3). destruct B as (B1 & B2 & B3). pose proof (oo3_th K D pmls OK) as T.
  apply Qc_is_canon. rewrite !this_minus, this_mult. unfold divE3. cbn [plus_ minus_ over_ qc_arith].
  rewrite !this_plus, !this_div, !this_minus, !ocur_this3, !this_q2qc. unfold charge_o3, charge_rows3. rewrite !this_q2qc.
  change (ocsum3 D sps (1#2) i j k (map particles ps3) == ocsum3 D sps (1#2) i j k (map particles ps1) - e_dt D * ((ojsum3 D sps 0 [i mod Nx; j mod Ny; k mod Nz] ps2 - ojsum3 D sps 0 [(i - 1) mod Nx; j mod Ny; k mod Nz] ps2) / e_dx D
    + (ojsum3 D sps 1 [i mod Nx; j mod Ny; k mod Nz] ps2 - ojsum3 D sps 1 [i mod Nx; (j - 1) mod Ny; k mod Nz] ps2) / e_dy D
    + (ojsum3 D sps 2 [i mod Nx; j mod Ny; k mod Nz] ps2 - ojsum3 D sps 2 [i mod Nx; j mod Ny; (k - 1) mod Nz] ps2) / e_dz D) - ocsum3 D sps (1#2) i j k (gone_of3 K D ps2))%Q.
  rewrite <- (ocsum3_pushed K D pmls OK rsqrt FE FB sps i j k ps1 ps2 L H1 G).
  pose proof (ocsum3_kept K D pmls OK sps (1#2) i j k ps2 ps3 H2 W) as EK.
  assert (O1 : ax_lo (e_ax D) = Pml -> 1 <= i mod Nx) by (intro P; specialize (B1 P); rewrite Z.mod_small by lia; lia).
  assert (O2 : ax_lo (e_ay D) = Pml -> 1 <= j mod Ny) by (intro P; specialize (B2 P); rewrite Z.mod_small by lia; lia).
  assert (O3 : ax_lo (e_az D) = Pml -> 1 <= k mod Nz) by (intro P; specialize (B3 P); rewrite Z.mod_small by lia; lia).
  pose proof (oall_continuity3 K D pmls OK sps (i mod Nx) (j mod Ny) (k mod Nz) (Z.mod_pos_bound _ _ P1) (Z.mod_pos_bound _ _ P2) (Z.mod_pos_bound _ _ P3) O1 O2 O3 ps2 H2) as C.
  rewrite !(ocsum3_mod K D pmls OK) in C by assumption. rewrite !Zminus_mod_idemp_l in C. unfold Qdiv in *. lra.
Qed.

(** what one step does *)
Definition ostep_facts3 (s s' : stateo) (gone : list (list (prow body))) : Prop :=
  absorbed3 th D s s' gone /\
  (forall i j k, beside_layers3 th D i j k -> defect_o3 eps D sps s' i j k = (defect_o3 eps D sps s i j k + charge_rows3 D sps gone i j k / eps)%Qc) /\
  (forall i j k, off_layers3 th D i j k -> charge_rows3 D sps gone i j k = Q2Qc 0) /\
  (forall i j k, beside_b3 K D i j k -> divB3 A (on_domain3 D (o_B s')) dx dy dz i j k = divB3 A (on_domain3 D (o_B s)) dx dy dz i j k) /\
  (forall i j k, inr (e_ax D) Nx i -> inr (e_ay D) Ny j -> inr (e_az D) Nz k -> on_domain3 D (o_J s') 3 [i; j; k] = (charge_o3 D sps (o_parts s') i j k + charge_rows3 D sps gone i j k)%Qc) /\
  open_ready3 D sps s' /\ open_consistent3 D pmls s'.
Lemma odefect3_step_in rank s s' : open_ready3 D sps s -> open_consistent3 D pmls s -> stepo3 rsqrt eps K D pmls sps rank s s' -> exists FE FB ps1 ps2,
  Forall2 (fun st st1 => Permutation (particles st) (particles st1)) (o_parts s) ps1 /\
  Forall2 (fun ss st2 => map canon (particles st2) = map (fun r => canon (orow3 rsqrt (PL3 D) (e_dx D) (e_dy D) (e_dz D) (e_dt D) (fst ss) FE FB r)) (particles (snd ss))) (combine sps ps1) ps2 /\
  ostep_facts3 s s' (gone_of3 K D ps2).
Proof.
  intros [L F] ((FE & HE) & (FB & HB) & (FJ & HJ) & (PE & XE) & (PB & XB)) S.
  destruct S as [mE mB mJ pE pB ps mE0 pE1 mE1 mB0 pB1 mB1 ps1 mJ1 ps2 mJ2 ps3 mBi pB2 mB2 mEi pE2 mE2 U1 A1 U2 A2 A3 A4 A5 A6 U3 A7 U4 A8].
  cbn [o_E o_B o_J o_pE o_pB o_parts] in *.
  destruct (up_Eo3_ok eps K D pmls OK rank FB FJ FE PE mB mJ mE pE mE0 pE1 mE1 HE HB HJ XE U1 A1) as [HE1 XE1].
  set (FE1 := oE3 eps K D FB FJ FE PE) in *. set (PE1 := oPE3 eps K D FB PE) in *.
  destruct (up_Bo3_ok eps K D pmls OK rank FE1 FB PB mE1 mB pB mB0 pB1 mB1 HB HE1 XB U2 A2) as [HB1 XB1].
  set (FB1 := oB3 eps K D FE1 FB PB) in *. set (PB1 := oPB3 eps K D FE1 PB) in *.
  destruct (forall2_sorted3 D ps ps1 A3 F) as (F1 & L1 & Q1).
  destruct (ohalf_step3 rsqrt SUB K D pmls OK sps U0 rank FE1 FB1 mE1 mB1 mJ ps1 mJ1 ps2 mJ2 ps3 HE1 HB1 ltac:(lia) F1 A4 A5 A6) as (C & L3 & F3 & _ & G & W).
  pose proof (omoved_all3 FE1 FB1 mE1 mB1 _ ps1 mJ1 ps2 HE1 HB1 ltac:(lia) F1 A4) as M.
  set (FJ2 := cur ps2) in *.
  destruct (up_Bo3_ok eps K D pmls OK rank FE1 FB1 PB1 mE1 mB1 pB1 mBi pB2 mB2 HB1 HE1 XB1 U3 A7) as [HB2 XB2].
  set (FB2 := oB3 eps K D FE1 FB1 PB1) in *. set (PB2 := oPB3 eps K D FE1 PB1) in *.
  destruct (up_Eo3_ok eps K D pmls OK rank FB2 FJ2 FE1 PE1 mB2 mJ2 mE1 pE1 mEi pE2 mE2 HE1 HB2 C XE1 U4 A8) as [HE2 XE2].
  exists FE1, FB1, ps1, ps2. split; [exact Q1|]. split; [exact G|]. unfold ostep_facts3. split; [|split; [|split; [|split; [|split; [|split]]]]].
  - assert (length ps2 = length sps) as L2 by (assert (length (combine sps ps1) = length ps2) as E by (clear - G; induction G; cbn [length]; congruence); rewrite combine_length in E; lia).
    unfold absorbed3. cbn [o_parts]. split; [unfold gone_of3; rewrite map_length; lia|]. split.
    + unfold gone_of3. apply Forall_forall. intros l I. apply in_map_iff in I as (st & <- & I). apply Forall_forall. intros r Ir. apply filter_In in Ir as [_ Ir]. apply gone3_in_layers. exact Ir.
    + clear - Q1 G W L L1. assert (L2 : length ps1 = length sps) by lia. clear L L1. revert sps L2 ps ps2 ps3 Q1 G W.
      induction ps1 as [|st1 ps1 IH]; intros [|sp sps] L ps ps2 ps3 Q1 G W n; cbn [length] in L; try lia; cbn [combine] in *.
      * inversion Q1; subst. inversion G; subst. inversion W; subst. destruct n; constructor.
      * inversion Q1 as [|st ? ps' ? P1 Q1']; subst. inversion G as [|? st2 ? ps2' G1 G2]; subst. inversion W as [|? st3 ? ps3' W1 W2]; subst.
        destruct n as [|n]; cbn [nth gone_of3 map]; [|apply (IH sps ltac:(lia) ps' ps2' ps3'); assumption].
        cbn [fst snd] in G1. rewrite (Permutation_map tag P1).
        assert (map tag (particles st1) = map tag (particles st2)) as ->.
        { rewrite (tags (particles st2)), G1, map_map. apply map_ext. intro r. rewrite tag_of_canon. reflexivity. }
        rewrite (gone_tags3 K D (particles st2)) at 1. apply Permutation_app_tail. rewrite <- (Permutation_map tag W1). rewrite <- tags. reflexivity.
  - intros i j k B. unfold defect_o3, gauss3. cbn [o_E o_J o_parts].
    rewrite (oread_divE3 eps K D pmls OK _ mE2 i j k HE2), (oread_divE3 eps K D pmls OK _ mE i j k HE), (oread_divJ3 eps K D pmls OK _ mJ2 i j k C), (oread_divJ3 eps K D pmls OK _ mJ i j k HJ).
    rewrite (div_oE3 eps K D pmls OK) by exact B. unfold FE1 at 1. rewrite (div_oE3 eps K D pmls OK) by exact B.
    rewrite (ocharge_step3 FE1 FB1 ps1 ps2 ps3 i j k ltac:(lia) (osettled3_slow D ps1 F1) M B G W).
    assert (charge_o3 D sps ps1 i j k = charge_o3 D sps ps i j k) as ->.
    { unfold charge_o3, charge_rows3. apply q2qc_eq. apply (ocsum3_sorted D sps (1#2) i j k). clear - Q1. induction Q1; constructor; [apply Permutation_sym; assumption|assumption]. }
    fold FJ2. assert (Q2Qc (e_dt D) = half3 D + half3 D)%Qc as ->.
    { unfold half3. apply Qc_is_canon. rewrite this_plus, !this_q2qc. ring. }
    unfold Qcdiv. ring.
  - intros i j k O. unfold charge_rows3. apply q2qc_eq. exact (gone_far3 K D pmls OK sps i j k ps2 M O).
  - intros i j k B. cbn [o_B]. rewrite (oread_divB3 eps K D pmls OK _ mB2 i j k HB2), (oread_divB3 eps K D pmls OK _ mB i j k HB). unfold FB2, FB1. rewrite !(div_oB3 eps K D pmls OK) by exact B. reflexivity.
  - intros i j k R1 R2 R3. cbn [o_J o_parts]. rewrite (oread_currents3 K D pmls OK _ mJ2 3 i j k C) by lia. destruct (ocells3_pos K D pmls OK) as (P1 & P2 & P3). apply Qc_is_canon. unfold FJ2. rewrite ocur_this3, this_plus. unfold charge_o3, charge_rows3. rewrite !this_q2qc.
    rewrite (oall_rho3 K D pmls OK sps _ _ _ (Z.mod_pos_bound _ _ P1) (Z.mod_pos_bound _ _ P2) (Z.mod_pos_bound _ _ P3) ps2 M), (ocsum3_mod K D pmls OK) by assumption. exact (ocsum3_kept K D pmls OK sps (1#2) i j k ps2 ps3 M W).
  - split; assumption.
  - split; [eexists; exact HE2|]. split; [eexists; exact HB2|]. split; [eexists; exact C|]. split; eexists; eassumption.
Qed.
Lemma odefect3_step rank s s' : open_ready3 D sps s -> open_consistent3 D pmls s -> stepo3 rsqrt eps K D pmls sps rank s s' -> exists gone, ostep_facts3 s s' gone.
Proof. intros R C S. destruct (odefect3_step_in rank s s' R C S) as (_ & _ & _ & ps2 & _ & _ & H). eauto. Qed.
Lemma off_beside3 i j k : off_layers3 th D i j k -> beside_layers3 th D i j k /\ beside_b3 K D i j k /\ inr (e_ax D) Nx i /\ inr (e_ay D) Ny j /\ inr (e_az D) Nz k.
Proof.
  intros (H1 & H2 & H3). pose proof (oo3_th K D pmls OK). assert (beside_layers3 th D i j k) as B by (split; [|split]; intro P; [specialize (H1 P)|specialize (H2 P)|specialize (H3 P)]; lia).
  split; [exact B|]. split; [split; [|split]; intro P; [specialize (H1 P)|specialize (H2 P)|specialize (H3 P)]; lia|]. apply inr_of3. exact B.
Qed.
Lemma odefect3_steps n : forall s s', open_ready3 D sps s -> open_consistent3 D pmls s -> stepso3 rsqrt eps K D pmls sps n s s' ->
  (forall i j k, off_layers3 th D i j k -> defect_o3 eps D sps s' i j k = defect_o3 eps D sps s i j k) /\
  (forall i j k, beside_b3 K D i j k -> divB3 A (on_domain3 D (o_B s')) dx dy dz i j k = divB3 A (on_domain3 D (o_B s)) dx dy dz i j k) /\
  ((0 < n)%nat -> forall i j k, off_layers3 th D i j k -> on_domain3 D (o_J s') 3 [i; j; k] = charge_o3 D sps (o_parts s') i j k) /\ open_ready3 D sps s' /\ open_consistent3 D pmls s'.
Proof.
  induction n as [|n IH]; intros s s' R C T; inversion T as [|n' rank s0 s1 s2 T1 T2]; subst.
  { split; [reflexivity|]. split; [reflexivity|]. split; [lia|]. auto. }
  destruct (odefect3_step rank s s1 R C T1) as (gone & _ & E1 & E0 & E2 & E3 & R1 & C1). destruct (IH s1 s' R1 C1 T2) as (E4 & E5 & E6 & R2 & C2).
  split; [|split; [|split; [|auto]]].
  - intros i j k O. rewrite (E4 i j k O). destruct (off_beside3 i j k O) as [B _]. rewrite (E1 i j k B), (E0 i j k O). unfold Qcdiv. change (Q2Qc 0) with 0%Qc. ring.
  - intros i j k B. rewrite (E5 i j k B). exact (E2 i j k B).
  - intros _. destruct n as [|n]; [|apply E6; lia]. inversion T2; subst. intros i j k O. destruct (off_beside3 i j k O) as (_ & _ & I1 & I2 & I3). rewrite (E3 i j k I1 I2 I3), (E0 i j k O). change (Q2Qc 0) with 0%Qc. ring.
Qed.
(** the field that acts on the particles in the next step *)
Lemma opushing_field3 rank s m1 psi1 mE1 i j k : open_consistent3 D pmls s -> beside_layers3 th D i j k ->
  up_Eo3 eps K D pmls (o_B s) (o_J s) (o_E s) (o_pE s) = (m1, psi1) -> sync_guards3 D rank m1 mE1 ->
  gauss3 eps D mE1 (charge_o3 D sps (o_parts s)) i j k = defect_o3 eps D sps s i j k.
Proof.
  intros ((FE & HE) & (FB & HB) & (FJ & HJ) & (PE & XE) & _) B U A1. destruct (up_Eo3_ok eps K D pmls OK rank FB FJ FE PE _ _ _ _ m1 psi1 mE1 HE HB HJ XE U A1) as [HE1 _].
  unfold defect_o3, gauss3. rewrite (oread_divE3 eps K D pmls OK _ mE1 i j k HE1), (oread_divE3 eps K D pmls OK _ _ i j k HE), (oread_divJ3 eps K D pmls OK _ _ i j k HJ), (div_oE3 eps K D pmls OK) by exact B. ring.
Qed.
End Steps.
