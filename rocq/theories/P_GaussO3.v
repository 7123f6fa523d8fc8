(** Gauss' law with open sides, part 3: one step and many steps. *)
From Coq Require Import QArith Qabs Qround Qcanon Permutation Lqa.
From Verif Require Import Base M_Layout S_Layout M_PartSync S_PartSync M_FieldSync S_FieldSync M_Maxwell S_Maxwell M_Cpml S_Cpml M_Deposit S_Deposit M_Push S_Push P_Layout P_Deposit P_Deposit5 P_FieldGeo P_Maxwell P_Maxwell3 M_Step S_Step M_StepO S_StepO P_Step1 P_Step2 P_Step3 P_Step4 P_Step5 P_Step6 P_Step7 P_Step8 S_Gauss S_GaussO P_Gauss1 P_Gauss2 P_StepO1 P_StepO2 P_StepO3 P_StepO4 P_StepO5 P_GaussO1 P_GaussO2.
Local Open Scope list_scope.
Local Open Scope Z_scope.

Section Sum.
Variable K : layer Qc. Variable D : domain2. Variable pmls : nat -> list pml_side.
Hypothesis OK : open_ok K D pmls.
Local Notation Nx := (cells_x D). Local Notation Ny := (cells_y D). Local Notation dx := (d_dx D). Local Notation dy := (d_dy D). Local Notation dt := (d_dt D). Local Notation th := (thick K).
Local Notation dep := (odep (PL D) dx dy dt).
Definition ocsum (sps : list species) (h : Q) (i j : Z) (rows : list (list (prow body))) : Q :=
  qsum (fun ss => qsum (charge_of_o D (sp_q (fst ss)) h i j) (snd ss)) (combine sps rows).
Definition ojsum (sps : list species) (f : nat) (g : list Z) (pss : list (list (list prt))) : Q :=
  qsum (fun ss => qsum (fun r => dep (fst ss) r f g) (particles (snd ss))) (combine sps pss).
Definition gone_of (pss : list (list (list prt))) : list (list (prow body)) := map (fun st => filter (is_gone K D) (particles st)) pss.

Lemma oall_rho sps a b : 0 <= a < Nx -> 0 <= b < Ny -> forall pss, slow_all pss -> (ojsum sps 3 [a; b] pss == ocsum sps (1#2) a b (map particles pss))%Q.
Proof.
  intros Ha Hb. unfold ojsum, ocsum. induction sps as [|sp sps IH]; intros [|st pss] H; try reflexivity. cbn [map combine]. rewrite !qsum_cons. cbn [fst snd].
  rewrite (IH pss) by (intros st' r I; apply H; right; exact I). apply Qplus_comp; [|reflexivity]. apply qsum_ext. intros r Ir.
  apply (o_rho K D pmls OK); auto. apply (H st r (or_introl eq_refl) Ir).
Qed.
Lemma oall_continuity sps a b : 0 <= a < Nx -> 0 <= b < Ny -> (ax_lo (d_ax D) = Pml -> 1 <= a) -> (ax_lo (d_ay D) = Pml -> 1 <= b) -> forall pss, slow_all pss ->
  (ocsum sps (1#2) a b (map particles pss) - ocsum sps (-1#2) a b (map particles pss)
   + dt * ((ojsum sps 0 [a; b] pss - ojsum sps 0 [(a - 1) mod Nx; b] pss) / dx + (ojsum sps 1 [a; b] pss - ojsum sps 1 [a; (b - 1) mod Ny] pss) / dy) == 0)%Q.
Proof.
  intros Ha Hb Oa Ob. unfold ojsum, ocsum. induction sps as [|sp sps IH]; intros pss H.
  { cbn [combine qsum fold_right]. unfold Qdiv. ring. }
  destruct pss as [|st pss]; [cbn [map combine qsum fold_right]; unfold Qdiv; ring|]. cbn [map combine]. rewrite !qsum_cons. cbn [fst snd].
  assert (slow_all pss) as H' by (intros st' r I; apply H; right; exact I). specialize (IH pss H').
  assert (forall l, (forall r, In r l -> fast_ok r) ->
    qsum (charge_of_o D (sp_q sp) (1#2) a b) l - qsum (charge_of_o D (sp_q sp) (-1#2) a b) l
    + dt * ((qsum (fun r => dep sp r 0%nat [a; b]) l - qsum (fun r => dep sp r 0%nat [(a - 1) mod Nx; b]) l) / dx
          + (qsum (fun r => dep sp r 1%nat [a; b]) l - qsum (fun r => dep sp r 1%nat [a; (b - 1) mod Ny]) l) / dy) == 0)%Q as C.
  { induction l as [|r l IHl]; intro F; [cbn [qsum fold_right]; unfold Qdiv; ring|]. rewrite !qsum_cons.
    specialize (IHl (fun x I => F x (or_intror I))). pose proof (o_continuity K D pmls OK sp r a b (F r (or_introl eq_refl)) Ha Hb Oa Ob) as C.
    unfold Qdiv in *. lra. }
  specialize (C (particles st) (fun r I => H st r (or_introl eq_refl) I)). unfold Qdiv in *. lra.
Qed.
Lemma ocsum_canon q h i j l : (qsum (charge_of_o D q h i j) l == qsum (charge_of_o D q h i j) (map canon l))%Q.
Proof. rewrite qsum_map. apply qsum_ext. intros r _. apply (CO_eq K D pmls OK). symmetry. apply canon_idem. Qed.
Lemma ocsum_sorted sps h i j : forall pss pss', Forall2 (fun st st' => Permutation (particles st) (particles st')) pss pss' -> (ocsum sps h i j (map particles pss) == ocsum sps h i j (map particles pss'))%Q.
Proof.
  unfold ocsum. intros pss pss' F. revert sps. induction F as [|st st' pss pss' H F IH]; intros [|sp sps]; try reflexivity. cbn [map combine]. rewrite !qsum_cons, IH. cbn [fst snd].
  apply Qplus_comp; [|reflexivity]. apply qsum_perm. exact H.
Qed.
Lemma kept_sum q h i j l : (forall r, In r l -> fast_ok r) ->
  (qsum (charge_of_o D q h i j) l == qsum (charge_of_o D q h i j) (flat_map (fun r => map canon (okept K D r)) l) + qsum (charge_of_o D q h i j) (filter (is_gone K D) l))%Q.
Proof.
  induction l as [|r l IH]; intro F; [reflexivity|]. cbn [flat_map filter]. rewrite qsum_cons, qsum_app, <- ocsum_canon, (IH (fun x I => F x (or_intror I))).
  pose proof (CO_kept K D pmls OK q h i j r (proj1 (F r (or_introl eq_refl)))) as E. change (fun r => charge_of_o D q h i j r) with (charge_of_o D q h i j) in E.
  destruct (is_gone K D r); [rewrite qsum_cons|]; lra.
Qed.
Lemma ocsum_kept sps h i j : forall pss pss', slow_all pss ->
  Forall2 (fun st2 st3 => Permutation (map canon (particles st3)) (flat_map (fun r => map canon (okept K D r)) (particles st2))) pss pss' ->
  (ocsum sps h i j (map particles pss) == ocsum sps h i j (map particles pss') + ocsum sps h i j (gone_of pss))%Q.
Proof.
  unfold ocsum, gone_of. intros pss pss' H F. revert sps. induction F as [|st st' pss pss' P F IH]; intros [|sp sps]; try reflexivity. cbn [map combine]. rewrite !qsum_cons. cbn [fst snd].
  rewrite IH by (intros s r I; apply H; right; exact I). rewrite (kept_sum _ _ _ _ (particles st)) by (intros r; apply (H st r (or_introl eq_refl))).
  rewrite (ocsum_canon _ _ _ _ (particles st')), (qsum_perm _ _ _ P). ring.
Qed.
Lemma ocsum_pushed rsqrt FE FB sps i j : forall pss pss', length pss = length sps -> slow_all pss ->
  Forall2 (fun ss st2 => map canon (particles st2) = map (fun r => canon (orow rsqrt (PL D) dx dy dt (fst ss) FE FB r)) (particles (snd ss))) (combine sps pss) pss' ->
  (ocsum sps (-1#2) i j (map particles pss') == ocsum sps (1#2) i j (map particles pss))%Q.
Proof.
  unfold ocsum. induction sps as [|sp sps IH]; intros [|st pss] pss' L H F; cbn [length] in L; try lia; cbn [combine] in F; inversion F as [|? st2 ? pss2 H1 H2]; subst; cbn [map combine].
  { reflexivity. }
  rewrite !qsum_cons. cbn [fst snd] in *. rewrite (IH pss pss2) by (try lia; auto; intros st' r I; apply H; right; exact I).
  apply Qplus_comp; [|reflexivity]. rewrite ocsum_canon, H1, qsum_map. apply qsum_ext. intros r Ir.
  rewrite <- (CO_orow K D pmls OK rsqrt sp FE FB) by (apply (H st r (or_introl eq_refl) Ir)). apply (CO_eq K D pmls OK). apply canon_idem.
Qed.
Lemma ocsum_mod sps h i j rows : inr (d_ax D) Nx i -> inr (d_ay D) Ny j -> (ocsum sps h (i mod Nx) (j mod Ny) rows == ocsum sps h i j rows)%Q.
Proof. intros H1 H2. unfold ocsum. apply qsum_ext. intros ss _. apply qsum_ext. intros r _. rewrite (CO_mod K D pmls OK) by assumption. reflexivity. Qed.
Lemma gone_far sps i j pss : slow_all pss -> off_layers th D i j -> (ocsum sps (1#2) i j (gone_of pss) == 0)%Q.
Proof.
  intros H O. unfold ocsum, gone_of. revert pss H. induction sps as [|sp sps IH]; intros [|st pss] H; try reflexivity. cbn [map combine]. rewrite qsum_cons. cbn [fst snd].
  rewrite (IH pss) by (intros st' r I; apply H; right; exact I). rewrite Qplus_0_r.
  transitivity (qsum (fun _ : prow body => 0%Q) (filter (is_gone K D) (particles st))).
  - apply qsum_ext. intros r Ir. apply filter_In in Ir as [Ir G]. apply (CO_far K D pmls OK); [apply (H st r (or_introl eq_refl) Ir)|apply gone_in_layers; exact G|exact O].
  - clear. induction (filter _ _) as [|r l IH]; [reflexivity|]. rewrite qsum_cons, IH. ring.
Qed.
Lemma osettled_slow pss : Forall (settled D) pss -> slow_all pss.
Proof. exact (settled_slow D pss). Qed.
Lemma gone_tags l : Permutation (map tag l) (map tag (flat_map (fun r => map canon (okept K D r)) l) ++ map tag (filter (is_gone K D) l)).
Proof.
  induction l as [|r l IH]; [constructor|]. cbn [flat_map map filter]. rewrite map_app, <- tags.
  assert (okept K D r = [] \/ exists r', okept K D r = [r'] /\ tag r' = tag r) as [E|(r' & E' & E)].
  { unfold okept, okeep. destruct (px _ r); [|right; eauto]. destruct (py _ r); [|right; eauto]. destruct (keep1 _ _ _ _ q); [|left; reflexivity]. destruct (keep1 _ _ _ _ q0); [|left; reflexivity].
    right. eexists. split; [reflexivity|]. reflexivity. }
  - unfold is_gone at 1. rewrite E. cbn [map app]. rewrite IH. apply Permutation_middle.
  - unfold is_gone at 1. rewrite E'. cbn [map app]. rewrite E, IH. reflexivity.
Qed.
End Sum.

Section Steps.
Variable rsqrt : Q -> Q.
Hypothesis SUB : subluminal rsqrt.
Variable eps : Qc.
Variable K : layer Qc. Variable D : domain2. Variable pmls : nat -> list pml_side.
Hypothesis OK : open_ok K D pmls.
Variable sps : list species.
Local Notation Nx := (cells_x D). Local Notation Ny := (cells_y D). Local Notation th := (thick K).
Local Notation A := (qc_arith eps).
Local Notation dx := (Q2Qc (d_dx D)). Local Notation dy := (Q2Qc (d_dy D)).
Local Notation cur := (ocurrents (PL D) (d_dx D) (d_dy D) (d_dt D) sps).

Lemma omoved_all FE FB mE mB mJ ps mJ1 ps2 : field_is D FE mE -> field_is D FB mB -> length ps = length sps -> Forall (settled D) ps ->
  push_species rsqrt D sps mE mB mJ ps = Some (mJ1, ps2) -> slow_all ps2.
Proof.
  intros HE HB L F E. destruct (opush_species_ok rsqrt SUB K D pmls OK FE FB mE mB HE HB sps ps mJ L F) as (mJ1' & ps2' & E' & P & V).
  rewrite E in E'. apply some_eq in E'. assert (ps2' = ps2) as -> by congruence. clear - P.
  intros st r I Ir. induction P as [|ss st' l l' [L' H] P IH]; [destruct I|]. destruct I as [<-|I]; [|exact (IH I)].
  unfold particles in Ir. apply in_flat_map in Ir. destruct Ir as (x & Ix & Ir). destruct (In_nth _ _ [] Ix) as (p & Hp & <-).
  destruct (proj2 (H p ltac:(lia)) r Ir) as (u & v & E1 & E2 & V1 & V2 & _). split; [exists u, v; auto|auto].
Qed.
Lemma ocur_this pss f i j : (this (per D (cur pss) f [i; j]) == ojsum D sps f [i mod Nx; j mod Ny] pss)%Q.
Proof. unfold per, ocurrents. apply this_q2qc. Qed.
Lemma inr_of i j : beside_layers th D i j -> inr (d_ax D) Nx i /\ inr (d_ay D) Ny j.
Proof. intros [H1 H2]. pose proof (oo_th K D pmls OK). split; intro P; [specialize (H1 P)|specialize (H2 P)]; lia. Qed.
Lemma ocharge_step FE FB ps1 ps2 ps3 i j : length ps1 = length sps -> slow_all ps1 -> slow_all ps2 -> beside_layers th D i j ->
  Forall2 (fun ss st2 => map canon (particles st2) = map (fun r => canon (orow rsqrt (PL D) (d_dx D) (d_dy D) (d_dt D) (fst ss) FE FB r)) (particles (snd ss))) (combine sps ps1) ps2 ->
  Forall2 (fun st2 st3 => Permutation (map canon (particles st3)) (flat_map (fun r => map canon (okept K D r)) (particles st2))) ps2 ps3 ->
  charge_o D sps ps3 i j = (charge_o D sps ps1 i j - Q2Qc (d_dt D) * divE2 A (per D (cur ps2)) dx dy i j - charge_rows D sps (gone_of K D ps2) i j)%Qc.
Proof.
  intros L H1 H2 B G W. destruct (ocells_pos K D pmls OK) as [P1 P2]. destruct (inr_of i j B) as [R1 R2]. destruct B as [B1 B2]. pose proof (oo_th K D pmls OK) as T.
  apply Qc_is_canon. rewrite !this_minus, this_mult. unfold divE2. cbn [plus_ minus_ over_ qc_arith].
  rewrite this_plus, !this_div, !this_minus, !ocur_this, !this_q2qc. unfold charge_o, charge_rows. rewrite !this_q2qc.
  change (ocsum D sps (1#2) i j (map particles ps3) == ocsum D sps (1#2) i j (map particles ps1) - d_dt D * ((ojsum D sps 0 [i mod Nx; j mod Ny] ps2 - ojsum D sps 0 [(i - 1) mod Nx; j mod Ny] ps2) / d_dx D
    + (ojsum D sps 1 [i mod Nx; j mod Ny] ps2 - ojsum D sps 1 [i mod Nx; (j - 1) mod Ny] ps2) / d_dy D) - ocsum D sps (1#2) i j (gone_of K D ps2))%Q.
  rewrite <- (ocsum_pushed K D pmls OK rsqrt FE FB sps i j ps1 ps2 L H1 G).
  pose proof (ocsum_kept K D pmls OK sps (1#2) i j ps2 ps3 H2 W) as EK.
  assert (O1 : ax_lo (d_ax D) = Pml -> 1 <= i mod Nx) by (intro P; specialize (B1 P); rewrite Z.mod_small by lia; lia).
  assert (O2 : ax_lo (d_ay D) = Pml -> 1 <= j mod Ny) by (intro P; specialize (B2 P); rewrite Z.mod_small by lia; lia).
  pose proof (oall_continuity K D pmls OK sps (i mod Nx) (j mod Ny) (Z.mod_pos_bound _ _ P1) (Z.mod_pos_bound _ _ P2) O1 O2 ps2 H2) as C.
  rewrite !(ocsum_mod K D pmls OK) in C by assumption. rewrite !Zminus_mod_idemp_l in C. unfold Qdiv in *. lra.
Qed.

(** what one step does *)
Definition ostep_facts (s s' : stateo) (gone : list (list (prow body))) : Prop :=
  absorbed th D s s' gone /\
  (forall i j, beside_layers th D i j -> defect_o eps D sps s' i j = (defect_o eps D sps s i j + charge_rows D sps gone i j / eps)%Qc) /\
  (forall i j, off_layers th D i j -> charge_rows D sps gone i j = Q2Qc 0) /\
  (forall i j, beside_b K D i j -> divB2 A (on_domain D (o_B s')) dx dy i j = divB2 A (on_domain D (o_B s)) dx dy i j) /\
  (forall i j, inr (d_ax D) Nx i -> inr (d_ay D) Ny j -> on_domain D (o_J s') 3 [i; j] = (charge_o D sps (o_parts s') i j + charge_rows D sps gone i j)%Qc) /\
  open_ready D sps s' /\ open_consistent D pmls s'.
Lemma odefect_step_in rank s s' : open_ready D sps s -> open_consistent D pmls s -> stepo rsqrt eps K D pmls sps rank s s' -> exists FE FB ps1 ps2,
  Forall2 (fun st st1 => Permutation (particles st) (particles st1)) (o_parts s) ps1 /\
  Forall2 (fun ss st2 => map canon (particles st2) = map (fun r => canon (orow rsqrt (PL D) (d_dx D) (d_dy D) (d_dt D) (fst ss) FE FB r)) (particles (snd ss))) (combine sps ps1) ps2 /\
  ostep_facts s s' (gone_of K D ps2).
Proof.
  intros [L F] ((FE & HE) & (FB & HB) & (FJ & HJ) & (PE & XE) & (PB & XB)) S.
  destruct S as [mE mB mJ pE pB ps mE0 pE1 mE1 mB0 pB1 mB1 ps1 mJ1 ps2 mJ2 ps3 mBi pB2 mB2 mEi pE2 mE2 U1 A1 U2 A2 A3 A4 A5 A6 U3 A7 U4 A8].
  cbn [o_E o_B o_J o_pE o_pB o_parts] in *.
  destruct (up_Eo_ok eps K D pmls OK rank FB FJ FE PE mB mJ mE pE mE0 pE1 mE1 HE HB HJ XE U1 A1) as [HE1 XE1].
  set (FE1 := oE eps K D FB FJ FE PE) in *. set (PE1 := oPE eps K D FB PE) in *.
  destruct (up_Bo_ok eps K D pmls OK rank FE1 FB PB mE1 mB pB mB0 pB1 mB1 HB HE1 XB U2 A2) as [HB1 XB1].
  set (FB1 := oB eps K D FE1 FB PB) in *. set (PB1 := oPB eps K D FE1 PB) in *.
  destruct (forall2_sorted D ps ps1 A3 F) as (F1 & L1 & Q1).
  destruct (ohalf_step rsqrt SUB K D pmls OK sps rank FE1 FB1 mE1 mB1 mJ ps1 mJ1 ps2 mJ2 ps3 HE1 HB1 ltac:(lia) F1 A4 A5 A6) as (C & L3 & F3 & _ & G & W).
  pose proof (omoved_all FE1 FB1 mE1 mB1 _ ps1 mJ1 ps2 HE1 HB1 ltac:(lia) F1 A4) as M.
  set (FJ2 := cur ps2) in *.
  destruct (up_Bo_ok eps K D pmls OK rank FE1 FB1 PB1 mE1 mB1 pB1 mBi pB2 mB2 HB1 HE1 XB1 U3 A7) as [HB2 XB2].
  set (FB2 := oB eps K D FE1 FB1 PB1) in *. set (PB2 := oPB eps K D FE1 PB1) in *.
  destruct (up_Eo_ok eps K D pmls OK rank FB2 FJ2 FE1 PE1 mB2 mJ2 mE1 pE1 mEi pE2 mE2 HE1 HB2 C XE1 U4 A8) as [HE2 XE2].
  exists FE1, FB1, ps1, ps2. split; [exact Q1|]. split; [exact G|]. unfold ostep_facts. split; [|split; [|split; [|split; [|split; [|split]]]]].
  - assert (length ps2 = length sps) as L2 by (assert (length (combine sps ps1) = length ps2) as E by (clear - G; induction G; cbn [length]; congruence); rewrite combine_length in E; lia).
    unfold absorbed. cbn [o_parts]. split; [unfold gone_of; rewrite map_length; lia|]. split.
    + unfold gone_of. apply Forall_forall. intros l I. apply in_map_iff in I as (st & <- & I). apply Forall_forall. intros r Ir. apply filter_In in Ir as [_ Ir]. apply gone_in_layers. exact Ir.
    + clear - Q1 G W L L1. assert (L2 : length ps1 = length sps) by lia. clear L L1. revert sps L2 ps ps2 ps3 Q1 G W.
      induction ps1 as [|st1 ps1 IH]; intros [|sp sps] L ps ps2 ps3 Q1 G W n; cbn [length] in L; try lia; cbn [combine] in *.
      * inversion Q1; subst. inversion G; subst. inversion W; subst. destruct n; constructor.
      * inversion Q1 as [|st ? ps' ? P1 Q1']; subst. inversion G as [|? st2 ? ps2' G1 G2]; subst. inversion W as [|? st3 ? ps3' W1 W2]; subst.
        destruct n as [|n]; cbn [nth gone_of map]; [|apply (IH sps ltac:(lia) ps' ps2' ps3'); assumption].
        cbn [fst snd] in G1. rewrite (Permutation_map tag P1).
        assert (map tag (particles st1) = map tag (particles st2)) as ->.
        { rewrite (tags (particles st2)), G1, map_map. apply map_ext. intro r. rewrite tag_of_canon. reflexivity. }
        rewrite (gone_tags K D (particles st2)) at 1. apply Permutation_app_tail. rewrite <- (Permutation_map tag W1). rewrite <- tags. reflexivity.
  - intros i j B. unfold defect_o, gauss. cbn [o_E o_J o_parts].
    rewrite (oread_divE eps K D pmls OK _ mE2 i j HE2), (oread_divE eps K D pmls OK _ mE i j HE), (oread_divJ eps K D pmls OK _ mJ2 i j C), (oread_divJ eps K D pmls OK _ mJ i j HJ).
    rewrite (div_oE eps K D pmls OK) by exact B. unfold FE1 at 1. rewrite (div_oE eps K D pmls OK) by exact B.
    rewrite (ocharge_step FE1 FB1 ps1 ps2 ps3 i j ltac:(lia) (osettled_slow D ps1 F1) M B G W).
    assert (charge_o D sps ps1 i j = charge_o D sps ps i j) as ->.
    { unfold charge_o, charge_rows. apply q2qc_eq. apply (ocsum_sorted D sps (1#2) i j). clear - Q1. induction Q1; constructor; [apply Permutation_sym; assumption|assumption]. }
    fold FJ2. assert (Q2Qc (d_dt D) = half D + half D)%Qc as ->.
    { unfold half. apply Qc_is_canon. rewrite this_plus, !this_q2qc. ring. }
    unfold Qcdiv. ring.
  - intros i j O. unfold charge_rows. apply q2qc_eq. exact (gone_far K D pmls OK sps i j ps2 M O).
  - intros i j B. cbn [o_B]. rewrite (oread_divB eps K D pmls OK _ mB2 i j HB2), (oread_divB eps K D pmls OK _ mB i j HB). unfold FB2, FB1. rewrite !(div_oB eps K D pmls OK) by exact B. reflexivity.
  - intros i j R1 R2. cbn [o_J o_parts]. rewrite (oread_currents K D pmls OK _ mJ2 3 i j C) by lia. destruct (ocells_pos K D pmls OK) as [P1 P2]. apply Qc_is_canon. unfold FJ2. rewrite ocur_this, this_plus. unfold charge_o, charge_rows. rewrite !this_q2qc.
    rewrite (oall_rho K D pmls OK sps _ _ (Z.mod_pos_bound _ _ P1) (Z.mod_pos_bound _ _ P2) ps2 M), (ocsum_mod K D pmls OK) by assumption. exact (ocsum_kept K D pmls OK sps (1#2) i j ps2 ps3 M W).
  - split; assumption.
  - split; [eexists; exact HE2|]. split; [eexists; exact HB2|]. split; [eexists; exact C|]. split; eexists; eassumption.
Qed.
Lemma odefect_step rank s s' : open_ready D sps s -> open_consistent D pmls s -> stepo rsqrt eps K D pmls sps rank s s' -> exists gone, ostep_facts s s' gone.
Proof. intros R C S. destruct (odefect_step_in rank s s' R C S) as (_ & _ & _ & ps2 & _ & _ & H). eauto. Qed.
Lemma off_beside i j : off_layers th D i j -> beside_layers th D i j /\ beside_b K D i j /\ inr (d_ax D) Nx i /\ inr (d_ay D) Ny j.
Proof.
  intros [H1 H2]. pose proof (oo_th K D pmls OK). assert (beside_layers th D i j) as B by (split; intro P; [specialize (H1 P)|specialize (H2 P)]; lia).
  split; [exact B|]. split; [split; intro P; [specialize (H1 P)|specialize (H2 P)]; lia|]. apply inr_of. exact B.
Qed.
Lemma odefect_steps k : forall s s', open_ready D sps s -> open_consistent D pmls s -> stepso rsqrt eps K D pmls sps k s s' ->
  (forall i j, off_layers th D i j -> defect_o eps D sps s' i j = defect_o eps D sps s i j) /\
  (forall i j, beside_b K D i j -> divB2 A (on_domain D (o_B s')) dx dy i j = divB2 A (on_domain D (o_B s)) dx dy i j) /\
  ((0 < k)%nat -> forall i j, off_layers th D i j -> on_domain D (o_J s') 3 [i; j] = charge_o D sps (o_parts s') i j) /\ open_ready D sps s' /\ open_consistent D pmls s'.
Proof.
  induction k as [|k IH]; intros s s' R C T; inversion T as [|k' rank s0 s1 s2 T1 T2]; subst.
  { split; [reflexivity|]. split; [reflexivity|]. split; [lia|]. auto. }
  destruct (odefect_step rank s s1 R C T1) as (gone & _ & E1 & E0 & E2 & E3 & R1 & C1). destruct (IH s1 s' R1 C1 T2) as (E4 & E5 & E6 & R2 & C2).
  split; [|split; [|split; [|auto]]].
  - intros i j O. rewrite (E4 i j O). destruct (off_beside i j O) as [B _]. rewrite (E1 i j B), (E0 i j O). unfold Qcdiv. change (Q2Qc 0) with 0%Qc. ring.
  - intros i j B. rewrite (E5 i j B). exact (E2 i j B).
  - intros _. destruct k as [|k]; [|apply E6; lia]. inversion T2; subst. intros i j O. destruct (off_beside i j O) as (_ & _ & I1 & I2). rewrite (E3 i j I1 I2), (E0 i j O). change (Q2Qc 0) with 0%Qc. ring.
Qed.
(** the field that acts on the particles in the next step *)
Lemma opushing_field rank s m1 psi1 mE1 i j : open_consistent D pmls s -> beside_layers th D i j ->
  up_Eo eps K D pmls (o_B s) (o_J s) (o_E s) (o_pE s) = (m1, psi1) -> sync_guards D rank m1 mE1 ->
  gauss eps D mE1 (charge_o D sps (o_parts s)) i j = defect_o eps D sps s i j.
Proof.
  intros ((FE & HE) & (FB & HB) & (FJ & HJ) & (PE & XE) & _) B U A1. destruct (up_Eo_ok eps K D pmls OK rank FB FJ FE PE _ _ _ _ m1 psi1 mE1 HE HB HJ XE U A1) as [HE1 _].
  unfold defect_o, gauss. rewrite (oread_divE eps K D pmls OK _ mE1 i j HE1), (oread_divE eps K D pmls OK _ _ i j HE), (oread_divJ eps K D pmls OK _ _ i j HJ), (div_oE eps K D pmls OK) by exact B. ring.
Qed.
End Steps.
