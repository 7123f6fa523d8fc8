(** Lasers in whole time steps with open sides: Gauss' law. *)
From Coq Require Import QArith Qabs Qround Qcanon Permutation Lqa.
From Verif Require Import Base M_Layout S_Layout M_PartSync S_PartSync M_FieldSync S_FieldSync M_Maxwell S_Maxwell M_Cpml S_Cpml M_Deposit S_Deposit M_Push S_Push M_Laser P_Layout P_Deposit P_Deposit5 P_FieldGeo P_FieldSync P_FieldSync4 P_FieldSync5 P_Maxwell P_Maxwell3 P_Laser2 P_Laser3 P_Laser4 M_Step S_Step M_StepO S_StepO M_StepL P_Step1 P_Step2 P_Step3 P_Step4 P_Step5 P_Step6 P_Step7 P_Step8 S_Gauss S_GaussO P_Gauss1 P_Gauss2 P_StepO1 P_StepO2 P_StepO3 P_StepO4 P_StepO5 P_GaussO1 P_GaussO2 P_GaussO3 P_StepL.
Local Open Scope list_scope.
Local Open Scope Z_scope.

(** * Reading the magnetic field before and after the exchange *)
Section Read.
Variable eps : Qc.
Variable K : layer Qc. Variable D : domain2. Variable pmls : nat -> list pml_side.
Hypothesis OK : open_ok K D pmls.
Local Notation n := (npatches2 D). Local Notation ns := [d_nx D; d_ny D]. Local Notation ng := (d_ng D).
Local Notation Nx := (cells_x D). Local Notation Ny := (cells_y D). Local Notation th := (thick K).
Lemma read_synced rank m m0 f i j : sync_guards D rank m m0 -> (f < 3)%nat -> on_domain D m0 f [i; j] = on_domain D m f [i; j].
Proof using OK.
  intros S Hf. apply (oguards K D pmls OK) in S. destruct S as [S _]. destruct (oo_g K D pmls OK) as (G1 & G2 & G3). destruct (ostored_at K D pmls OK i j) as (Hp & Hc & _). unfold on_domain, stored. cbv zeta.
  rewrite (S f _ _ Hf Hp (interior_within ng ns _ ltac:(lia) Hc)). unfold guard_result.
  rewrite (facing_interior ns ng bounds2 opp2 (geometry2 (d_nx D) (d_ny D) ng ltac:(lia) G2 G3) _ _ _ Hc). reflexivity.
Qed.
Lemma stored_off f i j : i mod Nx <> th + 1 -> off_plane K D (stored D f i j) \/ d_nx D < th + 2.
Proof using OK.
  intro N. destruct (Z.lt_ge_cases (d_nx D) (th + 2)) as [H|Fit]; [right; exact H|left]. destruct (oo_g K D pmls OK) as (G1 & G2 & G3). pose proof (oo_th K D pmls OK) as T. destruct (oo_n K D pmls OK) as [N1 N2].
  destruct (ostored_at K D pmls OK i j) as (Hp & Hc & _). destruct (ocells_pos K D pmls OK) as [P1 P2].
  intros f' q y Hf Hq Hl Hy E. unfold stored in E. cbv zeta in E.
  apply (cell_inj ns ng bounds2 opp2 (geometry2 (d_nx D) (d_ny D) ng ltac:(lia) G2 G3)) in E as (_ & Eq & Ec); [|apply interior_within; [lia|exact Hc]|apply interior_within; [lia|repeat constructor; lia]].
  set (I := i mod Nx) in *. set (J := j mod Ny) in *. assert (HI : 0 <= I < Nx) by (apply Z.mod_pos_bound; exact P1). assert (HJ : 0 <= J < Ny) by (apply Z.mod_pos_bound; exact P2).
  clearbody I J. injection Ec as E1 E2. subst q. unfold cells_x in HI. unfold cells_y in HJ.
  assert (HX : 0 <= I / d_nx D < ax_n (d_ax D)) by (split; [apply Z.div_pos; lia|apply Z.div_lt_upper_bound; lia]).
  assert (HY : 0 <= J / d_ny D) by (apply Z.div_pos; lia).
  rewrite Z2Nat.id in Hl by nia. rewrite Z.add_comm, Z.mod_add, Z.mod_small in Hl by lia.
  pose proof (Z.div_mod I (d_nx D) ltac:(lia)) as X. rewrite Hl, E1 in X. apply N. lia.
Qed.
(** no layer on the left: the lasers write nothing *)
Lemma stage_none nproc rank l time dt mE mJ st : ax_lo (d_ax D) <> Pml ->
  snd (laser_stage_2d (qc_arith eps) K (Q2Qc LIGHT_SPEED) (d_ax D) (d_ay D) (d_nx D) (d_ny D) ng (Q2Qc (d_dx D)) (Q2Qc (d_dy D)) (d_dy D) pmls nproc rank l time dt mE mJ st) = snd st.
Proof using OK.
  intro HP. unfold laser_stage_2d, stage. generalize (seq 0 nproc). intro rs. revert st. induction rs as [|r rs IH]; intro st; [reflexivity|]. cbn [fold_left]. rewrite IH. clear IH. destruct st as [dis m].
  match goal with |- context [laser_call_2d ?a0 ?a1 ?a2 ?a3 ?a4 ?a5 ?a6 ?a7 ?a8 ?a9 ?b0 ?b1 ?b2 ?b3 ?b4 ?b5 ?b6 (filter ?f ?l0) ?d m] => set (mine := filter f l0); set (dd := d) end.
  assert (Hm : forall p, In p mine -> (p < n)%nat) by (intros p I; unfold mine in I; apply filter_In in I as [I _]; apply in_seq in I; unfold npatches2; lia).
  clearbody mine dd. unfold laser_call_2d, call. destruct dd; [reflexivity|]. destruct (Qle_bool _ _); [reflexivity|].
  rewrite count_none; [|intros q I X; apply filter_In in I as [I _]; apply (xmin_in K (d_ax D) (d_ay D) (d_nx D) (d_ny D) pmls (oo_p K D pmls OK) (oo_l K D pmls OK)) in X; [tauto|apply Hm; exact I]].
  destruct (filter (left2 (d_ax D)) mine) as [|q e] eqn:E; [|reflexivity]. cbn [length Nat.ltb Nat.leb snd].
  clear Hm. revert m. induction mine as [|p mine IH]; intro m; [reflexivity|]. cbn [fold_left filter] in *. destruct (left2 (d_ax D) p); [discriminate|]. apply IH. exact E.
Qed.
Lemma run_none nproc rank time mE mJ : ax_lo (d_ax D) <> Pml -> forall ls offs m, snd (run_lasers eps K D pmls nproc rank time mE mJ ls offs m) = m.
Proof using OK.
  intro O. induction ls as [|l ls IH]; intros [|off offs] m; try reflexivity. cbn [run_lasers].
  match goal with |- context [laser_stage_2d ?a0 ?a1 ?a2 ?a3 ?a4 ?a5 ?a6 ?a7 ?a8 ?a9 ?b0 ?b1 ?b2 ?b3 ?b4 ?b5 ?b6 ?b7 ?b8 (off, m)] =>
    pose proof (stage_none b2 b3 b4 b5 b6 b7 b8 (off, m) O) as E; destruct (laser_stage_2d a0 a1 a2 a3 a4 a5 a6 a7 a8 a9 b0 b1 b2 b3 b4 b5 b6 b7 b8 (off, m)) as [off1 m1] end.
  cbn [snd] in E. specialize (IH offs m1). destruct (run_lasers _ _ _ _ _ _ _ _ _ ls offs m1) as [offs1 m']. cbn [snd] in *. congruence.
Qed.
End Read.

Section Steps.
Variable rsqrt : Q -> Q.
Hypothesis SUB : subluminal rsqrt.
Variable eps : Qc.
Variable K : layer Qc. Variable D : domain2. Variable pmls : nat -> list pml_side.
Hypothesis OK : open_ok K D pmls.
Hypothesis Fit : thick K + 2 <= d_nx D.
Variable lasers : list (laser (V := Qc)). Variable nproc : nat.
Variable sps : list species.
Local Notation Nx := (cells_x D). Local Notation Ny := (cells_y D). Local Notation th := (thick K).
Local Notation A := (qc_arith eps).
Local Notation dx := (Q2Qc (d_dx D)). Local Notation dy := (Q2Qc (d_dy D)).
Local Notation cur := (ocurrents (PL D) (d_dx D) (d_dy D) (d_dt D) sps).
(** where the magnetic field is out of reach of layers and lasers *)
Definition beside_bl (i j : Z) : Prop := (ax_lo (d_ax D) = Pml -> th + 2 <= i < Nx - th - 2) /\ (ax_lo (d_ay D) = Pml -> th <= j < Ny - th - 2).
Lemma lasers_div_b rank time mE mJ offs m offs' ml i j : run_lasers eps K D pmls nproc rank time mE mJ lasers offs m = (offs', ml) -> beside_bl i j ->
  divB2 A (on_domain D ml) dx dy i j = divB2 A (on_domain D m) dx dy i j.
Proof using OK Fit.
  intros E [B _]. destruct (ax_lo (d_ax D)) eqn:P.
  - specialize (B eq_refl). pose proof (oo_th K D pmls OK) as T.
    assert (X : forall f x y, th + 2 <= x < Nx -> on_domain D ml f [x; y] = on_domain D m f [x; y]).
    { intros f x y Hx. pose proof (run_off eps K D pmls OK Fit nproc rank time mE mJ (stored D f x y)) as R.
      destruct (stored_off K D pmls OK f x y) as [O|O]; [rewrite Z.mod_small by lia; lia| |lia].
      specialize (R O lasers offs m). rewrite E in R. exact R. }
    unfold divB2. rewrite !X by lia. reflexivity.
  - pose proof (run_none eps K D pmls OK nproc rank time mE mJ) as R. rewrite P in R. specialize (R ltac:(discriminate) lasers offs m). rewrite E in R. cbn [snd] in R. subst ml. reflexivity.
Qed.

Definition lstep_facts (s s' : stateo) (gone : list (list (prow body))) : Prop :=
  absorbed th D s s' gone /\
  (forall i j, beside_layers th D i j -> defect_o eps D sps s' i j = (defect_o eps D sps s i j + charge_rows D sps gone i j / eps)%Qc) /\
  (forall i j, off_layers th D i j -> charge_rows D sps gone i j = Q2Qc 0) /\
  (forall i j, beside_bl i j -> divB2 A (on_domain D (o_B s')) dx dy i j = divB2 A (on_domain D (o_B s)) dx dy i j) /\
  (forall i j, inr (d_ax D) Nx i -> inr (d_ay D) Ny j -> on_domain D (o_J s') 3 [i; j] = (charge_o D sps (o_parts s') i j + charge_rows D sps gone i j)%Qc) /\
  open_ready D sps s' /\ open_consistent D pmls s'.
Lemma ldefect_step rank time s s' : open_ready D sps (l_o s) -> open_consistent D pmls (l_o s) -> stepl rsqrt eps K D pmls lasers nproc sps rank time s s' ->
  exists gone, lstep_facts (l_o s) (l_o s') gone.
Proof using SUB OK Fit.
  intros [L F] ((FE & HE) & (FB & HB) & (FJ & HJ) & (PE & XE) & (PB & XB)) S.
  destruct S as [mE mB mJ pE pB ps offs mE0 pE1 mE1 mB0 pB1 mB1 ps1 mJ1 ps2 mJ2 ps3 mBi pB2 offs' mBl mB2 mEi pE2 mE2 U1 A1 U2 A2 A3 A4 A5 A6 U3 UL A7 U4 A8].
  cbn [l_o o_E o_B o_J o_pE o_pB o_parts] in *.
  destruct (up_Eo_ok eps K D pmls OK rank FB FJ FE PE mB mJ mE pE mE0 pE1 mE1 HE HB HJ XE U1 A1) as [HE1 XE1].
  set (FE1 := oE eps K D FB FJ FE PE) in *. set (PE1 := oPE eps K D FB PE) in *.
  destruct (up_Bo_ok eps K D pmls OK rank FE1 FB PB mE1 mB pB mB0 pB1 mB1 HB HE1 XB U2 A2) as [HB1 XB1].
  set (FB1 := oB eps K D FE1 FB PB) in *. set (PB1 := oPB eps K D FE1 PB) in *.
  destruct (forall2_sorted D ps ps1 A3 F) as (F1 & L1 & Q1).
  destruct (ohalf_step rsqrt SUB K D pmls OK sps rank FE1 FB1 mE1 mB1 mJ ps1 mJ1 ps2 mJ2 ps3 HE1 HB1 ltac:(lia) F1 A4 A5 A6) as (C & L3 & F3 & _ & G & W).
  pose proof (omoved_all rsqrt SUB K D pmls OK sps FE1 FB1 mE1 mB1 _ ps1 mJ1 ps2 HE1 HB1 ltac:(lia) F1 A4) as M.
  set (FJ2 := cur ps2) in *.
  destruct (oguards_exist K D pmls OK rank mBi) as [mBs As].
  destruct (up_Bo_ok eps K D pmls OK rank FE1 FB1 PB1 mE1 mB1 pB1 mBi pB2 mBs HB1 HE1 XB1 U3 As) as [HBs XB2].
  set (PB2 := oPB eps K D FE1 PB1) in *.
  assert (Off : forall a, off_plane K D a -> mBl a = mBi a) by (intros a O; pose proof (run_off eps K D pmls OK Fit nproc rank time mE1 mJ2 a O lasers offs mBi) as R; rewrite UL in R; exact R).
  pose proof (field_again K D pmls OK Fit rank _ mBi mBs mBl mB2 As HBs Off A7) as HB2. set (FB2 := fun f g => on_domain D mBl f g) in *.
  destruct (up_Eo_ok eps K D pmls OK rank FB2 FJ2 FE1 PE1 mB2 mJ2 mE1 pE1 mEi pE2 mE2 HE1 HB2 C XE1 U4 A8) as [HE2 XE2].
  exists (gone_of K D ps2). unfold lstep_facts. split; [|split; [|split; [|split; [|split; [|split]]]]].
  - assert (length ps2 = length sps) as L2 by (assert (length (combine sps ps1) = length ps2) as E by (clear - G; induction G; cbn [length]; congruence); rewrite combine_length in E; lia).
    unfold absorbed. cbn [o_parts]. split; [unfold gone_of; rewrite map_length; lia|]. split.
    + unfold gone_of. apply Forall_forall. intros l I. apply in_map_iff in I as (st & <- & I). apply Forall_forall. intros r Ir. apply filter_In in Ir as [_ Ir]. apply gone_in_layers. exact Ir.
    + clear - Q1 G W L L1. assert (L2 : length ps1 = length sps) by lia. clear L L1. revert sps L2 ps ps2 ps3 Q1 G W.
      induction ps1 as [|st1 ps1 IH]; intros [|sp sps] L ps ps2 ps3 Q1 G W n; cbn [length] in L; try lia; cbn [combine] in *.
      * inversion Q1; subst. inversion G; subst. inversion W; subst. destruct n; constructor.
      * inversion Q1 as [|st ? ps' ? P1 Q1']; subst. inversion G as [|? st2 ? ps2' G1 G2]; subst. inversion W as [|? st3 ? ps3' W1 W2]; subst.
        destruct n as [|n]; cbn [nth gone_of map]; [|apply (IH sps ltac:(lia) ps' ps2' ps3'); assumption].
        cbn [fst snd] in G1. rewrite (Permutation_map tag P1).
        assert (map tag (particles st1) = map tag (particles st2)) as ->.
        { rewrite (tags (particles st2)), G1, map_map. apply map_ext. intro r. rewrite tag_of_canon. reflexivity. }
        rewrite (gone_tags K D (particles st2)) at 1. apply Permutation_app_tail. rewrite <- (Permutation_map tag W1). rewrite <- tags. reflexivity.
  - intros i j B. unfold defect_o, gauss. cbn [o_E o_J o_parts].
    rewrite (oread_divE eps K D pmls OK _ mE2 i j HE2), (oread_divE eps K D pmls OK _ mE i j HE), (oread_divJ eps K D pmls OK _ mJ2 i j C), (oread_divJ eps K D pmls OK _ mJ i j HJ).
    rewrite (div_oE eps K D pmls OK) by exact B. unfold FE1 at 1. rewrite (div_oE eps K D pmls OK) by exact B.
    rewrite (ocharge_step rsqrt eps K D pmls OK sps FE1 FB1 ps1 ps2 ps3 i j ltac:(lia) (osettled_slow D ps1 F1) M B G W).
    assert (charge_o D sps ps1 i j = charge_o D sps ps i j) as ->.
    { unfold charge_o, charge_rows. apply q2qc_eq. apply (ocsum_sorted D sps (1#2) i j). clear - Q1. induction Q1; constructor; [apply Permutation_sym; assumption|assumption]. }
    fold FJ2. assert (Q2Qc (d_dt D) = half D + half D)%Qc as ->.
    { unfold half. apply Qc_is_canon. rewrite this_plus, !this_q2qc. ring. }
    unfold Qcdiv. ring.
  - intros i j O. unfold charge_rows. apply q2qc_eq. exact (gone_far K D pmls OK sps i j ps2 M O).
  - intros i j B. cbn [o_B]. assert (divB2 A (on_domain D mB2) dx dy i j = divB2 A (on_domain D mBl) dx dy i j) as -> by (unfold divB2; rewrite !(read_synced K D pmls OK rank mBl mB2) by (auto; lia); reflexivity).
    rewrite (lasers_div_b rank time mE1 mJ2 offs mBi offs' mBl i j UL B).
    assert (divB2 A (on_domain D mBi) dx dy i j = divB2 A (on_domain D mBs) dx dy i j) as -> by (unfold divB2; rewrite !(read_synced K D pmls OK rank mBi mBs) by (auto; lia); reflexivity).
    assert (B' : beside_b K D i j) by (destruct B as [B1 B2]; split; intro P; [specialize (B1 P)|specialize (B2 P)]; lia).
    rewrite (oread_divB eps K D pmls OK _ mBs i j HBs), (oread_divB eps K D pmls OK _ mB i j HB). unfold FB1. rewrite !(div_oB eps K D pmls OK) by exact B'. reflexivity.
  - intros i j R1 R2. cbn [o_J o_parts]. rewrite (oread_currents K D pmls OK _ mJ2 3 i j C) by lia. destruct (ocells_pos K D pmls OK) as [P1 P2]. apply Qc_is_canon. unfold FJ2. rewrite ocur_this, this_plus. unfold charge_o, charge_rows. rewrite !this_q2qc.
    rewrite (oall_rho K D pmls OK sps _ _ (Z.mod_pos_bound _ _ P1) (Z.mod_pos_bound _ _ P2) ps2 M), (ocsum_mod K D pmls OK) by assumption. exact (ocsum_kept K D pmls OK sps (1#2) i j ps2 ps3 M W).
  - split; assumption.
  - split; [eexists; exact HE2|]. split; [eexists; exact HB2|]. split; [eexists; exact C|]. split; eexists; eassumption.
Qed.
Lemma ldefect_steps k : forall s s', open_ready D sps (l_o s) -> open_consistent D pmls (l_o s) -> stepsl rsqrt eps K D pmls lasers nproc sps k s s' ->
  (forall i j, off_layers th D i j -> defect_o eps D sps (l_o s') i j = defect_o eps D sps (l_o s) i j) /\
  (forall i j, beside_bl i j -> divB2 A (on_domain D (o_B (l_o s'))) dx dy i j = divB2 A (on_domain D (o_B (l_o s))) dx dy i j) /\
  ((0 < k)%nat -> forall i j, off_layers th D i j -> on_domain D (o_J (l_o s')) 3 [i; j] = charge_o D sps (o_parts (l_o s')) i j) /\ open_ready D sps (l_o s') /\ open_consistent D pmls (l_o s').
Proof using SUB OK Fit.
  induction k as [|k IH]; intros s s' R C T; inversion T as [|k' rank time s0 s1 s2 T1 T2]; subst.
  { split; [reflexivity|]. split; [reflexivity|]. split; [lia|]. auto. }
  destruct (ldefect_step rank time s s1 R C T1) as (gone & _ & E1 & E0 & E2 & E3 & R1 & C1). destruct (IH s1 s' R1 C1 T2) as (E4 & E5 & E6 & R2 & C2).
  split; [|split; [|split; [|auto]]].
  - intros i j O. rewrite (E4 i j O). destruct (off_beside K D pmls OK i j O) as [B _]. rewrite (E1 i j B), (E0 i j O). unfold Qcdiv. change (Q2Qc 0) with 0%Qc. ring.
  - intros i j B. rewrite (E5 i j B). exact (E2 i j B).
  - intros _. destruct k as [|k]; [|apply E6; lia]. inversion T2; subst. intros i j O. destruct (off_beside K D pmls OK i j O) as (_ & _ & I1 & I2). rewrite (E3 i j I1 I2), (E0 i j O). change (Q2Qc 0) with 0%Qc. ring.
Qed.

(** every step can be carried out *)
Lemma lstep_exists rank time s : open_ready D sps (l_o s) -> open_consistent D pmls (l_o s) ->
  forall ps1, Forall2 sorted2 (o_parts (l_o s)) ps1 -> exists s', stepl rsqrt eps K D pmls lasers nproc sps rank time s s'.
Proof using SUB OK Fit.
  intros [L F] ((FE & HE) & (FB & HB) & (FJ & HJ) & (PE & XE) & (PB & XB)) ps1 S. destruct s as [[mE mB mJ pE pB ps] offs]. cbn [l_o o_E o_B o_J o_pE o_pB o_parts] in *.
  destruct (up_Eo eps K D pmls mB mJ mE pE) as [mE0 pE1] eqn:U1.
  destruct (oguards_exist K D pmls OK rank mE0) as [mE1 A1]. destruct (up_Eo_ok eps K D pmls OK rank FB FJ FE PE mB mJ mE pE mE0 pE1 mE1 HE HB HJ XE U1 A1) as [HE1 XE1].
  destruct (up_Bo eps K D pmls mE1 mB pB) as [mB0 pB1] eqn:U2.
  destruct (oguards_exist K D pmls OK rank mB0) as [mB1 A2]. destruct (up_Bo_ok eps K D pmls OK rank _ FB PB mE1 mB pB mB0 pB1 mB1 HB HE1 XB U2 A2) as [HB1 XB1].
  destruct (forall2_sorted D ps ps1 S F) as (F1 & L1 & _).
  destruct (opush_species_ok rsqrt SUB K D pmls OK _ _ mE1 mB1 HE1 HB1 sps ps1 (reset_currents D mJ) ltac:(lia) F1) as (mJ1 & ps2 & A4 & P & _).
  destruct (ocurrents_exist K D pmls OK rank mJ1) as [mJ2 A5].
  assert (forall st, In st ps2 -> length st = npatches2 D) as M.
  { intros st I. clear - P I. induction P as [|ss st' l l' [H _] P IH]; [destruct I|]. destruct I as [<-|I]; [exact H|exact (IH I)]. }
  destruct (forall2_exists _ (sync_particles_open K D rank) ps2) as [ps3 A6]; [intros st I; apply (oparticles_exist K D pmls OK); auto|].
  destruct (up_Bo eps K D pmls mE1 mB1 pB1) as [mBi pB2] eqn:U3.
  destruct (run_lasers eps K D pmls nproc rank time mE1 mJ2 lasers offs mBi) as [offs' mBl] eqn:UL.
  destruct (oguards_exist K D pmls OK rank mBl) as [mB2 A7].
  destruct (up_Eo eps K D pmls mB2 mJ2 mE1 pE1) as [mEi pE2] eqn:U4.
  destruct (oguards_exist K D pmls OK rank mEi) as [mE2 A8].
  exists (mkStateL (mkStateO mE2 mB2 mJ2 pE2 pB2 ps3) offs'). econstructor; eassumption.
Qed.
Lemma lsteps_exist (rank : nat -> nat) (time : nat -> Q) k : forall s, open_ready D sps (l_o s) -> open_consistent D pmls (l_o s) -> exists s', stepsl rsqrt eps K D pmls lasers nproc sps k s s'.
Proof using SUB OK Fit.
  induction k as [|k IH]; intros s R C; [exists s; constructor|].
  destruct (lstep_exists rank (time k) s R C _ (sorted_refl _)) as (s1 & S1). destruct (ldefect_step rank (time k) s s1 R C S1) as (gone & _ & _ & _ & _ & _ & R1 & C1).
  destruct (IH s1 R1 C1) as (s2 & S2). exists s2. econstructor; eassumption.
Qed.
End Steps.
