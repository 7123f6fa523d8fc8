(** C118, C119: lasers over whole runs of a simulation with open sides (2D): Gauss' law is kept, div B in the plane of the laser is not. *)
From Coq Require Import QArith Qabs Qround Qcanon Permutation Lqa.
From Verif Require Import Base M_Layout M_PartSync S_PartSync M_FieldSync S_FieldSync M_Maxwell S_Maxwell M_Cpml S_Cpml M_Deposit S_Deposit M_Push M_Laser S_Laser M_Step S_Step M_StepO S_StepO M_StepL S_Gauss S_GaussO P_FieldSync P_FieldSync4 P_FieldSync5 P_FieldGeo P_Maxwell3 P_Cpml2 P_Cpml3 P_Cpml4 P_Laser P_Laser4 P_Step1 P_Step2 P_Step3 P_Step4 P_Step5 P_Step6 P_Gauss1 P_Gauss2 P_StepO1 P_StepO3 P_StepO4 P_StepO5 P_GaussO1 P_GaussO2 P_GaussO3 P_StepL P_StepL2 Properties_Cpml Properties_Laser Properties_Step Properties_Gauss Properties_StepO Properties_GaussO.
Local Open Scope list_scope.
Local Open Scope Z_scope.

Section S.
Variable rsqrt : Q -> Q.
Hypothesis SUB : subluminal rsqrt.
Variable eps : Qc.
Variable K : layer Qc.

(** ** any number of lasers, whatever their pulses, leaves Gauss' law alone: two cells or more away from the layers the violation
    of the law is, after any number of whole steps, what it was at the start *)
Theorem C118_gauss : forall D pmls lasers nproc sps k s s' i j, open_ok K D pmls -> thick K + 2 <= d_nx D -> open_ready D sps (l_o s) -> open_consistent D pmls (l_o s) -> off_layers (thick K) D i j ->
  stepsl rsqrt eps K D pmls lasers nproc sps k s s' -> defect_o eps D sps (l_o s') i j = defect_o eps D sps (l_o s) i j.
Proof. intros D pmls lasers nproc sps k s s' i j OK Fit R C O T. exact (proj1 (ldefect_steps rsqrt SUB eps K D pmls OK Fit lasers nproc sps k s s' R C T) i j O). Qed.

(** ** the electric field the particles feel in the next step and the stored charge density *)
Theorem C118_field_felt : forall D pmls lasers nproc sps k s s' rank m psi mE i j, open_ok K D pmls -> thick K + 2 <= d_nx D -> open_ready D sps (l_o s) -> open_consistent D pmls (l_o s) -> off_layers (thick K) D i j -> (0 < k)%nat ->
  stepsl rsqrt eps K D pmls lasers nproc sps k s s' ->
  up_Eo eps K D pmls (o_B (l_o s')) (o_J (l_o s')) (o_E (l_o s')) (o_pE (l_o s')) = (m, psi) -> sync_guards D rank m mE ->
  gauss eps D mE (fun i j => on_domain D (o_J (l_o s')) 3 [i; j]) i j = defect_o eps D sps (l_o s) i j.
Proof.
  intros D pmls lasers nproc sps k s s' rank m psi mE i j OK Fit R C O P T U A. destruct (ldefect_steps rsqrt SUB eps K D pmls OK Fit lasers nproc sps k s s' R C T) as (E1 & _ & E2 & _ & C').
  rewrite <- (E1 i j O), <- (opushing_field eps K D pmls OK sps rank (l_o s') m psi mE i j C' (proj1 (off_beside K D pmls OK i j O)) U A). unfold gauss. rewrite (E2 P i j O). reflexivity.
Qed.

(** ** to the right of the plane of the lasers the magnetic field keeps its divergence *)
Theorem C118_div_b : forall D pmls lasers nproc sps k s s' i j, open_ok K D pmls -> thick K + 2 <= d_nx D -> open_ready D sps (l_o s) -> open_consistent D pmls (l_o s) ->
  (ax_lo (d_ax D) = Pml -> thick K + 2 <= i < cells_x D - thick K - 2) -> (ax_lo (d_ay D) = Pml -> thick K <= j < cells_y D - thick K - 2) ->
  stepsl rsqrt eps K D pmls lasers nproc sps k s s' ->
  divB2 (qc_arith eps) (on_domain D (o_B (l_o s'))) (Q2Qc (d_dx D)) (Q2Qc (d_dy D)) i j = divB2 (qc_arith eps) (on_domain D (o_B (l_o s))) (Q2Qc (d_dx D)) (Q2Qc (d_dy D)) i j.
Proof. intros D pmls lasers nproc sps k s s' i j OK Fit R C H1 H2 T. exact (proj1 (proj2 (ldefect_steps rsqrt SUB eps K D pmls OK Fit lasers nproc sps k s s' R C T)) i j (conj H1 H2)). Qed.

(** ** nearer to the layers: what a step adds to the violation is exactly the charge of the particles it takes out *)
Theorem C118_absorbed_charge : forall D pmls lasers nproc sps rank time s s', open_ok K D pmls -> thick K + 2 <= d_nx D -> open_ready D sps (l_o s) -> open_consistent D pmls (l_o s) ->
  stepl rsqrt eps K D pmls lasers nproc sps rank time s s' -> exists gone, absorbed (thick K) D (l_o s) (l_o s') gone /\
  (forall i j, beside_layers (thick K) D i j -> defect_o eps D sps (l_o s') i j = (defect_o eps D sps (l_o s) i j + charge_rows D sps gone i j / eps)%Qc) /\
  (forall i j, 0 <= i < cells_x D -> 0 <= j < cells_y D -> on_domain D (o_J (l_o s')) 3 [i; j] = (charge_o D sps (o_parts (l_o s')) i j + charge_rows D sps gone i j)%Qc).
Proof.
  intros D pmls lasers nproc sps rank time s s' OK Fit R C T. destruct (ldefect_step rsqrt SUB eps K D pmls OK Fit lasers nproc sps rank time s s' R C T) as (gone & A & E1 & _ & _ & E2 & _). exists gone. split; [exact A|]. split; [exact E1|].
  intros i j Hi Hj. apply E2; intro; assumption.
Qed.

(** ** every step can be carried out, for any number of processes and at any time *)
Theorem C118_runs_exist : forall D pmls lasers nproc sps k s, open_ok K D pmls -> thick K + 2 <= d_nx D -> open_ready D sps (l_o s) -> open_consistent D pmls (l_o s) ->
  exists s', stepsl rsqrt eps K D pmls lasers nproc sps k s s'.
Proof. intros D pmls lasers nproc sps k s OK Fit R C. exact (lsteps_exist rsqrt SUB eps K D pmls OK Fit lasers nproc sps (fun _ => 0%nat) (fun _ => 0%Q) k s R C). Qed.
(** ** the end of the lasers: a step after the end of all pulses switches every laser off on every process, and while all are off
    the run is one without lasers *)
Definition all_off (nproc : nat) (offs : list (nat -> bool)) : Prop := forall off r, In off offs -> (r < nproc)%nat -> off r = true.
Lemma stage_quiet (n : nat) rank (one : list nat -> bool -> memory Qc -> bool * memory Qc) : (forall mine m, one mine true m = (true, m)) ->
  forall nproc dis m, (forall mine r m, (r < nproc)%nat -> one mine (dis r) m = (true, m)) ->
  exists dis', stage nproc n rank one (dis, m) = (dis', m) /\ forall r, (r < nproc)%nat -> dis' r = true.
Proof.
  intros T nproc dis m A. unfold stage. assert (forall rs dis, (forall mine r m, In r rs -> one mine (dis r) m = (true, m)) ->
    exists dis', fold_left (fun st r => let '(dis, m) := st in let '(d, m') := one (filter (fun p => (rank p =? r)%nat) (seq 0 n)) (dis r) m in (fun k => if (k =? r)%nat then d else dis k, m')) rs (dis, m) = (dis', m) /\
      forall r, In r rs \/ dis r = true -> dis' r = true) as X.
  { clear dis A. induction rs as [|r rs IH]; intros dis A.
    - exists dis. split; [reflexivity|]. intros r [[]|H]; exact H.
    - cbn [fold_left]. rewrite (A _ r m (or_introl eq_refl)). destruct (IH (fun k => if (k =? r)%nat then true else dis k)) as (dis' & E & F).
      + intros mine k m' I. destruct (k =? r)%nat; [apply T|apply A; right; exact I].
      + exists dis'. split; [exact E|]. intros k H. apply F. destruct (k =? r)%nat eqn:Ek; [right; reflexivity|]. destruct H as [[H|H]|H]; [|left; exact H|right; exact H].
        apply Nat.eqb_neq in Ek. congruence. }
  destruct (X (seq 0 nproc) dis) as (dis' & E & F); [intros mine r m' I; apply A; apply in_seq in I; lia|].
  exists dis'. split; [exact E|]. intros r H. apply F. left. apply in_seq. lia.
Qed.
Lemma run_quiet D pmls nproc rank time mE mJ : forall ls offs m, all_off nproc offs \/ length offs = length ls /\ (forall l, In l ls -> ~ running time l) ->
  exists offs', run_lasers eps K D pmls nproc rank time mE mJ ls offs m = (offs', m) /\ all_off nproc offs' /\ length offs' = length offs.
Proof.
  induction ls as [|l ls IH]; intros offs m H.
  - exists offs. split; [destruct offs; reflexivity|]. split; [|reflexivity]. destruct H as [H|[H _]]; [exact H|]. destruct offs; [|discriminate]. intros ? ? [].
  - destruct offs as [|off offs]; [exists []; split; [reflexivity|]; split; [intros ? ? []|reflexivity]|]. cbn [run_lasers].
    unfold laser_stage_2d. match goal with |- context [stage nproc ?n rank ?one (off, m)] => destruct (stage_quiet n rank one ltac:(intros; reflexivity) nproc off m) as (d & E & F) end.
    + intros mine r m' Hr. unfold laser_call_2d, call. destruct H as [H|[_ H]].
      * rewrite (H off r (or_introl eq_refl) Hr). reflexivity.
      * destruct (off r); [reflexivity|]. destruct (Qle_bool (tstop_of l) (LIGHT_SPEED * time)) eqn:Q; [reflexivity|].
        destruct (H l (or_introl eq_refl)). apply P_Laser2.running_stop. exact Q.
    + rewrite E. destruct (IH offs m) as (offs1 & E1 & F1 & L1).
      { destruct H as [H|[H1 H2]]; [left; intros o r I; apply H; right; exact I|right]. split; [cbn [length] in H1; lia|]. intros l' I. apply H2. right. exact I. }
      rewrite E1. exists (d :: offs1). split; [reflexivity|]. split; [|cbn [length]; lia]. intros o r [<- |I] Hr; [exact (F r Hr)|exact (F1 o r I Hr)].
Qed.
Lemma step_quiet D pmls lasers nproc sps rank time s s' : all_off nproc (l_off s) \/ length (l_off s) = length lasers /\ (forall l, In l lasers -> ~ running time l) ->
  stepl rsqrt eps K D pmls lasers nproc sps rank time s s' -> stepo rsqrt eps K D pmls sps rank (l_o s) (l_o s') /\ all_off nproc (l_off s').
Proof.
  intros H T. destruct T as [mE mB mJ pE pB ps offs mE0 pE1 mE1 mB0 pB1 mB1 ps1 mJ1 ps2 mJ2 ps3 mB1' pB2 offs' mBl mB2 mE1' pE2 mE2 A1 A2 A3 A4 A5 A6 A7 A8 A9 R A10 A11 A12]. cbn [l_off l_o] in *.
  destruct (run_quiet D pmls nproc rank time mE1 mJ2 lasers offs mB1' H) as (o & E & F & _). rewrite E in R. injection R as <- <-. split; [|exact F]. econstructor; eassumption.
Qed.
Theorem C118_over : forall D pmls lasers nproc sps rank time s s', length (l_off s) = length lasers -> (forall l, In l lasers -> ~ running time l) ->
  stepl rsqrt eps K D pmls lasers nproc sps rank time s s' -> stepo rsqrt eps K D pmls sps rank (l_o s) (l_o s') /\ all_off nproc (l_off s').
Proof. intros D pmls lasers nproc sps rank time s s' L H. apply step_quiet. right. split; assumption. Qed.
Theorem C118_afterwards : forall D pmls lasers nproc sps k s s', all_off nproc (l_off s) ->
  stepsl rsqrt eps K D pmls lasers nproc sps k s s' -> stepso rsqrt eps K D pmls sps k (l_o s) (l_o s') /\ all_off nproc (l_off s').
Proof.
  intros D pmls lasers nproc sps k s s' H T. induction T as [s|k rank time s s1 s2 T TS IH]; [split; [constructor|exact H]|].
  destruct (step_quiet D pmls lasers nproc sps rank time s s1 (or_introl H) T) as [A B]. destruct (IH B) as [A' B']. split; [econstructor; eassumption|exact B'].
Qed.
End S.

(** ** a case: the two pairs of C110 with a laser whose field grows across the beam *)
Definition slope : laser (V := Qc) := Pulse 1 None None (fun _ y _ => (Q2Qc 0, Q2Qc y)).
Example C118_case : forall eps k, exists s', stepsl ex_rsqrt eps (QK 2) (exo_dom 2) (exo_pml 2) [slope; slope] 1 pair_species k (mkStateL exo_pairs [fun _ => false; fun _ => true]) s' /\
  forall i j, 4 <= i < 12 -> defect_o eps (exo_dom 2) pair_species (l_o s') i j = defect_o eps (exo_dom 2) pair_species exo_pairs i j.
Proof.
  intros eps k. pose proof (exo_ok 2 (or_introl eq_refl)) as O1. pose proof exo_ready as R1. pose proof (exo_consistent (exo_dom 2) (exo_pml 2) (o_parts exo_pairs)) as C1.
  assert (F : thick (QK 2) + 2 <= d_nx (exo_dom 2)) by (cbn; lia).
  destruct (C118_runs_exist ex_rsqrt ex_sub eps (QK 2) _ _ [slope; slope] 1 pair_species k (mkStateL exo_pairs [fun _ => false; fun _ => true]) O1 F R1 C1) as (s' & T). exists s'. split; [exact T|]. intros i j Hi.
  apply (C118_gauss ex_rsqrt ex_sub eps (QK 2) (exo_dom 2) (exo_pml 2) [slope; slope] 1 pair_species k (mkStateL exo_pairs [fun _ => false; fun _ => true]) s' i j O1 F R1 C1); [|exact T].
  split; [intros _; cbn; lia|discriminate].
Qed.

(** ** the plane of the laser itself: the injection of Bx and By does not respect div B = 0 *)
Section Zero.
Variable eps : Qc. Variable K : layer Qc.
Local Notation A := (qc_arith eps).
Local Notation O := (fun _ _ => Q2Qc 0).
Lemma gget_zero pl f g : P_Cpml2.gget (Q2Qc 0) pl O f g = Q2Qc 0.
Proof. unfold P_Cpml2.gget. destruct (pl g); reflexivity. Qed.
Lemma layers_zero ds e dt op Ns pl f g l : forall x, x = Q2Qc 0 ->
  fold_left (fun v s => P_Cpml2.ggain A K e dt op Ns s f g (P_Cpml2.gpsi (Q2Qc 0) A K ds 2 e dt op Ns pl O s f g (Q2Qc 0)) v) l x = Q2Qc 0.
Proof.
  induction l as [|s l IH]; intros x ->; [reflexivity|]. cbn [fold_left]. apply IH. clear IH l.
  assert (P_Cpml2.gpsi (Q2Qc 0) A K ds 2 e dt op Ns pl O s f g (Q2Qc 0) = Q2Qc 0) as ->.
  { unfold P_Cpml2.gpsi. destruct (P_Cpml2.gact _ _ _ _ _ _); [|reflexivity]. destruct (psi_of _ _ _) as [[o b]|]; [|reflexivity]. unfold P_Cpml2.gdiff. rewrite !gget_zero. destruct e; cbn [plus_ times_ minus_ qc_arith]; change (Q2Qc 0) with 0%Qc; ring. }
  unfold P_Cpml2.ggain, P_Cpml.gn. destruct (P_Cpml2.gact _ _ _ _ _ _); [|reflexivity]. destruct (psi_of _ _ _) as [[o [|]]|]; [| |reflexivity]; cbn [plus_ times_ minus_ qc_arith]; change (Q2Qc 0) with 0%Qc; ring.
Qed.
Lemma oE_zero D f g : oE eps K D O O O (fun _ _ _ => Q2Qc 0) f g = Q2Qc 0.
Proof.
  unfold oE, P_Cpml2.gfield. apply layers_zero. unfold KE2. destruct f as [|[|f]]; rewrite !gget_zero; cbn [plus_ times_ minus_ minus1_ over_ qc_arith]; unfold Qcdiv; change (Q2Qc 0) with 0%Qc; ring.
Qed.
Lemma oB_zero D f g : oB eps K D O O (fun _ _ _ => Q2Qc 0) f g = Q2Qc 0.
Proof.
  unfold oB, P_Cpml2.gfield. apply layers_zero. unfold KB2. destruct f as [|[|f]]; rewrite !gget_zero; cbn [plus_ times_ minus_ minus1_ over_ qc_arith]; unfold Qcdiv; change (Q2Qc 0) with 0%Qc; ring.
Qed.
Lemma oPB_zero D s f g : oPB eps K D O (fun _ _ _ => Q2Qc 0) s f g = Q2Qc 0.
Proof.
  unfold oPB, P_Cpml2.gaux, P_Cpml2.gpsi. destruct (P_Cpml2.gact _ _ _ _ _ _); [|reflexivity]. destruct (psi_of _ _ _) as [[o b]|]; [|reflexivity]. unfold P_Cpml2.gdiff. rewrite !gget_zero. cbn [plus_ times_ minus_ qc_arith]; change (Q2Qc 0) with 0%Qc; ring.
Qed.
Lemma is_zero D F m : (forall f g, F f g = Q2Qc 0) -> field_is D F m -> field_is D O m.
Proof. intros Z H f p c Hf Hp Hc. rewrite (H f p c Hf Hp Hc). unfold shown. destruct (place _ _ _ _); [apply Z|reflexivity]. Qed.
Lemma shown_zero D m f p c : field_is D O m -> (f < 3)%nat -> (p < npatches2 D)%nat -> within (d_ng D) [d_nx D; d_ny D] c -> m (cell [d_nx D; d_ny D] (d_ng D) f p c) = Q2Qc 0.
Proof. intros H Hf Hp Hc. rewrite (H f p c Hf Hp Hc). unfold shown. destruct (place _ _ _ _); reflexivity. Qed.
Lemma by_zero cl dx dy dt w : by_at A K cl dx dy dt w 0%Qc 0%Qc 0%Qc 0%Qc 0%Qc 0%Qc 0%Qc 0%Qc = (one_ K / ((cl * dt / dx + one_ K) * cl) * (- ofZ_ K 4 * w))%Qc.
Proof. unfold by_at. cbn [plus_ times_ minus_ minus1_ over_ qc_arith]. unfold Qcdiv. ring. Qed.
End Zero.
Definition nothing : statel := mkStateL (mkStateO (fun _ => Q2Qc 0) (fun _ => Q2Qc 0) (fun _ => Q2Qc 0) (fun _ _ => Q2Qc 0) (fun _ _ => Q2Qc 0) []) [fun _ => false].
Lemma first_half eps rank mE0 pE1 mE1 mB0 pB1 mB1 mBi pB2 mBs : let D := exo_dom 2 in let K := QK 2 in let P := exo_pml 2 in let o := fun _ : addr => Q2Qc 0 in let q := fun (_ : pml_side) (_ : addr) => Q2Qc 0 in
  up_Eo eps K D P o o o q = (mE0, pE1) -> sync_guards D rank mE0 mE1 -> up_Bo eps K D P mE1 o q = (mB0, pB1) -> sync_guards D rank mB0 mB1 ->
  up_Bo eps K D P mE1 mB1 pB1 = (mBi, pB2) -> sync_guards D rank mBi mBs ->
  field_is D (fun _ _ => Q2Qc 0) mE1 /\ field_is D (fun _ _ => Q2Qc 0) mB1 /\ field_is D (fun _ _ => Q2Qc 0) mBs.
Proof.
  intros D K P o q U1 A1 U2 A2 U3 A3. pose proof (exo_ok 2 (or_introl eq_refl)) as OK. fold D K P in OK.
  assert (X : aux_are D P (fun _ _ _ => Q2Qc 0) q) by (intros s f p i j _ _ _ _ _; reflexivity).
  destruct (up_Eo_ok eps K D P OK rank _ _ _ _ o o o q mE0 pE1 mE1 (ex_field D) (ex_field D) (ex_cur D) X U1 A1) as [HE1 _].
  apply (is_zero D _ mE1 (oE_zero eps K D)) in HE1.
  destruct (up_Bo_ok eps K D P OK rank _ _ _ mE1 o q mB0 pB1 mB1 (ex_field D) HE1 X U2 A2) as [HB1 XB1]. apply (is_zero D _ mB1 (oB_zero eps K D)) in HB1.
  assert (XB1' : aux_are D P (fun _ _ _ => Q2Qc 0) pB1) by (intros s f p i j Hf Hp Hi Hj Hs; rewrite (XB1 s f p i j Hf Hp Hi Hj Hs); apply oPB_zero).
  destruct (up_Bo_ok eps K D P OK rank _ _ _ mE1 mB1 pB1 mBi pB2 mBs HB1 HE1 XB1' U3 A3) as [HBs _]. apply (is_zero D _ mBs (oB_zero eps K D)) in HBs. auto.
Qed.
(** a cell that no neighbour provides keeps its value in the exchange *)
Lemma before_sync rank m m0 f p c : let D := exo_dom 2 in sync_guards D rank m m0 -> (f < 3)%nat -> (p < 2)%nat -> within 3 [8; 8] c ->
  facing bounds2 (nbr2 (d_ax D) (d_ay D)) p (sides_of [8; 8] c) = None -> m (cell [8; 8] 3 f p c) = m0 (cell [8; 8] 3 f p c).
Proof.
  intros D S Hf Hp Hc H. apply (oguards (QK 2) D (exo_pml 2) (exo_ok 2 (or_introl eq_refl))) in S. destruct S as [S _].
  pose proof (S f p c Hf Hp Hc) as E. unfold guard_result in E. change [d_nx D; d_ny D] with [8; 8] in E. change (d_ng D) with 3 in E. rewrite H in E. symmetry. exact E.
Qed.
Theorem C119_plane_refuted : exists rsqrt D K pmls lasers s, subluminal rsqrt /\ open_ok K D pmls /\ thick K + 2 <= d_nx D /\ open_ready D [] (l_o s) /\ open_consistent D pmls (l_o s) /\
  forall eps, exists s' i j, stepsl rsqrt eps K D pmls lasers 1 [] 1 s s' /\ thick K <= i < cells_x D - thick K - 2 /\
  divB2 (qc_arith eps) (on_domain D (o_B (l_o s))) (Q2Qc (d_dx D)) (Q2Qc (d_dy D)) i j = Q2Qc 0 /\ divB2 (qc_arith eps) (on_domain D (o_B (l_o s'))) (Q2Qc (d_dx D)) (Q2Qc (d_dy D)) i j <> Q2Qc 0.
Proof.
  exists ex_rsqrt, (exo_dom 2), (QK 2), (exo_pml 2), [slope], nothing. pose proof (exo_ok 2 (or_introl eq_refl)) as OK.
  pose proof (exo_consistent (exo_dom 2) (exo_pml 2) []) as C. change (open_consistent (exo_dom 2) (exo_pml 2) (l_o nothing)) in C.
  assert (R : open_ready (exo_dom 2) [] (l_o nothing)) by (split; [reflexivity|constructor]).
  assert (F : thick (QK 2) + 2 <= d_nx (exo_dom 2)) by (cbn; lia).
  split; [exact ex_sub|]. split; [exact OK|]. split; [exact F|]. split; [exact R|]. split; [exact C|]. intro eps.
  destruct (lstep_exists ex_rsqrt ex_sub eps (QK 2) (exo_dom 2) (exo_pml 2) OK F [slope] 1 [] (fun _ => 0%nat) 0 nothing R C [] (Forall2_nil _)) as (s' & T).
  exists s', 3, 1. split; [econstructor; [exact T|constructor]|]. split; [cbn; lia|]. split; [unfold divB2, on_domain; cbn [l_o nothing o_B plus_ minus_ over_ qc_arith]; unfold Qcdiv; change (Q2Qc 0) with 0%Qc; ring|].
  unfold nothing in T. inversion T as [mE mB mJ pE pB ps offs mE0 pE1 mE1 mB0 pB1 mB1 ps1 mJ1 ps2 mJ2 ps3 mBi pB2 offs' mBl mB2 mEi pE2 mE2 U1 A1 U2 A2 A3 A4 A5 A6 U3 UL A7 U4 A8]; subst. clear T R C. cbn [l_o o_B].
  destruct (oguards_exist (QK 2) (exo_dom 2) (exo_pml 2) OK (fun _ => 0%nat) mBi) as [mBs As].
  destruct (first_half eps (fun _ => 0%nat) mE0 pE1 mE1 mB0 pB1 mB1 mBi pB2 mBs U1 A1 U2 A2 U3 As) as (HE1 & HB1 & HBs).
  inversion A3; subst ps1. cbn [push_species] in A4. injection A4 as <- <-. clear A3.
  destruct (ohalf_step ex_rsqrt ex_sub (QK 2) (exo_dom 2) (exo_pml 2) OK [] (fun _ => 0%nat) _ _ mE1 mB1 (fun _ => Q2Qc 0) [] _ [] mJ2 ps3 HE1 HB1 eq_refl (Forall_nil _) eq_refl A5 A6) as (HJ & _).
  assert (J0 : mJ2 (cell [8; 8] 3 2 0 [4; 1]) = 0%Qc /\ mJ2 (cell [8; 8] 3 2 0 [4; 2]) = 0%Qc).
  { split; (rewrite (HJ 2%nat 0%nat) by (try (vm_compute; lia); repeat constructor; vm_compute; congruence)); apply Qc_is_canon; vm_compute; reflexivity. }
  assert (E0 : forall i j, -3 <= i < 11 -> -3 <= j < 11 -> mE1 (cell [8; 8] 3 2 0 [i; j]) = 0%Qc).
  { intros i j Hi Hj. apply (shown_zero (exo_dom 2) mE1 2 0 [i; j] HE1); try (vm_compute; lia). cbn [exo_dom d_ng d_nx d_ny]. change (16 / 2) with 8. repeat constructor; lia. }
  assert (B0 : forall f i j, (f < 3)%nat -> -1 <= i < 8 -> 0 <= j < 8 -> mBi (cell [8; 8] 3 f 0 [i; j]) = 0%Qc).
  { intros f i j Hf Hi Hj. assert (W : within 3 [8; 8] [i; j]) by (repeat constructor; lia).
    rewrite (before_sync (fun _ => 0%nat) mBi mBs f 0 [i; j] As Hf ltac:(lia) W).
    - apply (shown_zero (exo_dom 2) mBs f 0 [i; j] HBs Hf ltac:(vm_compute; lia) W).
    - destruct (Z.eq_dec i (-1)) as [->|N].
      + assert (sides_of [8; 8] [-1; j] = [-1; 0]) as -> by (cbn; destruct (Z.ltb_spec j 0), (Z.ltb_spec j 8); try lia; reflexivity). vm_compute. reflexivity.
      + apply (facing_interior [8; 8] 3 bounds2 opp2 (geometry2 8 8 3 ltac:(lia) ltac:(lia) ltac:(lia))). repeat constructor; lia. }
  cbn [run_lasers] in UL.
  match type of UL with context [laser_stage_2d ?a0 ?a1 ?a2 ?a3 ?a4 ?a5 ?a6 ?a7 ?a8 ?a9 ?b0 ?b1 ?b2 ?b3 ?b4 ?b5 ?b6 ?b7 ?b8 (?off, mBi)] =>
    pose proof (stage2_left a0 a1 a2 (Q2Qc 0) a3 a4 a5 a6 a7 a8 a9 b0 b1 b2 b3 b4 b5 b6 b7 b8) as X; set (RR := laser_stage_2d a0 a1 a2 a3 a4 a5 a6 a7 a8 a9 b0 b1 b2 b3 b4 b5 b6 b7 b8 (off, mBi)) in * end.
  assert (Mo : monoid (Q2Qc 0) (plus_ (qc_arith eps))) by (split; [exact Qcplus_0_r|split; [exact Qcplus_comm|exact Qcplus_assoc]]).
  assert (Ru : running 0 slope) by (eexists; split; [left; reflexivity|vm_compute; reflexivity]).
  specialize (X (oo_p _ _ _ OK) (oo_l _ _ _ OK) ltac:(cbn; lia) ltac:(vm_compute; congruence) ltac:(vm_compute; congruence) ltac:(cbn; lia) ltac:(vm_compute; reflexivity) eq_refl Ru ltac:(repeat constructor) Mo
    (fun _ => false) mBi 0%nat ltac:(vm_compute; lia) (le_n 1) eq_refl eq_refl). cbv zeta in X. change (laser_stage_2d _ _ _ _ _ _ _ _ _ _ _ _ _ _ _ _ _ _ _ _) with RR in X.
  cbn [exo_dom d_ax d_ay d_nx d_ny d_ng d_dx d_dy d_dt] in X. change (16 / 2) with 8 in X. change (thick (QK 2) + 2 - 1) with 3 in X. change (thick (QK 2) + 2) with 4 in X. destruct X as (X0 & _ & X1 & _).
  assert (Row : forall j, 0 <= j < 8 -> row_in (QK 2) 8 (exo_pml 2) 0 j) by (intros j Hj; split; [exact Hj|]; split; intros [I|[]]; discriminate I).
  assert (ML : mBl = snd RR) by (clearbody RR; destruct RR as [off1 m1]; injection UL as _ <-; reflexivity). rewrite <- ML in X0, X1.
  assert (V0 : mBl (cell [8; 8] 3 0 0 [3; 1]) = 0%Qc) by (rewrite X0 by (apply Row; lia); apply B0; lia).
  assert (V1 : forall j, j = 1 \/ j = 2 -> mBl (cell [8; 8] 3 1 0 [3; j]) = (1 / ((Q2Qc LIGHT_SPEED * Q2Qc (1 # 599584916) / Q2Qc 1 + 1) * Q2Qc LIGHT_SPEED) *
      (- Q2Qc 4 * want_z2 (qc_arith eps) (Q2Qc 0) (mkAxis 2 Pml Pml) (mkAxis 1 Periodic Periodic) 8 1 slope 0 0 j))%Qc).
  { intros j Hj. rewrite X1 by (apply Row; lia). rewrite !E0, !B0 by lia. assert (mJ2 (cell [8; 8] 3 2 0 [4; j]) = 0%Qc) as -> by (destruct Hj as [-> | ->]; apply J0). rewrite by_zero. reflexivity. }
  assert (V2 : mBl (cell [8; 8] 3 0 0 [4; 1]) = 0%Qc).
  { pose proof (stage_off eps (QK 2) (exo_dom 2) (exo_pml 2) OK F 1 (fun _ => 0%nat) slope 0 (Q2Qc (d_dt (exo_dom 2))) mE1 mJ2 (fun _ => false, mBi) (cell [8; 8] 3 0 0 [4; 1])) as S.
    change (laser_stage_2d _ _ _ _ _ _ _ _ _ _ _ _ _ _ _ _ _ _ _ _) with RR in S. rewrite <- ML in S. rewrite S; [cbn [snd]; apply B0; lia|].
    intros f p j Hf Hp _ Hj E. apply (P_Laser.ce_inj 8 8 3 ltac:(lia) ltac:(lia) ltac:(lia)) in E; cbn [thick QK] in *; try lia. change (d_ny (exo_dom 2)) with 8 in Hj. lia. }
  unfold divB2. rewrite !(read_synced (QK 2) (exo_dom 2) (exo_pml 2) OK (fun _ => 0%nat) mBl mB2) by (auto; lia).
  unfold on_domain. change (stored (exo_dom 2) 0 (3 + 1) 1) with (cell [8; 8] 3 0 0 [4; 1]). change (stored (exo_dom 2) 0 3 1) with (cell [8; 8] 3 0 0 [3; 1]).
  change (stored (exo_dom 2) 1 3 (1 + 1)) with (cell [8; 8] 3 1 0 [3; 2]). change (stored (exo_dom 2) 1 3 1) with (cell [8; 8] 3 1 0 [3; 1]).
  rewrite V0, V2, !V1 by auto. clear. intro E. apply (f_equal this) in E. vm_compute in E. discriminate.
Qed.

Print Assumptions C118_gauss.
Print Assumptions C118_field_felt.
Print Assumptions C118_div_b.
Print Assumptions C118_absorbed_charge.
Print Assumptions C118_runs_exist.
Print Assumptions C118_over.
Print Assumptions C118_afterwards.
Print Assumptions C118_case.
Print Assumptions C119_plane_refuted.
