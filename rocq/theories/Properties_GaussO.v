(** C110, C111: Gauss' law and div B over whole runs of a simulation with open sides (2D). *)
From Coq Require Import QArith Qabs Qround Qcanon Permutation Lqa.
From Verif Require Import Base M_Layout M_PartSync S_PartSync M_FieldSync S_FieldSync M_Maxwell S_Maxwell M_Cpml M_Deposit S_Deposit M_Push M_Step S_Step M_StepO S_StepO S_Gauss S_GaussO P_Deposit P_Step1 P_Step2 P_Step3 P_Step4 P_Step5 P_Step6 P_Gauss1 P_Gauss2 P_StepO1 P_StepO3 P_StepO4 P_StepO5 P_GaussO1 P_GaussO2 P_GaussO3 P_GaussO4 Properties_Cpml Properties_Laser Properties_Step Properties_Gauss Properties_StepO.
Local Open Scope list_scope.
Local Open Scope Z_scope.

Section S.
Variable rsqrt : Q -> Q.
Hypothesis SUB : subluminal rsqrt.
Variable eps : Qc.
Variable K : layer Qc.

(** ** two cells or more away from the layers the violation of Gauss' law is, after any number of whole steps, what it was at
    the start, whatever left the domain *)
Theorem C110_gauss : forall D pmls sps k s s' i j, open_ok K D pmls -> open_ready D sps s -> open_consistent D pmls s -> off_layers (thick K) D i j ->
  stepso rsqrt eps K D pmls sps k s s' -> defect_o eps D sps s' i j = defect_o eps D sps s i j.
Proof. intros D pmls sps k s s' i j OK R C O T. exact (proj1 (odefect_steps rsqrt SUB eps K D pmls OK sps k s s' R C T) i j O). Qed.

(** ** the charge density a step leaves in the arrays is that of the particles half a time step ahead *)
Theorem C110_stored_charge : forall D pmls sps k s s' i j, open_ok K D pmls -> open_ready D sps s -> open_consistent D pmls s -> off_layers (thick K) D i j -> (0 < k)%nat ->
  stepso rsqrt eps K D pmls sps k s s' -> on_domain D (o_J s') 3 [i; j] = charge_o D sps (o_parts s') i j.
Proof. intros D pmls sps k s s' i j OK R C O P T. exact (proj1 (proj2 (proj2 (odefect_steps rsqrt SUB eps K D pmls OK sps k s s' R C T))) P i j O). Qed.

(** ** the electric field the particles feel in the next step and the stored charge density: div E - rho/eps0 never changes *)
Theorem C110_field_felt : forall D pmls sps k s s' rank m psi mE i j, open_ok K D pmls -> open_ready D sps s -> open_consistent D pmls s -> off_layers (thick K) D i j -> (0 < k)%nat ->
  stepso rsqrt eps K D pmls sps k s s' -> up_Eo eps K D pmls (o_B s') (o_J s') (o_E s') (o_pE s') = (m, psi) -> sync_guards D rank m mE ->
  gauss eps D mE (fun i j => on_domain D (o_J s') 3 [i; j]) i j = defect_o eps D sps s i j.
Proof.
  intros D pmls sps k s s' rank m psi mE i j OK R C O P T U A. destruct (odefect_steps rsqrt SUB eps K D pmls OK sps k s s' R C T) as (E1 & _ & E2 & _ & C').
  rewrite <- (E1 i j O), <- (opushing_field eps K D pmls OK sps rank s' m psi mE i j C' (proj1 (off_beside K D pmls OK i j O)) U A). unfold gauss. rewrite (E2 P i j O). reflexivity.
Qed.

(** ** the magnetic field keeps its divergence outside the layers *)
Theorem C110_div_b : forall D pmls sps k s s' i j, open_ok K D pmls -> open_ready D sps s -> open_consistent D pmls s ->
  (ax_lo (d_ax D) = Pml -> thick K <= i < cells_x D - thick K - 2) -> (ax_lo (d_ay D) = Pml -> thick K <= j < cells_y D - thick K - 2) ->
  stepso rsqrt eps K D pmls sps k s s' ->
  divB2 (qc_arith eps) (on_domain D (o_B s')) (Q2Qc (d_dx D)) (Q2Qc (d_dy D)) i j = divB2 (qc_arith eps) (on_domain D (o_B s)) (Q2Qc (d_dx D)) (Q2Qc (d_dy D)) i j.
Proof. intros D pmls sps k s s' i j OK R C H1 H2 T. exact (proj1 (proj2 (odefect_steps rsqrt SUB eps K D pmls OK sps k s s' R C T)) i j (conj H1 H2)). Qed.

(** ** a start without charges, currents and electric field obeys Gauss' law for ever, two cells away from the layers *)
Theorem C110_neutral_start : forall D pmls sps k s s' rank m psi mE i j, open_ok K D pmls -> open_ready D sps s -> open_consistent D pmls s -> off_layers (thick K) D i j -> (0 < k)%nat ->
  charge_o D sps (o_parts s) i j = Q2Qc 0 -> (forall a, o_E s a = Q2Qc 0) -> (forall a, o_J s a = Q2Qc 0) ->
  stepso rsqrt eps K D pmls sps k s s' -> up_Eo eps K D pmls (o_B s') (o_J s') (o_E s') (o_pE s') = (m, psi) -> sync_guards D rank m mE ->
  divE2 (qc_arith eps) (on_domain D mE) (Q2Qc (d_dx D)) (Q2Qc (d_dy D)) i j = (on_domain D (o_J s') 3 [i; j] / eps)%Qc.
Proof.
  intros D pmls sps k s s' rank m psi mE i j OK R C O P H0 HE HJ T U A. pose proof (C110_field_felt D pmls sps k s s' rank m psi mE i j OK R C O P T U A) as E.
  assert (defect_o eps D sps s i j = 0)%Qc as Z.
  { unfold defect_o, gauss. rewrite H0. unfold divE2, on_domain. rewrite !HE, !HJ. cbn [plus_ minus_ over_ qc_arith]. unfold Qcdiv. change (Q2Qc 0) with 0%Qc. ring. }
  rewrite Z in E. unfold gauss in E. apply (f_equal (fun v => v + on_domain D (o_J s') 3 [i; j] / eps)%Qc) in E. rewrite Qcplus_0_l in E. rewrite <- E. ring.
Qed.

(** ** nearer to the layers: what a step adds to the violation is exactly the charge of the particles it takes out *)
Theorem C110_absorbed_charge : forall D pmls sps rank s s', open_ok K D pmls -> open_ready D sps s -> open_consistent D pmls s ->
  stepo rsqrt eps K D pmls sps rank s s' -> exists gone, absorbed (thick K) D s s' gone /\
  (forall i j, beside_layers (thick K) D i j -> defect_o eps D sps s' i j = (defect_o eps D sps s i j + charge_rows D sps gone i j / eps)%Qc) /\
  (forall i j, 0 <= i < cells_x D -> 0 <= j < cells_y D -> on_domain D (o_J s') 3 [i; j] = (charge_o D sps (o_parts s') i j + charge_rows D sps gone i j)%Qc).
Proof.
  intros D pmls sps rank s s' OK R C T. destruct (odefect_step rsqrt SUB eps K D pmls OK sps rank s s' R C T) as (gone & A & E1 & _ & _ & E2 & _). exists gone. split; [exact A|]. split; [exact E1|].
  intros i j Hi Hj. apply E2; intro; assumption.
Qed.
End S.

(** ** a case: two pairs of opposite charges created at one place, open along x; the pairs fly apart and one of them is absorbed
    in the upper layer *)
Definition exo_pairs : stateo :=
  mkStateO (fun _ => Q2Qc 0) (fun _ => Q2Qc 0) (fun _ => Q2Qc 0) (fun _ _ => Q2Qc 0) (fun _ _ => Q2Qc 0)
    [[[ex_part false (37#5) 3 1 7; ex_part true 0 0 0 0]; [ex_part false (67#5) 2 (5#4) 8]];
     [[]; [ex_part false (311#40) 3 (-1) 7; ex_part true 1 1 1 9; ex_part false (4303#320) 2 1 8]]].
Lemma exo_ready : open_ready (exo_dom 2) pair_species exo_pairs.
Proof.
  split; [reflexivity|]. cbn [o_parts exo_pairs]. constructor; [|constructor; [|constructor]]; (split; [reflexivity|]; intros p r Hp I; change (npatches2 (exo_dom 2)) with 2%nat in Hp; destruct p as [|[|p]]; [| |lia]; ex_in I).
Qed.
Lemma exo_consistent D pmls l : open_consistent D pmls (mkStateO (fun _ => Q2Qc 0) (fun _ => Q2Qc 0) (fun _ => Q2Qc 0) (fun _ _ => Q2Qc 0) (fun _ _ => Q2Qc 0) l).
Proof.
  assert (X : aux_are D pmls (fun _ _ _ => Q2Qc 0) (fun _ _ => Q2Qc 0)) by (intros s f p i j _ _ _ _ _; reflexivity).
  split; [eexists; apply ex_field|]. split; [eexists; apply ex_field|]. split; [eexists; apply ex_cur|]. split; eexists; apply X.
Qed.
Example C110_case : forall eps k, exists s', stepso ex_rsqrt eps (QK 2) (exo_dom 2) (exo_pml 2) pair_species (S k) exo_pairs s' /\
  forall rank m psi mE i j, 4 <= i < 12 -> up_Eo eps (QK 2) (exo_dom 2) (exo_pml 2) (o_B s') (o_J s') (o_E s') (o_pE s') = (m, psi) -> sync_guards (exo_dom 2) rank m mE ->
    divE2 (qc_arith eps) (on_domain (exo_dom 2) mE) (Q2Qc 1) (Q2Qc 1) i j = (on_domain (exo_dom 2) (o_J s') 3 [i; j] / eps)%Qc.
Proof.
  intros e k. pose proof (exo_ok 2 (or_introl eq_refl)) as O1. pose proof exo_ready as R1. pose proof (exo_consistent (exo_dom 2) (exo_pml 2) (o_parts exo_pairs)) as C1.
  destruct (C102_runs_exist ex_rsqrt ex_sub e (QK 2) _ _ _ (S k) exo_pairs O1 R1 C1) as (s' & T & _). exists s'. split; [exact T|]. intros rank m psi mE i j Hi U A.
  assert (off_layers (thick (QK 2)) (exo_dom 2) i j) as O by (split; [intros _; cbn; lia|discriminate]).
  refine (C110_neutral_start ex_rsqrt ex_sub e (QK 2) (exo_dom 2) (exo_pml 2) pair_species (S k) exo_pairs s' rank m psi mE i j O1 R1 C1 O ltac:(lia) _ (fun _ => eq_refl) (fun _ => eq_refl) T U A).
  unfold charge_o, charge_rows. apply q2qc_eq. change (map particles (o_parts exo_pairs)) with
    [[M_PartSync.row _ (ex_part false (37#5) 3 1 7); M_PartSync.row _ (ex_part false (67#5) 2 (5#4) 8)]; [M_PartSync.row _ (ex_part false (311#40) 3 (-1) 7); M_PartSync.row _ (ex_part false (4303#320) 2 1 8)]].
  unfold pair_species. cbn [combine]. rewrite !qsum_cons. cbn [fst snd sp_q]. rewrite !qsum_cons. cbn [qsum fold_right].
  assert (forall r r' : prow body, charge_of_o (exo_dom 2) 1 (1#2) i j r == charge_of_o (exo_dom 2) 1 (1#2) i j r' -> charge_of_o (exo_dom 2) (-1) (1#2) i j r + charge_of_o (exo_dom 2) 1 (1#2) i j r' == 0)%Q as K.
  { intros r r' H. rewrite <- H. unfold charge_of_o. cbv zeta. field. cbn. split; lra. }
  pose proof (K (M_PartSync.row _ (ex_part false (37#5) 3 1 7)) (M_PartSync.row _ (ex_part false (311#40) 3 (-1) 7))) as K1.
  pose proof (K (M_PartSync.row _ (ex_part false (67#5) 2 (5#4) 8)) (M_PartSync.row _ (ex_part false (4303#320) 2 1 8))) as K2. clear K.
  assert (forall r r' : prow body, _ -> _ -> _ -> charge_of_o (exo_dom 2) 1 (1#2) i j r == charge_of_o (exo_dom 2) 1 (1#2) i j r')%Q as L by (intros r r'; exact (CO_rw (QK 2) (exo_dom 2) (exo_pml 2) O1 1 (1#2) i j r r' (1#2))).
  match type of K1 with ?a -> _ => assert a as L1 by (apply L; vm_compute; reflexivity) end. match type of K2 with ?a -> _ => assert a as L2 by (apply L; vm_compute; reflexivity) end.
  specialize (K1 L1). specialize (K2 L2). clear L L1 L2. lra.
Qed.

(** *** an electron that has just entered the layer *)
Lemma ex_half u s : (1 + u * u <= s -> Qabs (u * ex_rsqrt s) <= (1#2))%Q.
Proof.
  intro H. unfold ex_rsqrt. assert (0 < s)%Q as P by nra. apply Qabs_Qle_condition. assert (u * (1 / s) == u / s)%Q as -> by (field; lra). split.
  - apply Qle_shift_div_l; [exact P|]. pose proof (sq_nonneg (u + 1)). nra.
  - apply Qle_shift_div_r; [exact P|]. pose proof (sq_nonneg (u - 1)). nra.
Qed.
Lemma spline_pos d : (Qabs d <= 1 -> 0 < spline d)%Q.
Proof.
  intro H. unfold spline. destruct (Qle_bool (Qabs d) (1#2)) eqn:E1.
  - apply Qle_bool_iff in E1. apply Qabs_Qle_condition in E1 as [A B]. nra.
  - destruct (Qle_bool (Qabs d) (3#2)) eqn:E2; [nra|]. exfalso. assert (Qabs d <= 3#2)%Q as L by lra. apply Qle_bool_iff in L. congruence.
Qed.
Lemma share_pos Y : (3#2 <= Y -> Y <= 5#2 -> 0 < periodic_share 8 2 Y)%Q.
Proof.
  intros H1 H2. pose proof (spline_pos (inject_Z 2 - Y)%Q) as S. assert (0 < spline (inject_Z 2 - Y))%Q as S' by (apply S; apply Qabs_Qle_condition; split; unfold inject_Z; lra). clear S.
  assert (Qfloor Y = 1 \/ Qfloor Y = 2) as F by (pose proof (Qfloor_resp_le _ _ H1) as A; pose proof (Qfloor_resp_le _ _ H2) as B; change (Qfloor (3#2)) with 1 in A; change (Qfloor (5#2)) with 2 in B; lia).
  unfold periodic_share, share. destruct F as [-> | ->]; cbn [zfrom]; change (zfrom (1 - 2) 6) with [-1; 0; 1; 2; 3; 4]; change (zfrom (2 - 2) 6) with [0; 1; 2; 3; 4; 5]; rewrite !qsum_cons; cbn -[spline inject_Z]; cbn -[spline inject_Z] in S'; lra.
Qed.
Lemma gone_charge FE FB st1 st2 :
  Permutation (particles [[ex_part false (37#5) 3 1 7; ex_part true 0 0 0 0]; [ex_part false (67#5) 2 (5#4) 8]]) (particles st1) ->
  map canon (particles st2) = map (fun r => canon (orow ex_rsqrt (PL (exo_dom 2)) (d_dx (exo_dom 2)) (d_dy (exo_dom 2)) (d_dt (exo_dom 2)) (mkSpecies (-1) 1 true) FE FB r)) (particles st1) ->
  charge_rows (exo_dom 2) (ex_species true) (gone_of (QK 2) (exo_dom 2) [st2]) 13 2 <> Q2Qc 0.
Proof.
  intros P E. set (o := orow ex_rsqrt (PL (exo_dom 2)) (d_dx (exo_dom 2)) (d_dy (exo_dom 2)) (d_dt (exo_dom 2)) (mkSpecies (-1) 1 true) FE FB) in *. pose proof (exo_ok 2 (or_introl eq_refl)) as OK.
  set (c := charge_of_o (exo_dom 2) (-1) (1#2) 13 2). set (g := fun r => if is_gone (QK 2) (exo_dom 2) r then c r else 0%Q).
  assert (forall r r', canon r = canon r' -> g r == g r')%Q as G.
  { intros r r' H. unfold g, is_gone, okept. pose proof (okeep_eq (is_open (d_ax (exo_dom 2))) (is_open (d_ay (exo_dom 2))) (thick (QK 2)) (ax_n (d_ax (exo_dom 2)) * d_nx (exo_dom 2)) (ax_n (d_ay (exo_dom 2)) * d_ny (exo_dom 2)) (d_dx (exo_dom 2)) (d_dy (exo_dom 2)) r r' H) as L.
    destruct (okeep _ _ _ _ _ _ _ r), (okeep _ _ _ _ _ _ _ r'); try discriminate L; [|reflexivity]. exact (CO_eq (QK 2) (exo_dom 2) (exo_pml 2) OK (-1) (1#2) 13 2 r r' H). }
  assert (forall l l', map canon l = map (fun r => canon (o r)) l' -> qsum g l == qsum (fun r => g (o r)) l')%Q as G2.
  { induction l as [|r l IH]; intros [|r' l'] H; try discriminate H; [reflexivity|]. rewrite !qsum_cons. apply Qplus_comp; [exact (G r (o r') (f_equal (hd (canon r)) H))|exact (IH l' (f_equal (@tl _) H))]. }
  unfold charge_rows, gone_of, ex_species. cbn [map combine]. rewrite qsum_cons. intro Z. match type of Z with Q2Qc ?e = _ => assert (e == 0)%Q as Z' by (rewrite <- (this_q2qc e), Z; reflexivity) end. clear Z.
  change (qsum c (filter (is_gone (QK 2) (exo_dom 2)) (particles st2)) + 0 == 0)%Q in Z'.
  rewrite Qplus_0_r, qsum_filter in Z'. change (qsum g (particles st2) == 0)%Q in Z'. rewrite (G2 _ _ E), <- (qsum_perm _ _ _ P) in Z'. clear G2 G E P.
  change (particles [[ex_part false (37#5) 3 1 7; ex_part true 0 0 0 0]; [ex_part false (67#5) 2 (5#4) 8]]) with [M_PartSync.row _ (ex_part false (37#5) 3 1 7); M_PartSync.row _ (ex_part false (67#5) 2 (5#4) 8)] in Z'.
  rewrite !qsum_cons in Z'. cbn [qsum fold_right] in Z'.
  destruct (orow_half ex_rsqrt (PL (exo_dom 2)) (d_dx (exo_dom 2)) (d_dy (exo_dom 2)) (d_dt (exo_dom 2)) (mkSpecies (-1) 1 true) FE FB (M_PartSync.row _ (ex_part false (37#5) 3 1 7)) _ _ ex_half eq_refl eq_refl) as (x1 & y1 & u1 & v1 & A1 & A2 & A3 & A4 & A5 & A6 & A7 & A8 & A9).
  destruct (orow_half ex_rsqrt (PL (exo_dom 2)) (d_dx (exo_dom 2)) (d_dy (exo_dom 2)) (d_dt (exo_dom 2)) (mkSpecies (-1) 1 true) FE FB (M_PartSync.row _ (ex_part false (67#5) 2 (5#4) 8)) _ _ ex_half eq_refl eq_refl) as (x2 & y2 & u2 & v2 & B1 & B2 & B3 & B4 & B5 & B6 & B7 & B8 & B9).
  fold o in A1, A2, A3, A4, A5, B1, B2, B3, B4, B5.
  set (r1 := o (M_PartSync.row _ (ex_part false (37#5) 3 1 7))) in *. set (r2 := o (M_PartSync.row _ (ex_part false (67#5) 2 (5#4) 8))) in *. clearbody r1 r2. clear o.
  assert (LIGHT_SPEED * (1 # 2) * d_dt (exo_dom 2) == 1#4)%Q as H by reflexivity. rewrite H in A8, A9, B8, B9. cbn [ex_part M_PartSync.row other b_ig b_ux b_uy b_w] in A3, A8, A9, B3, B8, B9.
  apply Qabs_Qle_condition in A6 as [A6 A6'], B6 as [B6 B6'], B7 as [B7 B7'].
  assert (g r1 == 0)%Q as G1.
  { unfold g, is_gone, okept, okeep. rewrite A1, A2. unfold keep1. cbn [exo_dom d_ax d_ay is_open M_Layout.ax_lo bc_eqb ax_n d_nx d_ny d_dx d_dy thick QK].
    match goal with |- context [Qle_bool ?a x1 && Qle_bool x1 ?b] => assert (Qle_bool a x1 && Qle_bool x1 b = true) as -> end; [|reflexivity].
    apply andb_true_intro. split; apply Qle_bool_iff; [apply Qle_trans with 2%Q; [vm_compute; discriminate|lra]|apply Qle_trans with 8%Q; [lra|vm_compute; discriminate]]. }
  assert (g r2 < 0)%Q as G2; [|lra]. clear G1 A1 A2 A3 A4 A5 A6 A6' A7 A8 A9 Z'.
  unfold g, is_gone, okept, okeep. rewrite B1, B2. unfold keep1. cbn [exo_dom d_ax d_ay is_open M_Layout.ax_lo bc_eqb ax_n d_nx d_ny d_dx d_dy thick QK].
  match goal with |- context [Qle_bool ?a x2 && Qle_bool x2 ?b] => assert (Qle_bool a x2 && Qle_bool x2 b = false) as -> end.
  { apply andb_false_intro2. match goal with |- ?a = false => destruct a eqn:Q; [|reflexivity] end. apply Qle_bool_iff in Q. exfalso.
    assert (x2 <= 27#2)%Q by (eapply Qle_trans; [exact Q|vm_compute; discriminate]). lra. }
  unfold c, charge_of_o. cbv zeta. rewrite B1, B2. cbn [val]. 
  set (X := ((x2 + (1#2) * (b_ux (other _ r2) * LIGHT_SPEED * b_ig (other _ r2)) * d_dt (exo_dom 2)) / d_dx (exo_dom 2))%Q). set (Y := ((y2 + (1#2) * (b_uy (other _ r2) * LIGHT_SPEED * b_ig (other _ r2)) * d_dt (exo_dom 2)) / d_dy (exo_dom 2))%Q).
  assert (X == x2 + (1#4) * u2)%Q as EX by (unfold X; rewrite <- B4, <- H; cbn [exo_dom d_dx]; field).
  assert (Y == y2 + (1#4) * v2)%Q as EY by (unfold Y; rewrite <- B5, <- H; cbn [exo_dom d_dy]; field). clearbody X Y.
  change (cells_y (exo_dom 2)) with 8. unfold spread. cbn [exo_dom d_ax d_ay M_Layout.ax_lo bc_eqb d_dx d_dy].
  assert (0 < spline (inject_Z 13 - X))%Q as P1 by (apply spline_pos, Qabs_Qle_condition; split; unfold inject_Z; lra).
  assert (0 < periodic_share 8 2 Y)%Q as P2 by (apply share_pos; lra). rewrite B3. set (a := spline _) in *. set (b := periodic_share _ _ _) in *. clearbody a b.
  assert (0 < a * b)%Q by nra. assert (-1 * 2 / (1 * 1) * a * b == - (2) * (a * b))%Q as -> by field. lra.
Qed.
(** ** C111: next to the layers the law does not survive the absorption of a particle.  An electron flies into the upper layer;
    its charge disappears at once from the charge density but the electric field knows nothing of it: the violation of the law
    in a cell outside the layers changes. *)
Theorem C111_next_to_layers_refuted : exists rsqrt D K pmls sps s, subluminal rsqrt /\ open_ok K D pmls /\ open_ready D sps s /\ open_consistent D pmls s /\
  forall eps, eps <> Q2Qc 0 -> (exists s', stepso rsqrt eps K D pmls sps 1 s s') /\
  forall s', stepso rsqrt eps K D pmls sps 1 s s' -> exists i j, beside_layers (thick K) D i j /\ defect_o eps D sps s' i j <> defect_o eps D sps s i j.
Proof.
  exists ex_rsqrt, (exo_dom 2), (QK 2), (exo_pml 2), (ex_species true), exo_two. pose proof (exo_ok 2 (or_introl eq_refl)) as OK.
  assert (R : open_ready (exo_dom 2) (ex_species true) exo_two).
  { split; [reflexivity|]. constructor; [|constructor]. split; [reflexivity|]. intros p r Hp I. change (npatches2 (exo_dom 2)) with 2%nat in Hp. destruct p as [|[|p]]; [| |lia]; ex_in I. }
  pose proof (exo_consistent (exo_dom 2) (exo_pml 2) (o_parts exo_two)) as C. change (open_consistent (exo_dom 2) (exo_pml 2) exo_two) in C.
  split; [exact ex_sub|]. split; [exact OK|]. split; [exact R|]. split; [exact C|]. intros eps NZ. split.
  { destruct (C102_runs_exist ex_rsqrt ex_sub eps (QK 2) _ _ _ 1 exo_two OK R C) as (s1 & T1 & _). exists s1. exact T1. }
  intros s' T1. exists 13, 2. split; [split; [intros _; cbn; lia|discriminate]|].
  assert (exists rank, stepo ex_rsqrt eps (QK 2) (exo_dom 2) (exo_pml 2) (ex_species true) rank exo_two s') as [rank T] by (inversion T1 as [|? rk ? sm ? A B]; subst; inversion B; subst; exists rk; exact A). clear T1.
  destruct (odefect_step_in ex_rsqrt ex_sub eps (QK 2) (exo_dom 2) (exo_pml 2) OK (ex_species true) rank exo_two s' R C T) as (FE & FB & ps1 & ps2 & P1 & P2 & _ & E & _).
  rewrite E by (split; [intros _; cbn; lia|discriminate]). clear E T.
  assert (charge_rows (exo_dom 2) (ex_species true) (gone_of (QK 2) (exo_dom 2) ps2) 13 2 <> Q2Qc 0) as N; [|].
  2:{ intro E. apply N. apply (f_equal (fun v => (v - defect_o eps (exo_dom 2) (ex_species true) exo_two 13 2) * eps)%Qc) in E.
      change (Q2Qc 0) with 0%Qc in *. match type of E with ?a = ?b => replace b with 0%Qc in E by ring end. rewrite <- E. field. exact NZ. }
  change (o_parts exo_two) with [[[ex_part false (37#5) 3 1 7; ex_part true 0 0 0 0]; [ex_part false (67#5) 2 (5#4) 8]]] in P1.
  inversion P1 as [|? st1 ? ? Q1 F1]; subst. inversion F1; subst. clear P1 F1. cbn [combine ex_species] in P2. inversion P2 as [|? st2 ? ? Q2 F2]; subst. inversion F2; subst. clear P2 F2. cbn [fst snd] in Q2.
  exact (gone_charge FE FB st1 st2 Q1 Q2).
Qed.

Print Assumptions C110_gauss.
Print Assumptions C110_stored_charge.
Print Assumptions C110_field_felt.
Print Assumptions C110_div_b.
Print Assumptions C110_neutral_start.
Print Assumptions C110_absorbed_charge.
Print Assumptions C110_case.
Print Assumptions C111_next_to_layers_refuted.
