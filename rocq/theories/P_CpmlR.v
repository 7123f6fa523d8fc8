(** Coefficients and memory of the layers over the reals. *)
From Coq Require Import Field_theory Reals Lra.
From Verif Require Import Base M_Layout S_Layout M_PartSync S_PartSync M_FieldSync S_FieldSync M_Maxwell S_Maxwell M_Cpml S_Cpml S_CpmlR.
From Verif Require Import P_Cpml.
Local Open Scope R_scope.
Section Real.
Variables (c2 e0 : R) (th : Z) (km am sm : R).
Hypothesis Hth : (0 < th)%Z. Hypothesis Hk : 1 <= km. Hypothesis Ha : 0 <= am. Hypothesis Hs : 0 < sm.
Notation A := (RA c2 e0). Notation K := (RK th km am sm).
Lemma pos_between e s n i : in_range K e s n i = true -> 0 < pos_ A K e s n i <= 1.
Proof.
  unfold in_range. intro H. apply andb_true_iff in H as [H1 H2]. apply Z.leb_le in H1. apply Z.ltb_lt in H2. unfold pos_. cbv zeta. cbn [minus_ over_ plus_ one_ half_ ofZ_ thick RA RK] in * .
  set (k := if is_min s then (i - l_start K e s n)%Z else (th - 1 - (i - l_start K e s n))%Z).
  assert (B : (0 <= k <= th - 1)%Z) by (unfold k; unfold l_start, l_stop in *; cbn [thick RK] in *; destruct (is_min s), e; lia). clearbody k. clear H1 H2.
  assert (T : 0 < IZR th) by (apply IZR_lt; lia). assert (B1 : 0 <= IZR k) by (apply IZR_le; lia). assert (B2 : IZR k <= IZR th - 1) by (rewrite <- minus_IZR; apply IZR_le; lia).
  assert (G : forall x, 0 <= x < IZR th -> 0 < 1 - x / IZR th <= 1).
  { intros x Hx. assert (x / IZR th < 1) by (apply Rmult_lt_reg_r with (IZR th); [exact T|]; unfold Rdiv; rewrite Rmult_assoc, Rinv_l by lra; lra).
    assert (0 <= x / IZR th) by (apply Rmult_le_pos; [lra|left; now apply Rinv_0_lt_compat]). lra. }
  destruct e; apply G; lra.
Qed.
Lemma coefficients e s n i dt d : in_range K e s n i = true -> 0 < dt -> 0 < d ->
  1 <= kappa_in A K e s n i /\ 0 < sigma_in A K e s n i /\ 0 <= a_in A K e s n i /\
  0 < bcoeff A K e s n i dt < 1 /\ Rabs (ccoeff A K e s n i dt d) <= (1 - bcoeff A K e s n i dt) / d.
Proof.
  intros HR Hdt Hd. pose proof (pos_between e s n i HR) as P.
  assert (P3 : 0 < pos3 A K e s n i) by (unfold pos3; cbv zeta; cbn [times_ RA]; destruct P; repeat apply Rmult_lt_0_compat; lra).
  assert (Ek : 1 <= kappa_in A K e s n i) by (unfold kappa_in; cbn [plus_ minus_ times_ RA one_ kmax RK]; assert (0 <= (km - 1) * pos3 A K e s n i) by (apply Rmult_le_pos; lra); lra).
  assert (Es : 0 < sigma_in A K e s n i) by (unfold sigma_in; cbn [times_ RA smax RK]; apply Rmult_lt_0_compat; lra).
  assert (Ea : 0 <= a_in A K e s n i) by (unfold a_in; cbn [times_ minus_ RA one_ amax RK]; apply Rmult_le_pos; lra).
  set (ka := kappa_in A K e s n i) in * . set (si := sigma_in A K e s n i) in * . set (aa := a_in A K e s n i) in * .
  assert (Q : 0 < si / ka) by (apply Rmult_lt_0_compat; [exact Es|apply Rinv_0_lt_compat; lra]).
  assert (Eb : 0 < bcoeff A K e s n i dt < 1).
  { unfold bcoeff. cbn [plus_ times_ over_ minus1_ RA exp_ RK]. fold ka si aa. split; [apply exp_pos|]. rewrite <- exp_0. apply exp_increasing. assert (0 < (si / ka + aa) * dt) by (apply Rmult_lt_0_compat; lra). lra. }
  repeat (split; [assumption|]). unfold ccoeff. cbn [plus_ minus_ times_ over_ RA one_ RK]. fold ka si aa. set (b := bcoeff A K e s n i dt) in * . clearbody b.
  assert (Dn : 0 < si + ka * aa) by (assert (0 <= ka * aa) by (apply Rmult_le_pos; lra); lra).
  assert (R1 : 0 <= / ka <= 1) by (split; [left; apply Rinv_0_lt_compat; lra|]; rewrite <- Rinv_1; apply Rinv_le_contravar; lra).
  assert (R2 : 0 <= si * / (si + ka * aa) <= 1).
  { split; [apply Rmult_le_pos; [lra|left; now apply Rinv_0_lt_compat]|]. apply Rmult_le_reg_r with (si + ka * aa); [exact Dn|]. rewrite Rmult_assoc, Rinv_l by lra. assert (0 <= ka * aa) by (apply Rmult_le_pos; lra). lra. }
  replace ((b - 1) * si / ka / (si + ka * aa) / d) with (- ((1 - b) / d * (/ ka * (si * / (si + ka * aa))))) by (unfold Rdiv; ring).
  rewrite Rabs_Ropp. assert (W : 0 <= (1 - b) / d) by (apply Rmult_le_pos; [lra|left; now apply Rinv_0_lt_compat]).
  assert (U : 0 <= / ka * (si * / (si + ka * aa)) <= 1).
  { split; [apply Rmult_le_pos; lra|]. apply Rle_trans with (1 * 1); [apply Rmult_le_compat; lra|lra]. }
  rewrite Rabs_right by (apply Rle_ge, Rmult_le_pos; lra). apply Rle_trans with ((1 - b) / d * 1); [apply Rmult_le_compat_l; lra|lra].
Qed.
(** one update of an auxiliary array keeps the bound *)
Lemma npsi_bound ns ng ds e s dt mO p f c v M : 0 < dt -> 0 < nth (axis_of s) ds 1 -> (forall a, Rabs (mO a) <= M) ->
  Rabs v <= 2 * M / nth (axis_of s) ds 1 -> Rabs (npsi A K ns ng ds e s dt mO p f c v) <= 2 * M / nth (axis_of s) ds 1.
Proof.
  intros Hdt Hd HM Hv. unfold npsi. destruct (in_layer_ K ns e s c) eqn:HI; [|exact Hv]. unfold np. destruct (psi_of e (axis_of s) f) as [[o g]|]; [|exact Hv].
  unfold new_psi. cbv zeta. unfold in_layer_ in HI. destruct (coefficients e s _ _ dt (nth (axis_of s) ds 1) HI Hdt Hd) as (_ & _ & _ & Eb & Ec).
  cbn [plus_ times_ RA one_ RK]. change (nth (axis_of s) ds (one_ K)) with (nth (axis_of s) ds 1).
  set (d := nth (axis_of s) ds 1) in * . set (b := bcoeff A K e s (size_ ns (axis_of s)) (coord (axis_of s) c) dt) in * . set (k := ccoeff A K e s (size_ ns (axis_of s)) (coord (axis_of s) c) dt d) in * .
  assert (Df : Rabs (diff_ A ns ng e (axis_of s) mO o p c) <= 2 * M).
  { unfold diff_. cbn [minus_ RA]. destruct e; (eapply Rle_trans; [apply Rabs_triang|]; rewrite Rabs_Ropp; match goal with |- Rabs (mO ?x) + Rabs (mO ?y) <= _ => pose proof (HM x); pose proof (HM y); lra end). }
  set (g' := diff_ A ns ng e (axis_of s) mO o p c) in * . clearbody b k g'. clear HI.
  eapply Rle_trans; [apply Rabs_triang|]. rewrite !Rabs_mult. rewrite (Rabs_right b) by lra.
  assert (Rabs k * Rabs g' <= (1 - b) / d * (2 * M)) by (apply Rmult_le_compat; try apply Rabs_pos; assumption).
  assert (b * Rabs v <= b * (2 * M / d)) by (apply Rmult_le_compat_l; lra).
  replace ((1 - b) / d * (2 * M)) with (2 * M / d - b * (2 * M / d)) in H by (unfold Rdiv; ring). lra.
Qed.
End Real.
Lemma RAfield c2 e0 : field_theory 0 1 (plus_ (RA c2 e0)) (times_ (RA c2 e0)) (minus_ (RA c2 e0)) (minus1_ (RA c2 e0)) (over_ (RA c2 e0)) Rinv (@eq R).
Proof. exact RealField.Rfield. Qed.
(** a sequence of updates with arbitrary fields at every update *)
Lemma run_bound c2 e0 th km am sm ns ng ds n pmls e (h : R -> memory R -> memory R -> nat -> nat -> list Z -> R -> R) (up : R -> memory R -> memory R -> memory R * (pml_side -> memory R) -> memory R * (pml_side -> memory R)) M :
  (0 < th)%Z -> 1 <= km -> 0 <= am -> 0 < sm -> 
  (forall dt mO mJ m psi, layered (RA c2 e0) (RK th km am sm) ns ng ds n pmls e dt mO (h dt mO mJ) (m, psi) (up dt mO mJ (m, psi))) ->
  forall l psi, Forall (fun u : R * memory R * memory R * memory R => let '(dt, mO, _, _) := u in 0 < dt /\ forall a, Rabs (mO a) <= M) l ->
  forall p s f c, (p < n)%nat -> In s (pmls p) -> (f < 3)%nat -> interior ns c -> 0 < nth (axis_of s) ds 1 ->
  Rabs (psi s (pcell ns f p c)) <= 2 * M / nth (axis_of s) ds 1 ->
  Rabs (fold_left (fun psi (u : R * memory R * memory R * memory R) => let '(dt, mO, mJ, m) := u in snd (up dt mO mJ (m, psi))) l psi s (pcell ns f p c)) <= 2 * M / nth (axis_of s) ds 1.
Proof.
  intros Hth Hk Ha Hs HL. induction l as [|[[[dt mO] mJ] m] l IH]; intros psi HF p s f c Hp Is Hf Hc Hd H0; [exact H0|].
  inversion HF as [|? ? Hu HF']; subst. cbv beta iota in Hu. destruct Hu as [Hdt HM]. cbn [fold_left]. apply IH; auto. destruct (HL dt mO mJ m psi) as (_ & _ & L). rewrite (L f p c s Hf Hp Hc Is). cbn [snd].
  apply npsi_bound; auto.
Qed.
