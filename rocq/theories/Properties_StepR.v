(** C116: Gauss' law in runs with collisions and QED events (2D, periodic). *)
From Coq Require Import QArith Qabs Qcanon Permutation Lqa.
From Verif Require Import Base M_Layout M_PartSync S_PartSync M_FieldSync S_FieldSync M_Maxwell S_Maxwell M_Deposit S_Deposit M_Push M_Step S_Step S_Gauss P_Deposit P_Maxwell P_Maxwell2 P_Step1 P_Step2 P_Step3 P_Step4 P_Step5 P_Step7 P_Step8 P_Gauss1 P_Gauss2 P_Gauss3 M_StepR S_StepR P_StepR P_StepR2 Properties_Step.
Local Open Scope list_scope.
Local Open Scope Z_scope.

Section S.
Variable rsqrt : Q -> Q.
Hypothesis SUB : subluminal rsqrt.
Variable eps : Qc.

(** ** the violation of Gauss' law changes by exactly the charge that collisions and QED events shift, cell by cell *)
Theorem C116_exact : forall D pairs sps ts s s' i j, domain_ok D -> ready D sps s -> consistent D s ->
  stepsR rsqrt eps D pairs sps ts s s' -> defect eps D sps s' i j = (defect eps D sps s i j - shifted_all D sps ts i j / eps)%Qc.
Proof. intros D pairs sps ts s s' i j OK R C T. exact (proj1 (defect_stepsR rsqrt SUB eps D OK pairs sps ts s s' i j R C T)). Qed.

(** ** the shifts add up to nothing over the domain: no net charge appears, and the violation never grows in total *)
Theorem C116_no_net_charge : forall D pairs sps ts s s', domain_ok D -> ready D sps s -> consistent D s -> opposite sps pairs ->
  stepsR rsqrt eps D pairs sps ts s s' ->
  (qsum (fun i => qsum (fun j => this (shifted_all D sps ts i j)) (points (cells_y D))) (points (cells_x D)) == 0)%Q.
Proof. intros D pairs sps ts s s' OK R C O T. exact (shifted_total rsqrt SUB eps D OK pairs sps ts s s' R C T O). Qed.
Theorem C116_total_violation : forall D pairs sps ts s s', domain_ok D -> ready D sps s -> consistent D s -> opposite sps pairs ->
  stepsR rsqrt eps D pairs sps ts s s' ->
  (qsum (fun i => qsum (fun j => this (defect eps D sps s' i j)) (points (cells_y D))) (points (cells_x D)) ==
   qsum (fun i => qsum (fun j => this (defect eps D sps s i j)) (points (cells_y D))) (points (cells_x D)))%Q.
Proof.
  intros D pairs sps ts s s' OK R C O T. pose proof (C116_no_net_charge D pairs sps ts s s' OK R C O T) as Z.
  rewrite (qsum_ext _ (fun i => qsum (fun j => this (defect eps D sps s i j)) (points (cells_y D)) + - / this eps * qsum (fun j => this (shifted_all D sps ts i j)) (points (cells_y D)))%Q).
  { rewrite qsum_add, qsum_scale, Z. ring. }
  intros i _. rewrite <- qsum_scale, <- qsum_add. apply qsum_ext. intros j _. rewrite (C116_exact D pairs sps ts s s' i j OK R C T), this_minus, this_div. unfold Qdiv. ring.
Qed.
Theorem C116_charge_kept : forall D pairs sps ts s s', domain_ok D -> ready D sps s -> consistent D s -> opposite sps pairs ->
  stepsR rsqrt eps D pairs sps ts s s' ->
  (qsum (fun ss => qsum (fun r => sp_q (fst ss) * b_w (other _ r) / (d_dx D * d_dy D)) (particles (snd ss))) (combine sps (t_parts s')) ==
   qsum (fun ss => qsum (fun r => sp_q (fst ss) * b_w (other _ r) / (d_dx D * d_dy D)) (particles (snd ss))) (combine sps (t_parts s)))%Q.
Proof. intros D pairs sps ts s s' OK R C O T. exact (proj1 (proj2 (proj2 (defect_stepsR rsqrt SUB eps D OK pairs sps ts s s' 0 0 R C T))) O). Qed.

(** ** the magnetic field keeps its divergence *)
Theorem C116_div_b : forall D pairs sps ts s s' i j, domain_ok D -> ready D sps s -> consistent D s -> stepsR rsqrt eps D pairs sps ts s s' ->
  divB2 (qc_arith eps) (on_domain D (t_B s')) (Q2Qc (d_dx D)) (Q2Qc (d_dy D)) i j = divB2 (qc_arith eps) (on_domain D (t_B s)) (Q2Qc (d_dx D)) (Q2Qc (d_dy D)) i j.
Proof. intros D pairs sps ts s s' i j OK R C T. exact (proj1 (proj2 (defect_stepsR rsqrt SUB eps D OK pairs sps ts s s' i j R C T))). Qed.

(** ** Gauss' law survives as long as the collisions and events shift no charge in any cell (missing: in general they do) *)
Theorem C116_gauss_partial : forall D pairs sps ts s s' i j, domain_ok D -> ready D sps s -> consistent D s -> stepsR rsqrt eps D pairs sps ts s s' ->
  (forall t, In t ts -> shifted D sps t i j = Q2Qc 0) -> defect eps D sps s' i j = defect eps D sps s i j.
Proof.
  intros D pairs sps ts s s' i j OK R C T H. rewrite (C116_exact D pairs sps ts s s' i j OK R C T).
  assert (shifted_all D sps ts i j = Q2Qc 0) as ->.
  { clear - H. induction ts as [|t ts IH]; [reflexivity|]. unfold shifted_all in *. cbn [fold_right]. rewrite IH by (intros t' I; apply H; right; exact I). rewrite (H t (or_introl eq_refl)). apply Qcplus_0_l. }
  unfold Qcdiv. ring.
Qed.
End S.

(** * It does not survive collisions, recoil or pair creation *)
Definition rr (s : Q) : Q := if Qeq_bool s (25#9) then 3#5 else if Qeq_bool s (25#16) then 4#5 else (1 / s)%Q.
Lemma rr_sub : subluminal rr.
Proof.
  split.
  - intros x y E. unfold rr. assert (forall a b c, (a == b)%Q -> Qeq_bool a c = Qeq_bool b c) as K.
    { intros a b c H. apply eq_true_iff_eq. rewrite !Qeq_bool_iff, H. reflexivity. }
    rewrite (K x y (25#9) E), (K x y (25#16) E). destruct (Qeq_bool y _); [reflexivity|]. destruct (Qeq_bool y _); [reflexivity|]. rewrite E. reflexivity.
  - intros u s H. unfold rr. destruct (Qeq_bool s (25#9)) eqn:E1; [|destruct (Qeq_bool s (25#16)) eqn:E2].
    + apply Qeq_bool_iff in E1. rewrite E1 in H. apply Qabs_Qle_condition. split; nra.
    + apply Qeq_bool_iff in E2. rewrite E2 in H. apply Qabs_Qle_condition. split; nra.
    + exact (proj2 ex_sub u s H).
Qed.
(** electrons and positrons at the same places with the same velocities: no charge anywhere *)
Definition fly (x y ux uy ig : Q) (id : Z) : prow body := mkRow _ (Some x) (Some y) (Some 0%Q) (mkBody ux uy 0 ig 1 (mkSix 0 0 0 0 0 0)%Q id).
Definition slot_of (r : prow body) : prt := M_PartSync.mkSlot _ r false.
Definition both : list species := [mkSpecies (-1) 1 true; mkSpecies 1 1 true].
Definition at_start (l : list prt) : state2 := mkState2 (fun _ => Q2Qc 0) (fun _ => Q2Qc 0) (fun _ => Q2Qc 0) [[l]; [l]].
Lemma start_charge l a b : charge (ex_dom 1) both [[l]; [l]] a b = Q2Qc 0.
Proof.
  unfold charge. apply q2qc_eq. cbn [combine both]. rewrite !qsum_cons. cbn [fst snd sp_q]. change (qsum _ []) with 0%Q.
  assert (forall l, qsum (charge_of (ex_dom 1) (-1) (1#2) a b) l + qsum (charge_of (ex_dom 1) 1 (1#2) a b) l == 0)%Q as K.
  { induction l0 as [|r k IH]; [reflexivity|]. rewrite !qsum_cons. unfold charge_of at 1 3. cbv zeta. unfold Qdiv in *. lra. }
  rewrite Qplus_0_r. apply K.
Qed.
Lemma start_defect eps l i j : defect eps (ex_dom 1) both (at_start l) i j = Q2Qc 0.
Proof. unfold defect, gauss. cbn [t_E t_J t_parts at_start]. rewrite start_charge. unfold divE2, on_domain. cbn [plus_ minus_ over_ qc_arith]. unfold Qcdiv. ring. Qed.
Lemma start_consistent l : consistent (ex_dom 1) (at_start l).
Proof. split; [|split]; eexists; try apply ex_field; apply ex_cur. Qed.
Lemma zero_gE eps f g : gE eps (ex_dom 1) (fun _ _ => Q2Qc 0) (fun _ _ => Q2Qc 0) (fun _ _ => Q2Qc 0) f g = Q2Qc 0.
Proof.
  unfold gE, grid_step, SE2. cbv zeta. assert (forall c, match place [d_ax (ex_dom 1); d_ay (ex_dom 1)] [d_nx (ex_dom 1); d_ny (ex_dom 1)] (zeros [d_nx (ex_dom 1); d_ny (ex_dom 1)]) c with Some _ => Q2Qc 0 | None => Q2Qc 0 end = Q2Qc 0) as K by (intro c; destruct (place _ _ _ c); reflexivity).
  rewrite !K. cbn [qc_arith plus_ minus_ times_ over_ minus1_ csq eps0]. destruct f as [|[|f]]; unfold Qcdiv; ring.
Qed.
Lemma zero_gB eps f g : gB eps (ex_dom 1) (fun _ _ => Q2Qc 0) (fun _ _ => Q2Qc 0) f g = Q2Qc 0.
Proof.
  unfold gB, grid_step, SB2. cbv zeta. assert (forall c, match place [d_ax (ex_dom 1); d_ay (ex_dom 1)] [d_nx (ex_dom 1); d_ny (ex_dom 1)] (zeros [d_nx (ex_dom 1); d_ny (ex_dom 1)]) c with Some _ => Q2Qc 0 | None => Q2Qc 0 end = Q2Qc 0) as K by (intro c; destruct (place _ _ _ c); reflexivity).
  rewrite !K. cbn [qc_arith plus_ minus_ times_ over_ minus1_ csq eps0]. destruct f as [|[|f]]; unfold Qcdiv; ring.
Qed.
Lemma collided_refl rsqrt ps : Forall2 (collided rsqrt) ps ps.
Proof. induction ps as [|st ps IH]; constructor; [|exact IH]. unfold collided. induction st as [|l st IHs]; constructor; [|exact IHs]. induction l; constructor; [constructor|assumption]. Qed.
(** a step from such a start, for given collisions *)
Lemma start_step eps pairs l psc : Forall (settled (ex_dom 1)) [[l]; [l]] -> Forall2 (collided rr) [[l]; [l]] psc ->
  exists ps2, Forall2 (fun ss st' => pushed rr (ex_dom 1) (fun _ _ => Q2Qc 0) (fun _ _ => Q2Qc 0) (fst ss) (snd ss) st') (combine both psc) ps2 /\
  forall psq, qed_stage rr (ex_dom 1) pairs ps2 psq -> exists s', stepR rr eps (ex_dom 1) pairs both (fun _ => 0%nat) (mkTurn [[l]; [l]] psc ps2 psq) (at_start l) s'.
Proof.
  intros F K.
  destruct (stepR_exists rr rr_sub eps (ex_dom 1) (ex_ok 1 (or_introl eq_refl)) pairs both _ _ _ (fun _ _ => Q2Qc 0) (fun _ _ => Q2Qc 0) (fun _ => 0%nat) (at_start l) [[l]; [l]] psc (conj eq_refl F) (ex_field _) (ex_field _) (ex_cur _) (zero_gE eps) (zero_gB eps) (sorted_refl _) K) as (ps2 & P & E).
  exists ps2. split; [exact P|]. intros psq Q. destruct (E psq Q) as (s' & T & _). exists s'. exact T.
Qed.
Lemma broken eps pairs l t s' i j : ~ eps = Q2Qc 0 -> Forall (settled (ex_dom 1)) [[l]; [l]] -> stepR rr eps (ex_dom 1) pairs both (fun _ => 0%nat) t (at_start l) s' ->
  ~ shifted (ex_dom 1) both t i j = Q2Qc 0 -> ~ defect eps (ex_dom 1) both s' i j = Q2Qc 0.
Proof.
  intros He F T N Z. destruct (defect_stepR rr rr_sub eps (ex_dom 1) (ex_ok 1 (or_introl eq_refl)) pairs both _ t (at_start l) s' i j (conj eq_refl F) (start_consistent l) T) as (E & _).
  rewrite Z, start_defect in E. apply N. set (v := shifted _ _ _ _ _) in *. clearbody v.
  assert (v / eps = Q2Qc 0)%Qc as X by (apply (f_equal Qcopp) in E; transitivity (- (Q2Qc 0 - v / eps))%Qc; [ring|rewrite <- E; reflexivity]).
  transitivity (v / eps * eps)%Qc; [|rewrite X; ring]. unfold Qcdiv. rewrite <- Qcmult_assoc, (Qcmult_comm (/ eps)), Qcmult_inv_r by exact He. ring.
Qed.
Local Ltac at_home := constructor; [|constructor; [|constructor]]; (split; [reflexivity|]); intros p r Hp I; (assert (p = 0)%nat as -> by (change (npatches2 (ex_dom 1)) with 1%nat in Hp; lia)); cbn [nth] in I; ex_in I.

(** ** two electrons meet head-on and fly apart at a right angle (momentum and energy are conserved) *)
Definition east := fly 1 1 (4#3) 0 (3#5) 1. Definition west := fly 1 1 (-4#3) 0 (3#5) 2.
Theorem C116_collision_refuted : forall eps, ~ eps = Q2Qc 0 -> exists t s',
  let l := [slot_of east; slot_of west] in let l' := [slot_of (with_u rr 0 (4#3) 0 east); slot_of (with_u rr 0 (-4#3) 0 west)] in
  domain_ok (ex_dom 1) /\ ready (ex_dom 1) both (at_start l) /\ consistent (ex_dom 1) (at_start l) /\
  stepR rr eps (ex_dom 1) [] both (fun _ => 0%nat) t (at_start l) s' /\
  before_collisions t = [[l]; [l]] /\ after_collisions t = [[l']; [l]] /\ after_qed t = before_qed t /\
  (forall i j, defect eps (ex_dom 1) both (at_start l) i j = Q2Qc 0) /\ ~ defect eps (ex_dom 1) both s' 2 1 = Q2Qc 0.
Proof.
  intros eps He. set (l := [slot_of east; slot_of west]). set (l' := [slot_of (with_u rr 0 (4#3) 0 east); slot_of (with_u rr 0 (-4#3) 0 west)]).
  assert (Forall (settled (ex_dom 1)) [[l]; [l]]) as F by at_home.
  assert (Forall2 (collided rr) [[l]; [l]] [[l']; [l]]) as K.
  { constructor; [|apply collided_refl]. constructor; [|constructor]. constructor; [apply (sc_new rr (slot_of east)); reflexivity|]. constructor; [apply (sc_new rr (slot_of west)); reflexivity|constructor]. }
  destruct (start_step eps [] l [[l']; [l]] F K) as (ps2 & _ & E). destruct (E ps2 (qed_none _ _ _ _)) as (s' & T).
  eexists. exists s'. cbv zeta. split; [exact (ex_ok 1 (or_introl eq_refl))|]. split; [split; [reflexivity|exact F]|]. split; [apply start_consistent|]. split; [exact T|].
  cbn [before_collisions after_collisions before_qed after_qed]. repeat (split; [reflexivity|]). split; [intros i j; apply start_defect|].
  apply (broken eps [] l _ s' 2 1 He F T). unfold shifted. cbn [before_collisions after_collisions before_qed after_qed]. rewrite start_charge.
  match goal with |- ~ (?c - _ + (?x - ?x))%Qc = _ => assert ((c - Q2Qc 0 + (x - x))%Qc = c) as -> by ring end.
  intro X. apply (f_equal this) in X. vm_compute in X. discriminate X.
Qed.
(** ** an electron radiates and recoils *)
Lemma only_one (l : list prt) c : map canon (S_PartSync.alive l) = [c] -> exists a s, nth_error l a = Some s /\ M_PartSync.dead _ s = false /\ canon (rowof s) = c.
Proof.
  induction l as [|s l IH]; intro E; [discriminate E|]. rewrite alive_cons in E. destruct (M_PartSync.dead _ s) eqn:Ds.
  - destruct (IH E) as (a & s1 & H). exists (Datatypes.S a), s1. exact H.
  - exists 0%nat, s. split; [reflexivity|]. split; [exact Ds|]. cbn [map] in E. congruence.
Qed.
Definition cF (i j : Z) (sp : species) (r : prow body) : Q := charge_of (ex_dom 1) (sp_q sp) (1#2) i j r.
Lemma charge_spsum pss i j : charge (ex_dom 1) both pss i j = Q2Qc (spsum (cF i j) both pss). Proof. reflexivity. Qed.
Lemma charge_differs u v i j (d : Q) : (spsum (cF i j) both v == spsum (cF i j) both u + d)%Q -> (charge (ex_dom 1) both v i j - charge (ex_dom 1) both u i j)%Qc = Q2Qc d.
Proof.
  intro E. rewrite !charge_spsum. rewrite (q2qc_eq _ _ E). apply Qc_is_canon. cbn [this Q2Qc Qcminus Qcplus Qcopp]. rewrite !Qred_correct. ring.
Qed.
Lemma cF_rw i j sp r r' : (b_w (other _ r) == b_w (other _ r'))%Q -> (val (px _ r) == val (px _ r'))%Q -> (val (py _ r) == val (py _ r'))%Q ->
  (b_ux (other _ r) == b_ux (other _ r'))%Q -> (b_uy (other _ r) == b_uy (other _ r'))%Q -> (b_ig (other _ r) == b_ig (other _ r'))%Q -> (cF i j sp r == cF i j sp r')%Q.
Proof.
  intros E1 E2 E3 E4 E5 E6. unfold cF. apply (charge_of_rw (ex_dom 1) (ex_ok 1 (or_introl eq_refl))); [exact E1| |].
  - rewrite E2, E4, E6. reflexivity.
  - rewrite E3, E5, E6. reflexivity.
Qed.
Lemma recoil_gen s g i j : canon (rowof s) = canon g -> (val (px _ g) == 7#5)%Q -> (val (py _ g) == 1)%Q -> (b_ux (other _ g) == 4#3)%Q -> (b_uy (other _ g) == 0)%Q ->
  (b_uz (other _ g) == 0)%Q -> (b_ig (other _ g) == 3#5)%Q -> (b_w (other _ g) == 1)%Q ->
  (cF i j (mkSpecies (-1) 1 true) (rowof s) == cF i j (mkSpecies (-1) 1 true) (fly (7#5) 1 (4#3) 0 (3#5) 1))%Q /\
  (cF i j (mkSpecies (-1) 1 true) (recoiled rr (7#16) (rowof s)) == cF i j (mkSpecies (-1) 1 true) (fly (7#5) 1 (3#4) 0 (4#5) 1))%Q.
Proof.
  intros Cs G1 G2 G3 G4 G5 G6 G7. destruct (canon_load _ _ Cs) as [Q _]. destruct Q as (Q1 & Q2 & Q3 & Q4 & Q5 & Q6 & Q7 & Q8 & _). cbn [load l_p p_x p_y p_ux p_uy p_uz p_ig p_w M_PartSync.row] in *.
  rewrite G1 in Q1. rewrite G2 in Q2. rewrite G3 in Q4. rewrite G4 in Q5. rewrite G5 in Q6. rewrite G6 in Q7. rewrite G7 in Q8. split.
  - apply cF_rw; cbn [fly px py other b_ux b_uy b_ig b_w val]; assumption.
  - apply cF_rw; unfold recoiled, with_u; cbn [fly px py other b_ux b_uy b_ig b_w val]; [exact Q8|exact Q1|exact Q2| | |].
    + rewrite Q4. reflexivity.
    + rewrite Q5. reflexivity.
    + transitivity (rr (25#16)); [|reflexivity]. apply (proj1 rr_sub). rewrite Q4, Q5, Q6. reflexivity.
Qed.
Lemma after_recoil s i j : canon (rowof s) = canon (P_Step2.grow rr (Wx (ex_dom 1)) (Wy (ex_dom 1)) (d_dx (ex_dom 1)) (d_dy (ex_dom 1)) (d_dt (ex_dom 1)) (mkSpecies (-1) 1 true) (fun _ _ => Q2Qc 0) (fun _ _ => Q2Qc 0) east) ->
  (cF i j (mkSpecies (-1) 1 true) (rowof s) == cF i j (mkSpecies (-1) 1 true) (fly (7#5) 1 (4#3) 0 (3#5) 1))%Q /\
  (cF i j (mkSpecies (-1) 1 true) (recoiled rr (7#16) (rowof s)) == cF i j (mkSpecies (-1) 1 true) (fly (7#5) 1 (3#4) 0 (4#5) 1))%Q.
Proof.
  intro Cs. pose proof (free_flight rr rr_sub (Wx (ex_dom 1)) (Wy (ex_dom 1)) (d_dx (ex_dom 1)) (d_dy (ex_dom 1)) (d_dt (ex_dom 1)) (mkSpecies (-1) 1 true) east 1 1 eq_refl eq_refl) as G.
  cbv zeta in G. destruct G as (G1 & G2 & G3 & G4 & G5 & G6 & G7). apply (recoil_gen s _ i j Cs).
  - refine (Qeq_trans _ _ _ G1 _). vm_compute. reflexivity.
  - refine (Qeq_trans _ _ _ G2 _). vm_compute. reflexivity.
  - exact G3.
  - exact G4.
  - exact G5.
  - refine (Qeq_trans _ _ _ G6 _). vm_compute. reflexivity.
  - rewrite G7. reflexivity.
Qed.
Lemma slot_difference (G : species -> prow body -> Q) a s v st0 ps2 A B : slot_at (st0 :: ps2) 0 0 a = Some s -> M_PartSync.dead _ s = false ->
  (G (mkSpecies (-1) 1 true) (rowof s) == A)%Q -> (G (mkSpecies (-1) 1 true) v == B)%Q ->
  (spsum G both (set_slot 0 0 a (M_PartSync.mkSlot _ v false) (st0 :: ps2)) == spsum G both (st0 :: ps2) + (B - A))%Q.
Proof. intros Es Ds <- <-. rewrite (spsum_slot G both (st0 :: ps2) 0 0 a _ s (mkSpecies (-1) 1 true) eq_refl Es), Ds. reflexivity. Qed.
Lemma recoil_value : ~ Q2Qc (cF 2 1 (mkSpecies (-1) 1 true) (fly (7#5) 1 (3#4) 0 (4#5) 1) - cF 2 1 (mkSpecies (-1) 1 true) (fly (7#5) 1 (4#3) 0 (3#5) 1)) = Q2Qc 0.
Proof. intro X. apply (f_equal this) in X. vm_compute in X. discriminate X. Qed.
Theorem C116_recoil_refuted : forall eps, ~ eps = Q2Qc 0 -> exists t s',
  let l := [slot_of east] in
  domain_ok (ex_dom 1) /\ ready (ex_dom 1) both (at_start l) /\ consistent (ex_dom 1) (at_start l) /\
  stepR rr eps (ex_dom 1) [] both (fun _ => 0%nat) t (at_start l) s' /\
  before_collisions t = [[l]; [l]] /\ after_collisions t = [[l]; [l]] /\
  (exists a s, slot_at (before_qed t) 0 0 a = Some s /\ M_PartSync.dead _ s = false /\
     after_qed t = set_slot 0 0 a (M_PartSync.mkSlot _ (recoiled rr (7#16) (rowof s)) false) (before_qed t)) /\
  (forall i j, defect eps (ex_dom 1) both (at_start l) i j = Q2Qc 0) /\ ~ defect eps (ex_dom 1) both s' 2 1 = Q2Qc 0.
Proof.
  intros eps He. set (l := [slot_of east]).
  assert (Forall (settled (ex_dom 1)) [[l]; [l]]) as F by at_home.
  destruct (start_step eps [] l [[l]; [l]] F (collided_refl _ _)) as (ps2 & P & E).
  destruct ps2 as [|st0 ps2]; [inversion P|]. assert (pushed rr (ex_dom 1) (fun _ _ => Q2Qc 0) (fun _ _ => Q2Qc 0) (mkSpecies (-1) 1 true) [l] st0) as (L0 & P0) by (inversion P; assumption).
  clear P. destruct (P0 0%nat (Nat.lt_0_succ 0)) as (C & _). cbn [nth l] in C. unfold S_PartSync.alive at 2 in C. cbn [filter slot_of M_PartSync.dead negb map M_PartSync.row] in C.
  destruct (only_one _ _ C) as (a & s & Ea & Ds & Cs). clear C P0.
  assert (slot_at (st0 :: ps2) 0 0 a = Some s) as Es by exact Ea.
  destruct (E _ (qed_more _ _ _ _ _ _ (ev_recoil rr (ex_dom 1) [] _ 0 0 a s (7#16) Es Ds) (qed_none _ _ _ _))) as (s' & T).
  eexists. exists s'. cbv zeta. split; [exact (ex_ok 1 (or_introl eq_refl))|]. split; [split; [reflexivity|exact F]|]. split; [apply start_consistent|]. split; [exact T|].
  cbn [before_collisions after_collisions before_qed after_qed]. split; [reflexivity|]. split; [reflexivity|]. split; [exists a, s; auto|]. split; [intros i j; apply start_defect|].
  apply (broken eps [] l _ s' 2 1 He F T). unfold shifted. cbn [before_collisions after_collisions before_qed after_qed].
  pose proof (after_recoil s 2 1 Cs) as [K1 K2].
  assert (X : (charge (ex_dom 1) both [[l]; [l]] 2 1 - charge (ex_dom 1) both [[l]; [l]] 2 1)%Qc = Q2Qc 0) by ring. rewrite X. clear X.
  rewrite (charge_differs _ _ 2 1 (cF 2 1 (mkSpecies (-1) 1 true) (fly (7#5) 1 (3#4) 0 (4#5) 1) - cF 2 1 (mkSpecies (-1) 1 true) (fly (7#5) 1 (4#3) 0 (3#5) 1))).
  - intro X. apply recoil_value. rewrite <- X. ring.
  - exact (slot_difference (cF 2 1) a s _ st0 ps2 _ _ Es Ds K1 K2).
Qed.

(** ** a photon turns into an electron and a positron of unequal energies *)
Lemma pair_difference (G : species -> prow body -> Q) k0 k1 dd (blank r0 r1 : prow body) : dd = M_PartSync.mkSlot _ blank true ->
  let p2 := [[k0 ++ [dd]]; [k1 ++ [dd]]] in
  (spsum G both (set_slot 1 0 (length k1) (M_PartSync.mkSlot _ r1 false) (set_slot 0 0 (length k0) (M_PartSync.mkSlot _ r0 false) p2)) ==
   spsum G both [[k0]; [k1]] + (G (mkSpecies (-1) 1 true) r0 + G (mkSpecies 1 1 true) r1))%Q.
Proof.
  intros E p2.
  assert (Sa : slot_at p2 0 0 (length k0) = Some dd) by (unfold slot_at; cbn [nth p2]; rewrite nth_error_app2, Nat.sub_diag by lia; reflexivity).
  assert (Sb : slot_at p2 1 0 (length k1) = Some dd) by (unfold slot_at; cbn [nth p2]; rewrite nth_error_app2, Nat.sub_diag by lia; reflexivity).
  rewrite (spsum_slot G both _ 1 0 (length k1) _ dd (mkSpecies 1 1 true) eq_refl) by (rewrite other_slot by discriminate; exact Sb).
  rewrite (spsum_slot G both p2 0 0 (length k0) _ dd (mkSpecies (-1) 1 true) eq_refl Sa).
  assert (K : (spsum G both p2 == spsum G both [[k0]; [k1]])%Q).
  { unfold p2, spsum. cbn [combine both]. rewrite !qsum_cons. cbn [fst snd]. unfold particles. cbn [map concat flat_map]. rewrite E.
    pose proof (alive_room k0 [blank]) as A0. pose proof (alive_room k1 [blank]) as A1. cbn [map] in A0, A1. rewrite A0, A1. reflexivity. }
  rewrite K, E. cbn [M_PartSync.dead M_PartSync.row rowof]. ring.
Qed.
Lemma pair_value : let x := (1 + LIGHT_SPEED * d_dt (ex_dom 1) * 0)%Q in
  ~ Q2Qc (cF 1 1 (mkSpecies (-1) 1 true) (newborn rr (16#25) x x (25#12) 0 0 1 (fly 0 0 0 0 0 0)) + cF 1 1 (mkSpecies 1 1 true) (newborn rr (1 - (16#25)) x x (25#12) 0 0 1 (fly 0 0 0 0 0 0))) = Q2Qc 0.
Proof. intros x X. apply (f_equal this) in X. vm_compute in X. discriminate X. Qed.
Theorem C116_pair_refuted : forall eps, ~ eps = Q2Qc 0 -> exists t s',
  domain_ok (ex_dom 1) /\ opposite both [(0, 1)]%nat /\ ready (ex_dom 1) both (at_start []) /\ consistent (ex_dom 1) (at_start []) /\
  stepR rr eps (ex_dom 1) [(0, 1)]%nat both (fun _ => 0%nat) t (at_start []) s' /\
  before_collisions t = [[[]]; [[]]] /\ after_collisions t = [[[]]; [[]]] /\
  (forall i j, defect eps (ex_dom 1) both (at_start []) i j = Q2Qc 0) /\ ~ defect eps (ex_dom 1) both s' 1 1 = Q2Qc 0.
Proof.
  intros eps He. assert (Forall (settled (ex_dom 1)) [[[]]; [[]]]) as F by at_home.
  destruct (start_step eps [(0, 1)%nat] [] [[[]]; [[]]] F (collided_refl _ _)) as (ps2 & P & E).
  destruct ps2 as [|st0 [|st1 ps2]]; [inversion P|inversion P as [|? ? ? ? ? P']; inversion P'|].
  inversion P as [|? ? ? ? (L0 & _) P']. inversion P' as [|? ? ? ? (L1 & _) P'']. inversion P''. subst. clear P P' P''.
  destruct st0 as [|k0 [|]]; try discriminate L0. destruct st1 as [|k1 [|]]; try discriminate L1. clear L0 L1.
  set (blank := fly 0 0 0 0 0 0). set (dd := M_PartSync.mkSlot (prow body) blank true). set (pss := [[k0]; [k1]]).
  set (x := (1 + LIGHT_SPEED * d_dt (ex_dom 1) * 0)%Q).
  assert (photon_at (ex_dom 1) 0 x x) as Ph by (exists 1%Q, 1%Q, 0%Q, 0%Q; repeat split; vm_compute; discriminate).
  set (p1 := [[k0 ++ [dd]]; [k1]]). set (p2 := [[k0 ++ [dd]]; [k1 ++ [dd]]]).
  assert (Sa : slot_at p2 0 0 (length k0) = Some dd) by (unfold slot_at; cbn [nth p2]; rewrite nth_error_app2, Nat.sub_diag by lia; reflexivity).
  assert (Sb : slot_at p2 1 0 (length k1) = Some dd) by (unfold slot_at; cbn [nth p2]; rewrite nth_error_app2, Nat.sub_diag by lia; reflexivity).
  assert (N01 : (0 <> 1)%nat) by discriminate.
  destruct (E _ (qed_more _ _ _ _ p1 _ (ev_room rr (ex_dom 1) _ pss 0 0 [blank]) (qed_more _ _ _ _ p2 _ (ev_room rr (ex_dom 1) _ p1 1 0 [blank])
    (qed_more _ _ _ _ _ _ (ev_pair rr (ex_dom 1) [(0, 1)%nat] p2 0 1 0 _ _ dd dd x x (25#12) 0 0 1 (16#25) (or_introl eq_refl) N01 Ph Sa eq_refl Sb eq_refl) (qed_none _ _ _ _))))) as (s' & T).
  eexists. exists s'. split; [exact (ex_ok 1 (or_introl eq_refl))|].
  split; [intros i j [I|[]] sp sp' E1 E2; injection I as <- <-; injection E1 as <-; injection E2 as <-; reflexivity|].
  split; [split; [reflexivity|exact F]|]. split; [apply start_consistent|]. split; [exact T|].
  cbn [before_collisions after_collisions before_qed after_qed]. split; [reflexivity|]. split; [reflexivity|]. split; [intros i j; apply start_defect|].
  apply (broken eps [(0, 1)%nat] [] _ s' 1 1 He F T). unfold shifted. cbn [before_collisions after_collisions before_qed after_qed].
  assert (X : (charge (ex_dom 1) both [[[]]; [[]]] 1 1 - charge (ex_dom 1) both [[[]]; [[]]] 1 1)%Qc = Q2Qc 0) by ring. rewrite X. clear X.
  rewrite (charge_differs _ _ 1 1 (cF 1 1 (mkSpecies (-1) 1 true) (newborn rr (16#25) x x (25#12) 0 0 1 blank) + cF 1 1 (mkSpecies 1 1 true) (newborn rr (1 - (16#25)) x x (25#12) 0 0 1 blank))).
  - intro X. exact (pair_value (eq_trans (eq_sym (Qcplus_0_l _)) X)).
  - exact (pair_difference (cF 1 1) k0 k1 dd blank _ _ eq_refl).
Qed.
Print Assumptions C116_exact.
Print Assumptions C116_no_net_charge.
Print Assumptions C116_total_violation.
Print Assumptions C116_charge_kept.
Print Assumptions C116_div_b.
Print Assumptions C116_gauss_partial.
Print Assumptions C116_collision_refuted.
Print Assumptions C116_recoil_refuted.
Print Assumptions C116_pair_refuted.
