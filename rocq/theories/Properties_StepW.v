(** C120, C121: runs in which species, pushers, the interpolator and the current depositor are switched on and off (2D, periodic). *)
From Coq Require Import QArith Qabs Qcanon Permutation Lqa.
From Verif Require Import Base M_Layout M_PartSync S_PartSync M_FieldSync S_FieldSync M_Maxwell S_Maxwell M_Deposit S_Deposit M_Push M_Step S_Step S_Gauss P_Deposit P_Step2 P_Step3 P_Step4 P_Step5 P_Gauss1 P_Gauss2 Properties_Step Properties_StepR M_StepW S_StepW P_StepW P_StepW2.
Local Open Scope list_scope.
Local Open Scope Z_scope.

Section S.
Variable rsqrt : Q -> Q.
Hypothesis SUB : subluminal rsqrt.
Variable eps : Qc.

(** ** Gauss' law: whatever is switched on and off from step to step, the violation over all species (also those that are
    off) stays what it was, as long as pusher and depositor of a species that is on and pushed in stages go together *)
Theorem C120_gauss : forall D sps Ws s s' i j, domain_ok D -> ready D sps s -> consistent D s -> stepsW rsqrt eps D sps Ws s s' ->
  (forall W, In W Ws -> paced sps W) -> defect eps D sps s' i j = defect eps D sps s i j.
Proof. intros D sps Ws s s' i j OK R C T. exact (proj1 (defect_stepsW rsqrt SUB eps D OK sps Ws s s' i j R C T)). Qed.
(** ** the magnetic field keeps its divergence under all switches *)
Theorem C120_div_b : forall D sps Ws s s' i j, domain_ok D -> ready D sps s -> consistent D s -> stepsW rsqrt eps D sps Ws s s' ->
  divB2 (qc_arith eps) (on_domain D (t_B s')) (Q2Qc (d_dx D)) (Q2Qc (d_dy D)) i j = divB2 (qc_arith eps) (on_domain D (t_B s)) (Q2Qc (d_dx D)) (Q2Qc (d_dy D)) i j.
Proof. intros D sps Ws s s' i j OK R C T. exact (proj1 (proj2 (defect_stepsW rsqrt SUB eps D OK sps Ws s s' i j R C T))). Qed.
(** ** the stored charge density is that of the species that were seen in the last step *)
Theorem C120_stored_charge : forall D sps Ws W s s' i j, domain_ok D -> ready D sps s -> consistent D s -> stepsW rsqrt eps D sps (Ws ++ [W]) s s' ->
  on_domain D (t_J s') 3 [i; j] = charge_seen D W sps (t_parts s') i j.
Proof. intros D sps Ws W s s' i j OK R C T. exact (proj1 (proj2 (proj2 (defect_stepsW rsqrt SUB eps D OK sps _ s s' i j R C T))) W Ws eq_refl). Qed.
(** ** a species that is off keeps its particles with all their attributes *)
Theorem C120_frozen : forall D sps Ws k s s', domain_ok D -> ready D sps s -> consistent D s -> stepsW rsqrt eps D sps Ws s s' ->
  (forall W, In W Ws -> w_on W k = false) -> same_particles (nth k (t_parts s) []) (nth k (t_parts s') []).
Proof. intros D sps Ws k s s' OK. exact (off_steps rsqrt SUB eps D OK sps k Ws s s'). Qed.
(** ** every choice of switches can be run, and every run ends in a state from which it can go on *)
Theorem C120_runs_exist : forall D sps Ws s, domain_ok D -> ready D sps s -> consistent D s -> exists s', stepsW rsqrt eps D sps Ws s s'.
Proof. intros D sps Ws s OK. exact (stepsW_exist rsqrt SUB eps D OK sps (fun _ => 0%nat) Ws s). Qed.
Theorem C120_ready : forall D sps Ws s s', domain_ok D -> ready D sps s -> consistent D s -> stepsW rsqrt eps D sps Ws s s' -> ready D sps s' /\ consistent D s'.
Proof. intros D sps Ws s s' OK R C T. exact (proj2 (proj2 (proj2 (defect_stepsW rsqrt SUB eps D OK sps Ws s s' 0 0 R C T)))). Qed.
End S.

(** * A run with switches *)
Definition mixed : list species := [mkSpecies (-1) 1 false; mkSpecies 1 1 true].
Definition all_on : switches := mkSwitches (fun _ => true) (fun _ => true) true true.
Definition no_electrons : switches := mkSwitches (fun i => negb (i =? 0)%nat) (fun _ => true) true true.
Definition no_positron_pusher : switches := mkSwitches (fun _ => true) (fun i => negb (i =? 1)%nat) false true.
Definition no_electron_motion : switches := mkSwitches (fun _ => true) (fun i => negb (i =? 0)%nat) true false.
Definition start_l : list prt := [slot_of east].
Lemma mixed_defect eps i j : defect eps (ex_dom 1) mixed (at_start start_l) i j = Q2Qc 0.
Proof. exact (start_defect eps start_l i j). Qed.
Lemma mixed_ready : ready (ex_dom 1) mixed (at_start start_l).
Proof. split; [reflexivity|]. constructor; [|constructor; [|constructor]]; (split; [reflexivity|]); intros p r Hp I; (assert (p = 0)%nat as -> by (change (npatches2 (ex_dom 1)) with 1%nat in Hp; lia)); cbn [nth at_start t_parts] in I; ex_in I. Qed.
Example C120_example : forall eps, exists s', stepsW rr eps (ex_dom 1) mixed [all_on; no_electrons; no_positron_pusher; no_electron_motion; no_electrons] (at_start start_l) s' /\
  forall i j, defect eps (ex_dom 1) mixed s' i j = Q2Qc 0.
Proof.
  intro eps. destruct (C120_runs_exist rr rr_sub eps (ex_dom 1) mixed [all_on; no_electrons; no_positron_pusher; no_electron_motion; no_electrons] (at_start start_l) (ex_ok 1 (or_introl eq_refl)) mixed_ready (start_consistent _)) as [s' T].
  exists s'. split; [exact T|]. intros i j. rewrite (C120_gauss rr rr_sub eps _ _ _ _ s' i j (ex_ok 1 (or_introl eq_refl)) mixed_ready (start_consistent _) T); [apply mixed_defect|].
  intros W I k sp E. cbn [In] in I. repeat (destruct I as [<-|I]; [destruct k as [|[|k]]; [injection E as <-|injection E as <-|destruct k; discriminate E]; cbn; intros; congruence|]). contradiction.
Qed.

(** * C121: Gauss' law under every switch, and the charge of switched-off species, fail *)
(** the first species of a step, when it has one patch *)
Lemma first_pushed rsqrt D W sp sps mE mB mJ l pss mJ' ps2 : w_on W 0 = true -> push_species_w rsqrt D W 0 (sp :: sps) mE mB mJ ([l] :: pss) = Some (mJ', ps2) ->
  exists l' rest, push_patch_w rsqrt D W 0 sp mE mB 0 l = Some l' /\ ps2 = [l'] :: rest.
Proof.
  intros On E. cbn [push_species_w push_patches_w] in E. rewrite On in E. destruct (push_patch_w rsqrt D W 0 sp mE mB 0 l) as [l'|]; [|discriminate E].
  destruct (push_species_w _ _ _ _ _ _ _ _ _) as [[mJ2 rest]|]; [|discriminate E]. injection E as _ <-. exists l', rest. split; reflexivity.
Qed.
Lemma sorted_one W l pss ps1 : sorted_w W 0 ([[l]] :: pss) ps1 -> exists rest, ps1 = [[l]] :: rest /\ sorted_w W 1 pss rest.
Proof.
  destruct ps1 as [|st1 rest]; intros []. exists rest. split; [|assumption]. f_equal. destruct (w_on W 0); [|assumption].
  inversion H as [|? l1 ? k X Y]; subst. inversion Y; subst. rewrite (Permutation_length_1_inv X). reflexivity.
Qed.
Lemma broken_w eps W v s' i j : ~ eps = Q2Qc 0 -> stepW rr eps (ex_dom 1) mixed W (fun _ => 0%nat) (at_start start_l) s' -> w_on W 0 = true ->
  (forall mE mB l', push_patch_w rr (ex_dom 1) W 0 (mkSpecies (-1) 1 false) mE mB 0 start_l = Some l' -> pushed_w (ex_dom 1) (w_pusher W 0) [start_l] [l'] ->
    slip (ex_dom 1) W 0 [mkSpecies (-1) 1 false] [[start_l]] [[l']] i j == v)%Q ->
  ~ (v == 0)%Q -> ~ defect eps (ex_dom 1) mixed s' i j = Q2Qc 0.
Proof.
  intros He T On V N Z. destruct (defect_stepW rr rr_sub eps (ex_dom 1) (ex_ok 1 (or_introl eq_refl)) mixed W _ (at_start start_l) s' i j mixed_ready (start_consistent _) T) as (ps1 & mE & mB & mJ & mJ1 & ps2 & A1 & A2 & A3 & _ & E & _).
  rewrite mixed_defect, Z in E. cbn [at_start t_parts] in A1. destruct (sorted_one W _ _ _ A1) as (rest & -> & A1').
  destruct (first_pushed _ _ _ _ _ _ _ _ _ _ _ _ On A2) as (l' & rest' & P & ->).
  destruct A3 as (A3 & _ & A4). rewrite On in A3. cbn [andb] in A3. specialize (V mE mB l' P A3).
  assert (slip (ex_dom 1) W 0 mixed ([start_l] :: rest) ([l'] :: rest') i j == v)%Q as K.
  { unfold mixed. cbn [slip] in *. 
    assert (length rest = 1)%nat as L by (destruct rest as [|a [|b rest]]; try reflexivity; [destruct A1'|destruct A1' as [_ []]]).
    assert (forall st, In st rest -> length st = npatches2 (ex_dom 1)) as N1.
    { intros st I. destruct rest as [|a [|b rest]]; try discriminate L. destruct I as [<-|[]]. destruct A1' as [A1' _]. destruct (w_on W 1); [|subst a; reflexivity]. inversion A1' as [|? ? ? ? X Y]; subst. inversion Y; subst. reflexivity. }
    pose proof (paced_slip (ex_dom 1) W i j [mkSpecies 1 1 true] rest rest' 1 L N1 A4) as X. cbn [slip] in X. rewrite X; [|intros [|[|m]] sp Em; try discriminate Em; injection Em as <-; cbn; congruence].
    rewrite <- V. ring. }
  pose proof (q2qc_eq _ _ K) as KK. unfold start_l in KK. rewrite KK in E. clear KK. apply N. assert (Q2Qc v = Q2Qc 0) as X.
  { assert (Q2Qc v / eps = Q2Qc 0)%Qc as X by (rewrite E; ring). transitivity (Q2Qc v / eps * eps)%Qc; [|rewrite X; ring]. unfold Qcdiv. rewrite <- Qcmult_assoc, (Qcmult_comm (/ eps)), Qcmult_inv_r by exact He. ring. }
  apply (f_equal this) in X. rewrite <- (this_q2qc v), X. reflexivity.
Qed.
(** ** pusher off, depositor on: the particle stands still but its current is added all the same *)
Definition no_electron_pusher : switches := mkSwitches (fun _ => true) (fun i => negb (i =? 0)%nat) true true.
Theorem C121_pusher_off_refuted : forall eps, ~ eps = Q2Qc 0 -> exists s',
  domain_ok (ex_dom 1) /\ ready (ex_dom 1) mixed (at_start start_l) /\ consistent (ex_dom 1) (at_start start_l) /\
  stepW rr eps (ex_dom 1) mixed no_electron_pusher (fun _ => 0%nat) (at_start start_l) s' /\
  (forall i j, defect eps (ex_dom 1) mixed (at_start start_l) i j = Q2Qc 0) /\ ~ defect eps (ex_dom 1) mixed s' 2 1 = Q2Qc 0.
Proof.
  intros eps He. destruct (stepW_exists rr rr_sub eps (ex_dom 1) (ex_ok 1 (or_introl eq_refl)) mixed no_electron_pusher (fun _ => 0%nat) (at_start start_l) mixed_ready (start_consistent _)) as [s' T].
  exists s'. split; [exact (ex_ok 1 (or_introl eq_refl))|]. split; [exact mixed_ready|]. split; [apply start_consistent|]. split; [exact T|]. split; [intros; apply mixed_defect|].
  apply (broken_w eps no_electron_pusher (charge_of (ex_dom 1) (-1) (1#2) 2 1 east - charge_of (ex_dom 1) (-1) (-1#2) 2 1 east) s' 2 1 He T eq_refl).
  - intros mE mB l' _ [_ P]. specialize (P 0%nat (Nat.lt_0_succ 0)). cbn [nth w_pusher no_electron_pusher Nat.eqb negb after_push] in P.
    assert (forall h, qsum (charge_of (ex_dom 1) (-1) h 2 1) (particles [l']) == charge_of (ex_dom 1) (-1) h 2 1 east)%Q as K.
    { intro h. rewrite <- (by_patch (ex_dom 1) (held (ex_dom 1)) (charge_of (ex_dom 1) (-1) h 2 1) (charge_of (ex_dom 1) (-1) h 2 1) [start_l] [l'] eq_refl eq_refl).
      - change (particles [start_l]) with [east]. rewrite qsum_cons. change (qsum _ []) with 0%Q. ring.
      - intros p Hp. assert (p = 0)%nat as -> by (change (npatches2 (ex_dom 1)) with 1%nat in Hp; lia). exact P.
      - intros p r r' (_ & _ & X). symmetry. apply X. }
    cbn [slip]. change (seen no_electron_pusher 0 (mkSpecies (-1) 1 false)) with true. cbn [sp_q]. change (particles [start_l]) with [east]. rewrite !K, qsum_cons. change (qsum _ []) with 0%Q. ring.
  - vm_compute. discriminate.
Qed.
(** ** depositor off, pusher on: the particle moves without a current *)
Definition no_depositor : switches := mkSwitches (fun _ => true) (fun _ => true) false false.
Definition flown : list prt := match push_patch_w rr (ex_dom 1) no_depositor 0 (mkSpecies (-1) 1 false) (fun _ => Q2Qc 0) (fun _ => Q2Qc 0) 0 start_l with Some l => l | None => [] end.
Lemma flown_is mE mB : push_patch_w rr (ex_dom 1) no_depositor 0 (mkSpecies (-1) 1 false) mE mB 0 start_l = Some flown.
Proof. reflexivity. Qed.
Theorem C121_depositor_off_refuted : forall eps, ~ eps = Q2Qc 0 -> exists s',
  domain_ok (ex_dom 1) /\ ready (ex_dom 1) mixed (at_start start_l) /\ consistent (ex_dom 1) (at_start start_l) /\
  stepW rr eps (ex_dom 1) mixed no_depositor (fun _ => 0%nat) (at_start start_l) s' /\
  (forall i j, defect eps (ex_dom 1) mixed (at_start start_l) i j = Q2Qc 0) /\ ~ defect eps (ex_dom 1) mixed s' 2 1 = Q2Qc 0.
Proof.
  intros eps He. destruct (stepW_exists rr rr_sub eps (ex_dom 1) (ex_ok 1 (or_introl eq_refl)) mixed no_depositor (fun _ => 0%nat) (at_start start_l) mixed_ready (start_consistent _)) as [s' T].
  exists s'. split; [exact (ex_ok 1 (or_introl eq_refl))|]. split; [exact mixed_ready|]. split; [apply start_consistent|]. split; [exact T|]. split; [intros; apply mixed_defect|].
  apply (broken_w eps no_depositor (slip (ex_dom 1) no_depositor 0 [mkSpecies (-1) 1 false] [[start_l]] [[flown]] 2 1) s' 2 1 He T eq_refl).
  - intros mE mB l' E _. rewrite flown_is in E. injection E as <-. reflexivity.
  - vm_compute. discriminate.
Qed.
(** ** a species that is off is missing from the stored charge density, although its particles are there *)
Definition lone : list species := [mkSpecies (-1) 1 false].
Definition lone_start : state2 := mkState2 (fun _ => Q2Qc 0) (fun _ => Q2Qc 0) (fun _ => Q2Qc 0) [[start_l]].
Definition species_off : switches := mkSwitches (fun _ => false) (fun _ => true) true true.
Lemma lone_ready : ready (ex_dom 1) lone lone_start.
Proof. split; [reflexivity|]. constructor; [|constructor]. exact (Forall_inv (proj2 mixed_ready)). Qed.
Lemma lone_consistent : consistent (ex_dom 1) lone_start.
Proof. split; [|split]; eexists; try apply ex_field; apply ex_cur. Qed.
Theorem C121_invisible_refuted : forall eps, exists s',
  domain_ok (ex_dom 1) /\ ready (ex_dom 1) lone lone_start /\ consistent (ex_dom 1) lone_start /\
  stepsW rr eps (ex_dom 1) lone [species_off] lone_start s' /\
  same_particles (nth 0 (t_parts lone_start) []) (nth 0 (t_parts s') []) /\
  on_domain (ex_dom 1) (t_J s') 3 [2; 1] = Q2Qc 0 /\ ~ charge (ex_dom 1) lone (t_parts s') 2 1 = Q2Qc 0.
Proof.
  intro eps. pose proof (ex_ok 1 (or_introl eq_refl)) as OK.
  destruct (stepsW_exist rr rr_sub eps (ex_dom 1) OK lone (fun _ => 0%nat) [species_off] lone_start lone_ready lone_consistent) as [s' T].
  exists s'. split; [exact OK|]. split; [exact lone_ready|]. split; [exact lone_consistent|]. split; [exact T|].
  assert (same_particles (nth 0 (t_parts lone_start) []) (nth 0 (t_parts s') [])) as F by (apply (C120_frozen rr rr_sub eps (ex_dom 1) lone [species_off] 0 lone_start s' OK lone_ready lone_consistent T); intros W [<-|[]]; reflexivity).
  split; [exact F|]. pose proof (C120_ready rr rr_sub eps (ex_dom 1) lone [species_off] lone_start s' OK lone_ready lone_consistent T) as [[L _] _].
  pose proof (C120_stored_charge rr rr_sub eps (ex_dom 1) lone [] species_off lone_start s' 2 1 OK lone_ready lone_consistent T) as J.
  destruct (t_parts s') as [|st [|st' ps]]; try discriminate L. cbn [nth] in F. split; [rewrite J; reflexivity|].
  assert (charge (ex_dom 1) lone [st] 2 1 = charge (ex_dom 1) lone [[start_l]] 2 1) as ->.
  { unfold charge. apply q2qc_eq. cbn [combine lone]. rewrite !qsum_cons. cbn [fst snd sp_q]. change (qsum _ []) with 0%Q.
    rewrite (csum_canon (ex_dom 1) OK (-1) (1#2) 2 1 (particles st)), (csum_canon (ex_dom 1) OK (-1) (1#2) 2 1 (particles [start_l])). rewrite (qsum_perm _ _ _ F). reflexivity. }
  intro X. apply (f_equal this) in X. vm_compute in X. discriminate X.
Qed.
Print Assumptions C120_gauss.
Print Assumptions C120_div_b.
Print Assumptions C120_stored_charge.
Print Assumptions C120_frozen.
Print Assumptions C120_runs_exist.
Print Assumptions C120_ready.
Print Assumptions C121_pusher_off_refuted.
Print Assumptions C121_depositor_off_refuted.
Print Assumptions C121_invisible_refuted.
