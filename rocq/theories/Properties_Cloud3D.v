(** C135: C122 in three dimensions: a run depends on its particles only through the charge they put at each point of phase
    space; how the charge is divided over macro-particles, species, patches and processes does not matter. *)
From Coq Require Import QArith Qabs Qcanon Permutation Lqa.
From Verif Require Import Base M_Layout M_PartSync S_PartSync M_FieldSync S_FieldSync M_Maxwell S_Maxwell M_Deposit S_Deposit M_Push M_Step S_Step P_Deposit P_Step5 M_Step3D S_Step3D S_Cloud3D P_CloudD2 Properties_Step3D Properties_Cloud.
Local Open Scope list_scope.

Section S.
Variable rsqrt : Q -> Q.
Hypothesis SUB : subluminal rsqrt.
Variable eps : Qc.

(** ** two simulations of one domain that start with the same fields and the same charge at every point of phase space keep
    doing so for any number of steps *)
Theorem C135_same_run : forall D D' sps sps' k s s' s1 s1',
  domain3_ok D -> domain3_ok D' -> same_domain3 D D' -> all_fused sps -> all_fused sps' -> ready3 D sps s -> ready3 D' sps' s' ->
  same_fields3 D D' s s' -> same_cloud3 sps sps' (t_parts s) (t_parts s') ->
  steps3d rsqrt eps D sps k s s1 -> steps3d rsqrt eps D' sps' k s' s1' ->
  same_fields3 D D' s1 s1' /\ same_cloud3 sps sps' (t_parts s1) (t_parts s1').
Proof.
  intros D D' sps sps' k s s' s1 s1' OK OK' SD U U' R R' E C T T'.
  destruct (steps_cloud3 rsqrt SUB eps D D' OK OK' SD sps sps' U U' k s s' s1 s1' R R' E C T T') as (H1 & H2 & _). split; assumption.
Qed.

(** ** read off at single cells: same E and B (guard cells included), same current and charge densities inside the patches *)
Theorem C135_same_values : forall D D' sps sps' k s s' s1 s1' f p p' c c' g,
  domain3_ok D -> domain3_ok D' -> same_domain3 D D' -> all_fused sps -> all_fused sps' -> ready3 D sps s -> ready3 D' sps' s' ->
  same_fields3 D D' s s' -> same_cloud3 sps sps' (t_parts s) (t_parts s') ->
  steps3d rsqrt eps D sps k s s1 -> steps3d rsqrt eps D' sps' k s' s1' ->
  (p < npatches3 D)%nat -> (p' < npatches3 D')%nat ->
  place [e_ax D; e_ay D; e_az D] [e_nx D; e_ny D; e_nz D] (position3 (e_ax D) (e_ay D) p) c = Some g ->
  place [e_ax D'; e_ay D'; e_az D'] [e_nx D'; e_ny D'; e_nz D'] (position3 (e_ax D') (e_ay D') p') c' = Some g ->
  let at_ := cell [e_nx D; e_ny D; e_nz D] (e_ng D) f p c in let at_' := cell [e_nx D'; e_ny D'; e_nz D'] (e_ng D') f p' c' in
  ((f < 3)%nat -> within (e_ng D) [e_nx D; e_ny D; e_nz D] c -> within (e_ng D') [e_nx D'; e_ny D'; e_nz D'] c' ->
     t_E s1 at_ = t_E s1' at_' /\ t_B s1 at_ = t_B s1' at_') /\
  ((f < 4)%nat -> interior [e_nx D; e_ny D; e_nz D] c -> interior [e_nx D'; e_ny D'; e_nz D'] c' -> t_J s1 at_ = t_J s1' at_').
Proof.
  intros D D' sps sps' k s s' s1 s1' f p p' c c' g OK OK' SD U U' R R' E C T T' Hp Hp' G G' at_ at_'.
  destruct (C135_same_run D D' sps sps' k s s' s1 s1' OK OK' SD U U' R R' E C T T') as (((FE & E1 & E2) & (FB & B1 & B2) & (FJ & J1 & J2)) & _).
  split.
  - intros Hf W W'. unfold at_, at_'. rewrite (E1 f p c Hf Hp W), (E2 f p' c' Hf Hp' W'), (B1 f p c Hf Hp W), (B2 f p' c' Hf Hp' W'). unfold shown. rewrite G, G'. auto.
  - intros Hf W W'. unfold at_, at_'. rewrite (J1 f p c Hf Hp W), (J2 f p' c' Hf Hp' W'). unfold shown. rewrite G, G'. reflexivity.
Qed.

(** ** in two such runs, whatever other sums over the species agree at every point of phase space at the start (the particles of
    one species, say, or their number or mass) agree ever after *)
Theorem C135_carried : forall D D' sps sps' k s s' s1 s1' coef coef',
  domain3_ok D -> domain3_ok D' -> same_domain3 D D' -> all_fused sps -> all_fused sps' -> ready3 D sps s -> ready3 D' sps' s' ->
  same_fields3 D D' s s' -> same_cloud3 sps sps' (t_parts s) (t_parts s') ->
  steps3d rsqrt eps D sps k s s1 -> steps3d rsqrt eps D' sps' k s' s1' ->
  (forall x, spread3 coef sps (t_parts s) x == spread3 coef' sps' (t_parts s') x)%Q ->
  forall x, (spread3 coef sps (t_parts s1) x == spread3 coef' sps' (t_parts s1') x)%Q.
Proof.
  intros D D' sps sps' k s s' s1 s1' coef coef' OK OK' SD U U' R R' E C T T'.
  destruct (steps_cloud3 rsqrt SUB eps D D' OK OK' SD sps sps' U U' k s s' s1 s1' R R' E C T T') as (_ & _ & H). apply H.
Qed.

(** ** adding a species without charge or without weight (test particles, neutral atoms) changes neither the fields nor the
    other species *)
Theorem C135_test_particles : forall D sps sp st k s s1 s1', domain3_ok D -> all_fused sps -> sp_unified sp = true -> consistent3 D s -> ready3 D sps s -> settled3 D st ->
  (sp_q sp == 0)%Q \/ (forall r, In r (particles st) -> (b_w (other _ r) == 0)%Q) ->
  steps3d rsqrt eps D sps k s s1 -> steps3d rsqrt eps D (sps ++ [sp]) k (mkState2 (t_E s) (t_B s) (t_J s) (t_parts s ++ [st])) s1' ->
  same_fields3 D D s1 s1' /\
  forall coef x, length coef = length sps -> (spread3 coef sps (t_parts s1) x == spread3 (coef ++ [0]) (sps ++ [sp]) (t_parts s1') x)%Q.
Proof.
  intros D sps sp st k s s1 s1' OK U Us ((FE & HE) & (FB & HB) & (FJ & HJ)) [L F] Fst Z T T'.
  assert (forall coef v x, length coef = length sps -> (v == 0)%Q \/ (forall r, In r (particles st) -> (b_w (other _ r) == 0)%Q) ->
            (spread3 coef sps (t_parts s) x == spread3 (coef ++ [v]) (sps ++ [sp]) (t_parts s ++ [st]) x)%Q) as K.
  { intros coef v x Lc Zv. revert L Lc. generalize (t_parts s). clear - Zv. revert sps. induction coef as [|c coef IH]; intros [|a sps] [|b pss]; cbn [length]; try lia.
    - intros _ _. unfold spread3. cbn [app combine]. rewrite qsum_cons. cbn [fst snd]. change (qsum _ []) with 0%Q. rewrite Qplus_0_r. symmetry. destruct Zv as [Zv|Zv]; [rewrite Zv; ring|].
      rewrite (qsum_ext _ (fun _ => 0%Q)). { unfold qsum. induction (particles st); cbn [fold_right map]; [ring|]. rewrite Qmult_plus_distr_r, IHl by (intros; apply Zv; right; assumption). ring. }
      intros r Ir. destruct (at_point3 x sp r); [apply Zv; exact Ir|reflexivity].
    - intros L Lc. specialize (IH sps pss ltac:(lia) ltac:(lia)). unfold spread3 in *. cbn [app combine]. rewrite !qsum_cons, IH. reflexivity. }
  assert (ready3 D (sps ++ [sp]) (mkState2 (t_E s) (t_B s) (t_J s) (t_parts s ++ [st]))) as R'.
  { split; cbn [t_parts]; [rewrite !app_length; cbn [length]; lia|]. apply Forall_app. split; [exact F|]. constructor; [exact Fst|constructor]. }
  assert (same_fields3 D D s (mkState2 (t_E s) (t_B s) (t_J s) (t_parts s ++ [st]))) as E by (split; [exists FE; auto|split; [exists FB; auto|exists FJ; auto]]).
  assert (same_cloud3 sps (sps ++ [sp]) (t_parts s) (t_parts s ++ [st])) as C.
  { intro x. unfold charge_at3. rewrite map_app. cbn [map]. apply K; [apply map_length|exact Z]. }
  assert (same_domain3 D D) as SD by (unfold same_domain3; auto 10).
  assert (all_fused (sps ++ [sp])) as U2 by (apply Forall_app; split; [exact U|constructor; [exact Us|constructor]]).
  split; [exact (proj1 (C135_same_run D D _ _ k _ _ _ _ OK OK SD U U2 (conj L F) R' E C T T'))|].
  intros coef x Lc. apply (C135_carried D D _ _ k _ _ _ _ coef (coef ++ [0%Q]) OK OK SD U U2 (conj L F) R' E C T T'). intro y. apply K; [exact Lc|left; reflexivity].
Qed.
End S.

(** ** starts with the same charge at every point of phase space *)
(** the species listed in another order *)
Theorem C135_species_order : forall sps sps' pss pss', Permutation (combine sps pss) (combine sps' pss') -> same_cloud3 sps sps' pss pss'.
Proof.
  assert (forall k sps pss, charge_at3 sps pss k == qsum (fun x => sp_q (fst x) * qsum (fun r => if at_point3 k (fst x) r then b_w (other _ r) else 0) (particles (snd x))) (combine sps pss))%Q as K.
  { intros k. induction sps as [|sp sps IH]; intros [|st pss]; try reflexivity. unfold charge_at3, spread3 in *. cbn [map combine]. rewrite !qsum_cons, IH. reflexivity. }
  intros sps sps' pss pss' P k. rewrite !K. apply qsum_perm. exact P.
Qed.
Lemma together_at3 k sp sp' r r' : (sp_q sp / sp_m sp == sp_q sp' / sp_m sp')%Q -> together3 r r' -> at_point3 k sp r = at_point3 k sp' r'.
Proof. intros H (H1 & H2 & H7 & H3 & H4 & H5 & H6). unfold at_point3. rewrite !(eqb_comp _ _ _ _ (Qeq_refl _) H), !(eqb_comp _ _ _ _ (Qeq_refl _) H1), !(eqb_comp _ _ _ _ (Qeq_refl _) H2), !(eqb_comp _ _ _ _ (Qeq_refl _) H7), !(eqb_comp _ _ _ _ (Qeq_refl _) H3), !(eqb_comp _ _ _ _ (Qeq_refl _) H4), !(eqb_comp _ _ _ _ (Qeq_refl _) H5), !(eqb_comp _ _ _ _ (Qeq_refl _) H6). reflexivity. Qed.
Lemma one_species3 k a sp st b pa pb : length pa = length a ->
  (charge_at3 (a ++ sp :: b) (pa ++ st :: pb) k == charge_at3 a pa k + sp_q sp * qsum (fun r => if at_point3 k sp r then b_w (other _ r) else 0) (particles st) + charge_at3 b pb k)%Q.
Proof.
  revert pa. induction a as [|x a IH]; intros [|p pa] L; cbn [length] in L; try lia; unfold charge_at3, spread3 in *; cbn [app map combine]; rewrite !qsum_cons; cbn [fst snd].
  - change (qsum _ []) with 0%Q. ring.
  - rewrite IH by lia. ring.
Qed.
(** one macro-particle replaced by several at the same place with the same momentum, whose weights add up to its weight *)
Theorem C135_split_particle : forall a sp b pa st st' pb r rs rest, length pa = length a ->
  Permutation (particles st) (r :: rest) -> Permutation (particles st') (rs ++ rest) -> (forall r', In r' rs -> together3 r' r) ->
  (qsum (fun r' => b_w (other _ r')) rs == b_w (other _ r))%Q ->
  same_cloud3 (a ++ sp :: b) (a ++ sp :: b) (pa ++ st :: pb) (pa ++ st' :: pb).
Proof.
  intros a sp b pa st st' pb r rs rest L P P' H W k. rewrite !one_species3 by exact L. rewrite (qsum_perm _ _ _ P), (qsum_perm _ _ _ P'), qsum_cons, qsum_app.
  rewrite (qsum_ext (fun r0 => if at_point3 k sp r0 then b_w (other _ r0) else 0) (fun r0 => if at_point3 k sp r then b_w (other _ r0) else 0) rs)%Q.
  2:{ intros r' I. rewrite (together_at3 k sp sp r' r (Qeq_refl _) (H r' I)). reflexivity. }
  destruct (at_point3 k sp r); [rewrite W; ring|]. assert (qsum (fun _ : prow body => 0) rs == 0)%Q as -> by (clear; induction rs; [reflexivity|rewrite qsum_cons, IHrs; ring]). ring.
Qed.
(** two species of the same charge and mass made one *)
Theorem C135_merged_species : forall a q m u u1 u2 b pa st1 st2 st pb, length pa = length a -> Permutation (particles st) (particles st1 ++ particles st2) ->
  same_cloud3 (a ++ mkSpecies q m u1 :: mkSpecies q m u2 :: b) (a ++ mkSpecies q m u :: b) (pa ++ st1 :: st2 :: pb) (pa ++ st :: pb).
Proof.
  intros a q m u u1 u2 b pa st1 st2 st pb L P k. rewrite !one_species3 by exact L. rewrite (qsum_perm _ _ _ P), qsum_app.
  change (charge_at3 (mkSpecies q m u2 :: b) (st2 :: pb) k) with (charge_at3 ([] ++ mkSpecies q m u2 :: b) ([] ++ st2 :: pb) k). rewrite one_species3 by reflexivity. change (charge_at3 [] [] k) with 0%Q. cbn [sp_q].
  change (at_point3 k (mkSpecies q m u1)) with (at_point3 k (mkSpecies q m u)). change (at_point3 k (mkSpecies q m u2)) with (at_point3 k (mkSpecies q m u)). ring.
Qed.
(** a species of particles c times heavier and more charged, with weights 1/c of what they were *)
Theorem C135_rescaled : forall a sp sp' b pa st st' pb c, length pa = length a -> ~ (c == 0)%Q -> (sp_q sp' == c * sp_q sp)%Q -> (sp_m sp' == c * sp_m sp)%Q ->
  Forall2 (fun r r' => together3 r r' /\ (b_w (other _ r) == c * b_w (other _ r'))%Q) (particles st) (particles st') ->
  same_cloud3 (a ++ sp :: b) (a ++ sp' :: b) (pa ++ st :: pb) (pa ++ st' :: pb).
Proof.
  intros a sp sp' b pa st st' pb c L Z Hq Hm F k. rewrite !one_species3 by exact L.
  assert (sp_q sp / sp_m sp == sp_q sp' / sp_m sp')%Q as Hr.
  { rewrite Hq, Hm. unfold Qdiv. rewrite Qinv_mult_distr. setoid_replace (c * sp_q sp * (/ c * / sp_m sp))%Q with (c * / c * (sp_q sp * / sp_m sp))%Q by ring. rewrite Qmult_inv_r by exact Z. ring. }
  assert (forall l l', Forall2 (fun r r' => together3 r r' /\ (b_w (other _ r) == c * b_w (other _ r'))%Q) l l' ->
    (qsum (fun r => if at_point3 k sp r then b_w (other _ r) else 0) l == c * qsum (fun r => if at_point3 k sp' r then b_w (other _ r) else 0) l')%Q) as K.
  { clear - Hr. intros l l' F. induction F as [|r r' l l' [H W] F IH]; [unfold qsum; cbn; ring|]. rewrite !qsum_cons, IH, (together_at3 k sp sp' r r' Hr H). destruct (at_point3 k sp' r'); [rewrite W|]; ring. }
  rewrite (K _ _ F), Hq. ring.
Qed.

(** ** a case: two particles of weight 2 in one patch of 6 x 6 x 3 cells, against two patches in which one of them is cut into
    three quarters and one quarter, the other belongs to a species twice as heavy and charged, and test particles fly along *)
Local Open Scope Z_scope.
Definition v_part (x y z ux uz w : Q) (id : Z) : prt :=
  M_PartSync.mkSlot _ (mkRow _ (Some x) (Some y) (Some z) (mkBody ux (1#3) uz (3#4) w (mkSix 0 0 0 0 0 0)%Q id)) false.
Definition cut3_state : state2 := mkState2 (fun _ => Q2Qc 0) (fun _ => Q2Qc 0) (fun _ => Q2Qc 0)
  [[[ey_part true 1 1 1 1 0 9]; [v_part (26#5) 2 (11#5) (5#4) (1#2) 1 3]]; [[v_part (12#5) 3 1 1 0 (3#2) 1; v_part (12#5) 3 1 1 0 (1#2) 2]; []]; [[v_part 1 1 2 (-1) 0 0 4]; []]].
Definition cut3_species := [mkSpecies (-2) 2 true; mkSpecies (-1) 1 true; mkSpecies (-1) 1 true].
Example C135_case : forall k e, exists s1 s1',
  steps3d ey_rsqrt e (ey_dom 1) ey_species k ey_one s1 /\ steps3d ey_rsqrt e (ey_dom 2) cut3_species k cut3_state s1' /\
  same_fields3 (ey_dom 1) (ey_dom 2) s1 s1' /\ same_cloud3 ey_species cut3_species (t_parts s1) (t_parts s1').
Proof.
  intros k e. pose proof (ey_ok 1 (or_introl eq_refl)) as O1. pose proof (ey_ok 2 (or_intror eq_refl)) as O2.
  assert (AF : all_fused ey_species) by (constructor; [reflexivity|constructor]).
  assert (AF2 : all_fused cut3_species) by (repeat (constructor; [reflexivity|]); constructor).
  assert (R1 : ready3 (ey_dom 1) ey_species ey_one).
  { split; [reflexivity|]. constructor; [|constructor]. split; [reflexivity|]. intros p r Hp I. assert (p = 0)%nat as -> by (change (npatches3 (ey_dom 1)) with 1%nat in Hp; lia). ey_in I. }
  assert (R2 : ready3 (ey_dom 2) cut3_species cut3_state).
  { split; [reflexivity|]. repeat (constructor; [split; [reflexivity|]; intros p r Hp I; change (npatches3 (ey_dom 2)) with 2%nat in Hp; destruct p as [|[|p]]; [| |lia]; ey_in I|]). constructor. }
  assert (C : forall D l, consistent3 D (mkState2 (fun _ => Q2Qc 0) (fun _ => Q2Qc 0) (fun _ => Q2Qc 0) l)) by (intros D l; split; [|split]; eexists; try apply ey_field; apply ey_cur).
  destruct (C98_runs_exist ey_rsqrt ey_sub e _ _ k ey_one O1 AF R1 (C _ _)) as (s1 & T1 & _).
  destruct (C98_runs_exist ey_rsqrt ey_sub e _ _ k cut3_state O2 AF2 R2 (C _ _)) as (s1' & T2 & _).
  exists s1, s1'. split; [exact T1|]. split; [exact T2|].
  refine (C135_same_run ey_rsqrt ey_sub e (ey_dom 1) (ey_dom 2) ey_species cut3_species k ey_one cut3_state s1 s1' O1 O2 _ AF AF2 R1 R2 _ _ T1 T2).
  - unfold same_domain3. repeat split; reflexivity.
  - split; [|split]; eexists; (split; [try apply ey_field; apply ey_cur|try apply ey_field; apply ey_cur]).
  - intro x. unfold charge_at3, spread3. cbn [t_parts ey_one ey_state cut3_state map combine ey_species cut3_species].
    set (u := mkRow _ (Some (12#5)%Q) (Some 3%Q) (Some 1%Q) (mkBody 1 (1#3) 0 (3#4) 2 (mkSix 0 0 0 0 0 0)%Q 7)).
    set (v := mkRow _ (Some (26#5)%Q) (Some 2%Q) (Some (11#5)%Q) (mkBody (5#4) (1#3) (1#2) (3#4) 2 (mkSix 0 0 0 0 0 0)%Q 8)).
    rewrite !qsum_cons. cbn [fst snd particles flat_map app S_PartSync.alive filter map negb M_PartSync.dead M_PartSync.row v_part ey_part sp_q].
    rewrite !qsum_cons. cbn [other b_w].
    assert (forall sp r r', (sp_q sp / sp_m sp == -1 / 1)%Q -> together3 r' r -> at_point3 x sp r' = at_point3 x (mkSpecies (-1) 1 true) r) as A by (intros; apply together_at3; assumption).
    fold u v. rewrite (A (mkSpecies (-2) 2 true) v), (A (mkSpecies (-1) 1 true) u (mkRow _ (Some (12#5)%Q) (Some 3%Q) (Some 1%Q) (mkBody 1 (1#3) 0 (3#4) (3#2) (mkSix 0 0 0 0 0 0)%Q 1))), (A (mkSpecies (-1) 1 true) u (mkRow _ (Some (12#5)%Q) (Some 3%Q) (Some 1%Q) (mkBody 1 (1#3) 0 (3#4) (1#2) (mkSix 0 0 0 0 0 0)%Q 2))) by (first [vm_compute; reflexivity|repeat split; vm_compute; reflexivity]).
    change (qsum _ []) with 0%Q. destruct (at_point3 x _ u), (at_point3 x _ v), (at_point3 x _ _); vm_compute; reflexivity.
Qed.
Print Assumptions C135_same_run.
Print Assumptions C135_same_values.
Print Assumptions C135_carried.
Print Assumptions C135_test_particles.
Print Assumptions C135_species_order.
Print Assumptions C135_split_particle.
Print Assumptions C135_merged_species.
Print Assumptions C135_rescaled.
Print Assumptions C135_case.
