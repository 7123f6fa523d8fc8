(** C122: a run depends on its particles only through the charge they put at each point of phase space (2D, periodic): how the
    charge is divided over macro-particles, species, patches and processes does not matter. *)
From Coq Require Import QArith Qabs Qcanon Permutation Lqa.
From Verif Require Import Base M_Layout M_PartSync S_PartSync M_FieldSync S_FieldSync M_Maxwell S_Maxwell M_Deposit S_Deposit M_Push M_Step S_Step P_Deposit P_Step5 S_Cloud P_Cloud2 Properties_Step.
Local Open Scope list_scope.

Section S.
Variable rsqrt : Q -> Q.
Hypothesis SUB : subluminal rsqrt.
Variable eps : Qc.

(** ** two simulations of one domain that start with the same fields and the same charge at every point of phase space keep
    doing so for any number of steps *)
Theorem C122_same_run : forall D D' sps sps' k s s' s1 s1',
  domain_ok D -> domain_ok D' -> same_domain D D' -> ready D sps s -> ready D' sps' s' ->
  same_fields D D' s s' -> same_cloud sps sps' (t_parts s) (t_parts s') ->
  steps2 rsqrt eps D sps k s s1 -> steps2 rsqrt eps D' sps' k s' s1' ->
  same_fields D D' s1 s1' /\ same_cloud sps sps' (t_parts s1) (t_parts s1').
Proof.
  intros D D' sps sps' k s s' s1 s1' OK OK' SD R R' E C T T'.
  destruct (steps_cloud rsqrt SUB eps D D' OK OK' SD sps sps' k s s' s1 s1' R R' E C T T') as (H1 & H2 & _). split; assumption.
Qed.

(** ** read off at single cells: same E and B (guard cells included), same current and charge densities inside the patches *)
Theorem C122_same_values : forall D D' sps sps' k s s' s1 s1' f p p' c c' g,
  domain_ok D -> domain_ok D' -> same_domain D D' -> ready D sps s -> ready D' sps' s' ->
  same_fields D D' s s' -> same_cloud sps sps' (t_parts s) (t_parts s') ->
  steps2 rsqrt eps D sps k s s1 -> steps2 rsqrt eps D' sps' k s' s1' ->
  (p < npatches2 D)%nat -> (p' < npatches2 D')%nat ->
  place [d_ax D; d_ay D] [d_nx D; d_ny D] (position2 (d_ax D) p) c = Some g ->
  place [d_ax D'; d_ay D'] [d_nx D'; d_ny D'] (position2 (d_ax D') p') c' = Some g ->
  let at_ := cell [d_nx D; d_ny D] (d_ng D) f p c in let at_' := cell [d_nx D'; d_ny D'] (d_ng D') f p' c' in
  ((f < 3)%nat -> within (d_ng D) [d_nx D; d_ny D] c -> within (d_ng D') [d_nx D'; d_ny D'] c' ->
     t_E s1 at_ = t_E s1' at_' /\ t_B s1 at_ = t_B s1' at_') /\
  ((f < 4)%nat -> interior [d_nx D; d_ny D] c -> interior [d_nx D'; d_ny D'] c' -> t_J s1 at_ = t_J s1' at_').
Proof.
  intros D D' sps sps' k s s' s1 s1' f p p' c c' g OK OK' SD R R' E C T T' Hp Hp' G G' at_ at_'.
  destruct (C122_same_run D D' sps sps' k s s' s1 s1' OK OK' SD R R' E C T T') as (((FE & E1 & E2) & (FB & B1 & B2) & (FJ & J1 & J2)) & _).
  split.
  - intros Hf W W'. unfold at_, at_'. rewrite (E1 f p c Hf Hp W), (E2 f p' c' Hf Hp' W'), (B1 f p c Hf Hp W), (B2 f p' c' Hf Hp' W'). unfold shown. rewrite G, G'. auto.
  - intros Hf W W'. unfold at_, at_'. rewrite (J1 f p c Hf Hp W), (J2 f p' c' Hf Hp' W'). unfold shown. rewrite G, G'. reflexivity.
Qed.

(** ** in two such runs, whatever other sums over the species agree at every point of phase space at the start (the particles of
    one species, say, or their number or mass) agree ever after *)
Theorem C122_carried : forall D D' sps sps' k s s' s1 s1' coef coef',
  domain_ok D -> domain_ok D' -> same_domain D D' -> ready D sps s -> ready D' sps' s' ->
  same_fields D D' s s' -> same_cloud sps sps' (t_parts s) (t_parts s') ->
  steps2 rsqrt eps D sps k s s1 -> steps2 rsqrt eps D' sps' k s' s1' ->
  (forall x, spread coef sps (t_parts s) x == spread coef' sps' (t_parts s') x)%Q ->
  forall x, (spread coef sps (t_parts s1) x == spread coef' sps' (t_parts s1') x)%Q.
Proof.
  intros D D' sps sps' k s s' s1 s1' coef coef' OK OK' SD R R' E C T T'.
  destruct (steps_cloud rsqrt SUB eps D D' OK OK' SD sps sps' k s s' s1 s1' R R' E C T T') as (_ & _ & H). apply H.
Qed.

(** ** adding a species without charge or without weight (test particles, neutral atoms) changes neither the fields nor the
    other species *)
Theorem C122_test_particles : forall D sps sp st k s s1 s1', domain_ok D -> consistent D s -> ready D sps s -> settled D st ->
  (sp_q sp == 0)%Q \/ (forall r, In r (particles st) -> (b_w (other _ r) == 0)%Q) ->
  steps2 rsqrt eps D sps k s s1 -> steps2 rsqrt eps D (sps ++ [sp]) k (mkState2 (t_E s) (t_B s) (t_J s) (t_parts s ++ [st])) s1' ->
  same_fields D D s1 s1' /\
  forall coef x, length coef = length sps -> (spread coef sps (t_parts s1) x == spread (coef ++ [0]) (sps ++ [sp]) (t_parts s1') x)%Q.
Proof.
  intros D sps sp st k s s1 s1' OK ((FE & HE) & (FB & HB) & (FJ & HJ)) [L F] Fst Z T T'.
  assert (forall coef v x, length coef = length sps -> (v == 0)%Q \/ (forall r, In r (particles st) -> (b_w (other _ r) == 0)%Q) ->
            (spread coef sps (t_parts s) x == spread (coef ++ [v]) (sps ++ [sp]) (t_parts s ++ [st]) x)%Q) as K.
  { intros coef v x Lc Zv. revert L Lc. generalize (t_parts s). clear - Zv. revert sps. induction coef as [|c coef IH]; intros [|a sps] [|b pss]; cbn [length]; try lia.
    - intros _ _. unfold spread. cbn [app combine]. rewrite qsum_cons. cbn [fst snd]. change (qsum _ []) with 0%Q. rewrite Qplus_0_r. symmetry. destruct Zv as [Zv|Zv]; [rewrite Zv; ring|].
      rewrite (qsum_ext _ (fun _ => 0%Q)). { unfold qsum. induction (particles st); cbn [fold_right map]; [ring|]. rewrite Qmult_plus_distr_r, IHl by (intros; apply Zv; right; assumption). ring. }
      intros r Ir. destruct (at_point x sp r); [apply Zv; exact Ir|reflexivity].
    - intros L Lc. specialize (IH sps pss ltac:(lia) ltac:(lia)). unfold spread in *. cbn [app combine]. rewrite !qsum_cons, IH. reflexivity. }
  assert (ready D (sps ++ [sp]) (mkState2 (t_E s) (t_B s) (t_J s) (t_parts s ++ [st]))) as R'.
  { split; cbn [t_parts]; [rewrite !app_length; cbn [length]; lia|]. apply Forall_app. split; [exact F|]. constructor; [exact Fst|constructor]. }
  assert (same_fields D D s (mkState2 (t_E s) (t_B s) (t_J s) (t_parts s ++ [st]))) as E by (split; [exists FE; auto|split; [exists FB; auto|exists FJ; auto]]).
  assert (same_cloud sps (sps ++ [sp]) (t_parts s) (t_parts s ++ [st])) as C.
  { intro x. unfold charge_at. rewrite map_app. cbn [map]. apply K; [apply map_length|exact Z]. }
  assert (same_domain D D) as SD by (unfold same_domain; auto).
  split; [exact (proj1 (C122_same_run D D _ _ k _ _ _ _ OK OK SD (conj L F) R' E C T T'))|].
  intros coef x Lc. apply (C122_carried D D _ _ k _ _ _ _ coef (coef ++ [0%Q]) OK OK SD (conj L F) R' E C T T'). intro y. apply K; [exact Lc|left; reflexivity].
Qed.
End S.

(** ** starts with the same charge at every point of phase space *)
(** the species listed in another order *)
Theorem C122_species_order : forall sps sps' pss pss', Permutation (combine sps pss) (combine sps' pss') -> same_cloud sps sps' pss pss'.
Proof.
  assert (forall k sps pss, charge_at sps pss k == qsum (fun x => sp_q (fst x) * qsum (fun r => if at_point k (fst x) r then b_w (other _ r) else 0) (particles (snd x))) (combine sps pss))%Q as K.
  { intros k. induction sps as [|sp sps IH]; intros [|st pss]; try reflexivity. unfold charge_at, spread in *. cbn [map combine]. rewrite !qsum_cons, IH. reflexivity. }
  intros sps sps' pss pss' P k. rewrite !K. apply qsum_perm. exact P.
Qed.
Lemma eqb_comp a b c d : (a == b)%Q -> (c == d)%Q -> Qeq_bool a c = Qeq_bool b d.
Proof.
  intros H H'. destruct (Qeq_bool a c) eqn:E, (Qeq_bool b d) eqn:E'; try reflexivity.
  - apply Qeq_bool_iff in E. assert (Qeq_bool b d = true) by (apply Qeq_bool_iff; rewrite <- H, <- H'; exact E). congruence.
  - apply Qeq_bool_iff in E'. assert (Qeq_bool a c = true) by (apply Qeq_bool_iff; rewrite H, H'; exact E'). congruence.
Qed.
Lemma together_at k sp sp' r r' : (sp_q sp / sp_m sp == sp_q sp' / sp_m sp')%Q -> together r r' -> at_point k sp r = at_point k sp' r'.
Proof. intros H (H1 & H2 & H3 & H4 & H5 & H6). unfold at_point. rewrite !(eqb_comp _ _ _ _ (Qeq_refl _) H), !(eqb_comp _ _ _ _ (Qeq_refl _) H1), !(eqb_comp _ _ _ _ (Qeq_refl _) H2), !(eqb_comp _ _ _ _ (Qeq_refl _) H3), !(eqb_comp _ _ _ _ (Qeq_refl _) H4), !(eqb_comp _ _ _ _ (Qeq_refl _) H5), !(eqb_comp _ _ _ _ (Qeq_refl _) H6). reflexivity. Qed.
Lemma one_species k a sp st b pa pb : length pa = length a ->
  (charge_at (a ++ sp :: b) (pa ++ st :: pb) k == charge_at a pa k + sp_q sp * qsum (fun r => if at_point k sp r then b_w (other _ r) else 0) (particles st) + charge_at b pb k)%Q.
Proof.
  revert pa. induction a as [|x a IH]; intros [|p pa] L; cbn [length] in L; try lia; unfold charge_at, spread in *; cbn [app map combine]; rewrite !qsum_cons; cbn [fst snd].
  - change (qsum _ []) with 0%Q. ring.
  - rewrite IH by lia. ring.
Qed.
(** one macro-particle replaced by several at the same place with the same momentum, whose weights add up to its weight *)
Theorem C122_split_particle : forall a sp b pa st st' pb r rs rest, length pa = length a ->
  Permutation (particles st) (r :: rest) -> Permutation (particles st') (rs ++ rest) -> (forall r', In r' rs -> together r' r) ->
  (qsum (fun r' => b_w (other _ r')) rs == b_w (other _ r))%Q ->
  same_cloud (a ++ sp :: b) (a ++ sp :: b) (pa ++ st :: pb) (pa ++ st' :: pb).
Proof.
  intros a sp b pa st st' pb r rs rest L P P' H W k. rewrite !one_species by exact L. rewrite (qsum_perm _ _ _ P), (qsum_perm _ _ _ P'), qsum_cons, qsum_app.
  rewrite (qsum_ext (fun r0 => if at_point k sp r0 then b_w (other _ r0) else 0) (fun r0 => if at_point k sp r then b_w (other _ r0) else 0) rs)%Q.
  2:{ intros r' I. rewrite (together_at k sp sp r' r (Qeq_refl _) (H r' I)). reflexivity. }
  destruct (at_point k sp r); [rewrite W; ring|]. assert (qsum (fun _ : prow body => 0) rs == 0)%Q as -> by (clear; induction rs; [reflexivity|rewrite qsum_cons, IHrs; ring]). ring.
Qed.
(** two species of the same charge and mass made one *)
Theorem C122_merged_species : forall a q m u u1 u2 b pa st1 st2 st pb, length pa = length a -> Permutation (particles st) (particles st1 ++ particles st2) ->
  same_cloud (a ++ mkSpecies q m u1 :: mkSpecies q m u2 :: b) (a ++ mkSpecies q m u :: b) (pa ++ st1 :: st2 :: pb) (pa ++ st :: pb).
Proof.
  intros a q m u u1 u2 b pa st1 st2 st pb L P k. rewrite !one_species by exact L. rewrite (qsum_perm _ _ _ P), qsum_app.
  change (charge_at (mkSpecies q m u2 :: b) (st2 :: pb) k) with (charge_at ([] ++ mkSpecies q m u2 :: b) ([] ++ st2 :: pb) k). rewrite one_species by reflexivity. change (charge_at [] [] k) with 0%Q. cbn [sp_q].
  change (at_point k (mkSpecies q m u1)) with (at_point k (mkSpecies q m u)). change (at_point k (mkSpecies q m u2)) with (at_point k (mkSpecies q m u)). ring.
Qed.
(** a species of particles c times heavier and more charged, with weights 1/c of what they were *)
Theorem C122_rescaled : forall a sp sp' b pa st st' pb c, length pa = length a -> ~ (c == 0)%Q -> (sp_q sp' == c * sp_q sp)%Q -> (sp_m sp' == c * sp_m sp)%Q ->
  Forall2 (fun r r' => together r r' /\ (b_w (other _ r) == c * b_w (other _ r'))%Q) (particles st) (particles st') ->
  same_cloud (a ++ sp :: b) (a ++ sp' :: b) (pa ++ st :: pb) (pa ++ st' :: pb).
Proof.
  intros a sp sp' b pa st st' pb c L Z Hq Hm F k. rewrite !one_species by exact L.
  assert (sp_q sp / sp_m sp == sp_q sp' / sp_m sp')%Q as Hr.
  { rewrite Hq, Hm. unfold Qdiv. rewrite Qinv_mult_distr. setoid_replace (c * sp_q sp * (/ c * / sp_m sp))%Q with (c * / c * (sp_q sp * / sp_m sp))%Q by ring. rewrite Qmult_inv_r by exact Z. ring. }
  assert (forall l l', Forall2 (fun r r' => together r r' /\ (b_w (other _ r) == c * b_w (other _ r'))%Q) l l' ->
    (qsum (fun r => if at_point k sp r then b_w (other _ r) else 0) l == c * qsum (fun r => if at_point k sp' r then b_w (other _ r) else 0) l')%Q) as K.
  { clear - Hr. intros l l' F. induction F as [|r r' l l' [H W] F IH]; [unfold qsum; cbn; ring|]. rewrite !qsum_cons, IH, (together_at k sp sp' r r' Hr H). destruct (at_point k sp' r'); [rewrite W|]; ring. }
  rewrite (K _ _ F), Hq. ring.
Qed.

(** ** a case: electron-like particles of weight 2 in one patch of 6 x 6 cells, against two patches in which one of them is cut
    into three quarters and one quarter, the other belongs to a species twice as heavy and charged, and test particles fly along *)
Local Open Scope Z_scope.
Definition w_part (x y ux w : Q) (id : Z) : prt :=
  M_PartSync.mkSlot _ (mkRow _ (Some x) (Some y) (Some 0%Q) (mkBody ux (1#3) 0 (3#4) w (mkSix 0 0 0 0 0 0)%Q id)) false.
Definition cut_state : state2 := mkState2 (fun _ => Q2Qc 0) (fun _ => Q2Qc 0) (fun _ => Q2Qc 0)
  [[[ex_part true 1 1 1 9]; [w_part (26#5) 2 (5#4) 1 3]]; [[w_part (12#5) 3 1 (3#2) 1; w_part (12#5) 3 1 (1#2) 2]; []]; [[w_part 1 1 (-1) 0 4]; []]].
Definition cut_species := [mkSpecies (-2) 2 true; mkSpecies (-1) 1 false; mkSpecies (-1) 1 true].
Example C122_case : forall k e, exists s1 s1',
  steps2 ex_rsqrt e (ex_dom 1) (ex_species true) k ex_one s1 /\ steps2 ex_rsqrt e (ex_dom 2) cut_species k cut_state s1' /\
  same_fields (ex_dom 1) (ex_dom 2) s1 s1' /\ same_cloud (ex_species true) cut_species (t_parts s1) (t_parts s1').
Proof.
  intros k e. pose proof (ex_ok 1 (or_introl eq_refl)) as O1. pose proof (ex_ok 2 (or_intror eq_refl)) as O2.
  assert (R1 : ready (ex_dom 1) (ex_species true) ex_one).
  { split; [reflexivity|]. constructor; [|constructor]. split; [reflexivity|]. intros p r Hp I. assert (p = 0)%nat as -> by (change (npatches2 (ex_dom 1)) with 1%nat in Hp; lia). ex_in I. }
  assert (R2 : ready (ex_dom 2) cut_species cut_state).
  { split; [reflexivity|]. repeat (constructor; [split; [reflexivity|]; intros p r Hp I; change (npatches2 (ex_dom 2)) with 2%nat in Hp; destruct p as [|[|p]]; [| |lia]; ex_in I|]). constructor. }
  assert (C : forall D l, consistent D (mkState2 (fun _ => Q2Qc 0) (fun _ => Q2Qc 0) (fun _ => Q2Qc 0) l)) by (intros D l; split; [|split]; eexists; try apply ex_field; apply ex_cur).
  destruct (C76_runs_exist ex_rsqrt ex_sub e _ _ k ex_one O1 R1 (C _ _)) as (s1 & T1 & _).
  destruct (C76_runs_exist ex_rsqrt ex_sub e _ _ k cut_state O2 R2 (C _ _)) as (s1' & T2 & _).
  exists s1, s1'. split; [exact T1|]. split; [exact T2|].
  refine (C122_same_run ex_rsqrt ex_sub e (ex_dom 1) (ex_dom 2) (ex_species true) cut_species k ex_one cut_state s1 s1' O1 O2 _ R1 R2 _ _ T1 T2).
  - unfold same_domain. repeat split; reflexivity.
  - split; [|split]; eexists; (split; [try apply ex_field; apply ex_cur|try apply ex_field; apply ex_cur]).
  - intro x. unfold charge_at, spread. cbn [t_parts ex_one ex_state cut_state map combine ex_species cut_species].
    set (u := mkRow _ (Some (12#5)%Q) (Some 3%Q) (Some 0%Q) (mkBody 1 (1#3) 0 (3#4) 2 (mkSix 0 0 0 0 0 0)%Q 7)).
    set (v := mkRow _ (Some (26#5)%Q) (Some 2%Q) (Some 0%Q) (mkBody (5#4) (1#3) 0 (3#4) 2 (mkSix 0 0 0 0 0 0)%Q 8)).
    rewrite !qsum_cons. cbn [fst snd particles flat_map app S_PartSync.alive filter map negb M_PartSync.dead M_PartSync.row w_part ex_part sp_q].
    rewrite !qsum_cons. cbn [other b_w].
    assert (forall sp r r', (sp_q sp / sp_m sp == -1 / 1)%Q -> together r' r -> at_point x sp r' = at_point x (mkSpecies (-1) 1 true) r) as A by (intros; apply together_at; assumption).
    fold u v. rewrite (A (mkSpecies (-2) 2 true) v), (A (mkSpecies (-1) 1 false) u), (A (mkSpecies (-1) 1 false) u) by (first [vm_compute; reflexivity|repeat split; vm_compute; reflexivity]).
    change (qsum _ []) with 0%Q. destruct (at_point x _ u), (at_point x _ v), (at_point x _ _); vm_compute; reflexivity.
Qed.
Print Assumptions C122_same_run.
Print Assumptions C122_same_values.
Print Assumptions C122_carried.
Print Assumptions C122_test_particles.
Print Assumptions C122_species_order.
Print Assumptions C122_split_particle.
Print Assumptions C122_merged_species.
Print Assumptions C122_rescaled.
Print Assumptions C122_case.
