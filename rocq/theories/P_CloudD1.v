(** The cloud of charge in three dimensions: keys and sums. *)
From Coq Require Import QArith Qabs Qround Qcanon Permutation Lqa.
From Verif Require Import Base M_Layout M_PartSync S_PartSync M_Deposit S_Deposit M_Push P_Deposit P_Push M_Step S_Step P_Step1 P_Step2 P_Step3 P_Step4 P_Step5 P_Cloud M_Step3D S_Step3D P_StepD3 S_Cloud3D.
Local Open Scope list_scope.
Local Open Scope Q_scope.

Definition strip3 (r : prow body) : prow body :=
  let b := other _ r in mkRow _ (px _ r) (py _ r) (pz _ r) (mkBody (b_ux b) (b_uy b) (b_uz b) (b_ig b) 1 zero6 0).
Definition key3 (sp : species) (r : prow body) : Q * prow body := (Qred (sp_q sp / sp_m sp), canon (strip3 r)).
Definition key_dec3 : forall a b : Q * prow body, {a = b} + {a <> b}.
Proof. assert (forall a b : Q, {a = b} + {a <> b}) as Qd by (repeat decide equality). repeat decide equality. Defined.
Lemma canon_strip3 r r' : canon r = canon r' -> canon (strip3 r) = canon (strip3 r').
Proof.
  destruct r as [x y z b], r' as [x' y' z' b']. destruct b as [ux uy uz ig w f id], b' as [ux' uy' uz' ig' w' f' id'].
  unfold canon, strip3, canon_body. cbn [px py pz other b_ux b_uy b_uz b_ig b_w b_f b_id]. intro H. injection H as Hx Hy Hz H1 H2 H3 H4 H5 _ _ _ _ _ _ _. rewrite Hx, Hy, Hz, H1, H2, H3, H4. reflexivity.
Qed.
Lemma canon_placed3 r r' : canon r = canon r' -> placed r -> placed r'.
Proof.
  intros H (x & y & z & E1 & E2 & E3). unfold canon in H. assert (option_map Qred (px _ r) = option_map Qred (px _ r')) as H1 by congruence. assert (option_map Qred (py _ r) = option_map Qred (py _ r')) as H2 by congruence. assert (option_map Qred (pz _ r) = option_map Qred (pz _ r')) as H3 by congruence.
  rewrite E1 in H1. rewrite E2 in H2. rewrite E3 in H3. unfold placed. destruct (px _ r'), (py _ r'), (pz _ r'); try discriminate. eauto 8.
Qed.
(** the key of a point *)
Definition point_row3 (k : point3) : prow body := mkRow _ (Some (pt_x3 k)) (Some (pt_y3 k)) (Some (pt_z3 k)) (mkBody (pt_ux3 k) (pt_uy3 k) (pt_uz3 k) (pt_ig3 k) 1 zero6 0).
Definition point_key3 (k : point3) : Q * prow body := (Qred (pt_ratio3 k), canon (point_row3 k)).
Lemma at_key3 k sp r : placed r -> at_point3 k sp r = if key_dec3 (point_key3 k) (key3 sp r) then true else false.
Proof.
  intros (x & y & z & E1 & E2 & E3). apply eq_true_iff_eq. unfold at_point3. rewrite E1, E2, E3. cbn [val]. rewrite !andb_true_iff, !qred_iff.
  destruct (key_dec3 (point_key3 k) (key3 sp r)) as [E|N].
  - split; [reflexivity|]. intros _. unfold point_key3, key3, point_row3, strip3, canon, canon_body in E. rewrite E1, E2, E3 in E. cbn [px py pz other b_ux b_uy b_uz b_ig b_w b_f b_id option_map] in E. injection E as -> -> -> -> -> -> -> ->. repeat split; reflexivity.
  - split; [|discriminate]. intros (((((((A1 & A2) & A3) & A8) & A4) & A5) & A6) & A7). exfalso. apply N. unfold point_key3, key3, point_row3, strip3, canon, canon_body. rewrite E1, E2, E3. cbn [px py pz other b_ux b_uy b_uz b_ig b_w b_f b_id option_map]. rewrite A1, A2, A3, A8, A4, A5, A6, A7. reflexivity.
Qed.
(** every key of a placed particle is the key of a point *)
Lemma key_point3 sp r : placed r -> exists k, key3 sp r = point_key3 k.
Proof.
  intros (x & y & z & E1 & E2 & E3). exists (mkPoint3 (sp_q sp / sp_m sp) x y z (b_ux (other _ r)) (b_uy (other _ r)) (b_uz (other _ r)) (b_ig (other _ r))).
  unfold key3, point_key3, strip3, point_row3. rewrite E1, E2, E3. reflexivity.
Qed.

(** * The cloud as a list of keys and masses *)
Definition cloud3 (coef : list Q) (sps : list species) (pss : list (list (list prt))) : list (Q * prow body * Q) :=
  flat_map (fun x => map (fun r => (key3 (fst (snd x)) r, fst x * b_w (other _ r))) (particles (snd (snd x)))) (combine coef (combine sps pss)).
Definition all_placed3 (pss : list (list (list prt))) : Prop := forall st r, In st pss -> In r (particles st) -> placed r.
Lemma spread_mass3 coef sps pss k : all_placed3 pss -> spread3 coef sps pss k == mass key_dec3 (point_key3 k) (cloud3 coef sps pss).
Proof.
  intro P. unfold spread3, mass, cloud3. rewrite qsum_flat. apply qsum_ext. intros x I. rewrite qsum_map. cbn [fst snd]. rewrite <- qsum_scale. apply qsum_ext. intros r Ir.
  rewrite (at_key3 k _ r (P _ _ (in_triples _ _ _ _ I) Ir)). destruct (key_dec3 _ _); ring.
Qed.
Lemma cloud_point3 coef sps pss x : all_placed3 pss -> In x (cloud3 coef sps pss) -> exists k, fst x = point_key3 k.
Proof.
  intros P I. unfold cloud3 in I. apply in_flat_map in I. destruct I as (y & Iy & I). apply in_map_iff in I. destruct I as (r & <- & Ir). cbn [fst]. apply key_point3. exact (P _ _ (in_triples _ _ _ _ Iy) Ir).
Qed.
Lemma same_mass3 coef sps pss coef' sps' pss' : all_placed3 pss -> all_placed3 pss' -> (forall k, spread3 coef sps pss k == spread3 coef' sps' pss' k) ->
  forall k, mass key_dec3 k (cloud3 coef sps pss) == mass key_dec3 k (cloud3 coef' sps' pss').
Proof.
  intros P P' H k. destruct (in_dec key_dec3 k (map fst (cloud3 coef sps pss ++ cloud3 coef' sps' pss'))) as [I|N].
  - apply in_map_iff in I. destruct I as (x & <- & I). apply in_app_or in I.
    assert (exists p, fst x = point_key3 p) as [p ->] by (destruct I as [I|I]; [exact (cloud_point3 _ _ _ _ P I)|exact (cloud_point3 _ _ _ _ P' I)]).
    rewrite <- !spread_mass3 by assumption. apply H.
  - rewrite !mass_none; [reflexivity| |]; intros x I E; apply N; rewrite <- E; apply in_map; apply in_or_app; auto.
Qed.
(** sums of functions of the key *)
Lemma cloud_sum3 coef sps pss coef' sps' pss' (g : Q * prow body -> Q) : all_placed3 pss -> all_placed3 pss' -> (forall k, spread3 coef sps pss k == spread3 coef' sps' pss' k) ->
  qsum (fun x => fst x * qsum (fun r => g (key3 (fst (snd x)) r) * b_w (other _ r)) (particles (snd (snd x)))) (combine coef (combine sps pss)) ==
  qsum (fun x => fst x * qsum (fun r => g (key3 (fst (snd x)) r) * b_w (other _ r)) (particles (snd (snd x)))) (combine coef' (combine sps' pss')).
Proof.
  intros P P' H. pose proof (measure key_dec3 g _ _ (same_mass3 _ _ _ _ _ _ P P' H)) as M. unfold cloud3 in M. rewrite !qsum_flat in M.
  assert (forall a b c, qsum (fun x => fst x * qsum (fun r => g (key3 (fst (snd x)) r) * b_w (other _ r)) (particles (snd (snd x)))) (combine a (combine b c)) ==
    qsum (fun a => qsum (fun x => g (fst x) * snd x) (map (fun r => (key3 (fst (snd a)) r, fst a * b_w (other _ r))) (particles (snd (snd a))))) (combine a (combine b c))) as E.
  { intros a b c. apply qsum_ext. intros x _. rewrite qsum_map. cbn [fst snd]. rewrite <- qsum_scale. apply qsum_ext. intros r _. ring. }
  rewrite !E. exact M.
Qed.

(** * A map of rows that works on keys carries clouds along *)
Section Carry.
Variable h : species -> prow body -> prow body.
Variable H : Q * prow body -> Q * prow body.
Hypothesis h_key : forall sp r, placed r -> key3 sp (h sp r) = H (key3 sp r).
Hypothesis h_w : forall sp r, b_w (other _ (h sp r)) = b_w (other _ r).
Hypothesis h_placed : forall sp r, placed r -> placed (h sp r).
Definition carried_by3 (sps : list species) (pss pss' : list (list (list prt))) : Prop :=
  Forall2 (fun ss st' => Permutation (map canon (particles st')) (map (fun r => canon (h (fst ss) r)) (particles (snd ss)))) (combine sps pss) pss'.
Lemma carried_placed3 sps pss pss' : carried_by3 sps pss pss' -> all_placed3 pss -> all_placed3 pss'.
Proof.
  intros C P st' r I Ir. assert (exists ss, In ss (combine sps pss) /\ Permutation (map canon (particles st')) (map (fun r => canon (h (fst ss) r)) (particles (snd ss)))) as ([sp st] & Is & X).
  { clear - C I. induction C as [|ss s' l l' E C IH]; [destruct I|]. destruct I as [<-|I]; [exists ss; split; [left; reflexivity|exact E]|]. destruct (IH I) as (x & Ix & Ex). exists x. split; [right; exact Ix|exact Ex]. }
  pose proof (canon_in r _ _ X Ir) as J. apply in_map_iff in J. destruct J as (r0 & E & I0). apply (canon_placed3 (h sp r0) r E). apply h_placed. apply in_combine_r in Is. exact (P st r0 Is I0).
Qed.
Lemma carried_spread3 k : forall sps coef pss pss', length pss = length sps -> carried_by3 sps pss pss' -> all_placed3 pss ->
  spread3 coef sps pss' k == qsum (fun x => fst x * qsum (fun r => (if key_dec3 (point_key3 k) (H (key3 (fst (snd x)) r)) then 1 else 0) * b_w (other _ r)) (particles (snd (snd x)))) (combine coef (combine sps pss)).
Proof.
  induction sps as [|sp sps IH]; intros [|a coef] [|st pss] pss' L C P; cbn [length] in L; try lia; try reflexivity; try (unfold spread3; destruct pss'; reflexivity).
  unfold carried_by3 in C. cbn [combine] in C. inversion C as [|? st' ? ps' X C']; subst. specialize (IH coef pss ps' ltac:(lia) C' (fun s r I => P s r (or_intror I))). unfold spread3 in *. cbn [combine]. rewrite !qsum_cons, IH. cbn [fst snd]. apply Qplus_comp; [|reflexivity].
  apply Qmult_comp; [reflexivity|]. cbn [fst snd] in X.
  assert (forall l, (forall r, In r l -> placed r) -> qsum (fun r => if at_point3 k sp r then b_w (other _ r) else 0) l == qsum (fun r => (if key_dec3 (point_key3 k) (Qred (sp_q sp / sp_m sp), canon (strip3 r)) then 1 else 0) * b_w (other _ r)) (map canon l)) as E.
  { intros l Pl. rewrite qsum_map. apply qsum_ext. intros r I. rewrite (at_key3 k sp r (Pl r I)). unfold key3. rewrite (canon_strip3 (canon r) r (canon_idem r)), (canon_w (canon r) r (canon_idem r)). destruct (key_dec3 _ _); ring. }
  rewrite E, (qsum_perm _ _ _ X), qsum_map.
  - apply qsum_ext. intros r I. rewrite (canon_strip3 (canon (h sp r)) (h sp r) (canon_idem _)), (canon_w (canon (h sp r)) (h sp r) (canon_idem _)), h_w. fold (key3 sp (h sp r)). rewrite h_key by (apply (P st r); [left; reflexivity|exact I]). reflexivity.
  - intros r I. apply (carried_placed3 (sp :: sps) (st :: pss) (st' :: ps') C P st' r); [left; reflexivity|exact I].
Qed.
Lemma carry3 coef sps pss pss1 coef' sps' pss' pss1' : length pss = length sps -> length pss' = length sps' -> all_placed3 pss -> all_placed3 pss' -> carried_by3 sps pss pss1 -> carried_by3 sps' pss' pss1' ->
  (forall k, spread3 coef sps pss k == spread3 coef' sps' pss' k) -> forall k, spread3 coef sps pss1 k == spread3 coef' sps' pss1' k.
Proof.
  intros L L' P P' C C' E k. rewrite (carried_spread3 k sps coef pss pss1 L C P), (carried_spread3 k sps' coef' pss' pss1' L' C' P').
  apply (cloud_sum3 coef sps pss coef' sps' pss' (fun q => if key_dec3 (point_key3 k) (H q) then 1 else 0) P P' E).
Qed.
End Carry.
