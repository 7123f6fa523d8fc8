(** The cloud of charge: fields and clouds of two runs that start alike stay alike. *)
From Coq Require Import QArith Qabs Qround Qcanon Permutation Lqa.
From Verif Require Import Base M_Layout S_Layout M_PartSync S_PartSync M_FieldSync S_FieldSync M_Maxwell S_Maxwell M_Deposit S_Deposit M_Push P_Deposit P_Deposit2 P_Push P_Maxwell P_Maxwell2 P_Maxwell3 M_Step S_Step P_Step1 P_Step2 P_Step3 P_Step4 P_Step5 P_Step6 P_Step7 S_Cloud.
Local Open Scope list_scope.
Local Open Scope Q_scope.

(** * Sums of masses over keys *)
Section Measure.
Context {K : Type}.
Variable keq : forall a b : K, {a = b} + {a <> b}.
Definition mass (k : K) (l : list (K * Q)) : Q := qsum (fun x => if keq k (fst x) then snd x else 0) l.
Lemma qsum_split {A} (p : A -> bool) (f : A -> Q) l : qsum f l == qsum f (filter p l) + qsum f (filter (fun a => negb (p a)) l).
Proof. induction l as [|a l IH]; [reflexivity|]. cbn [filter]. rewrite qsum_cons, IH. destruct (p a); cbn [negb]; rewrite qsum_cons; ring. Qed.
Lemma measure_0 (g : K -> Q) : forall n l, (length l <= n)%nat -> (forall k, mass k l == 0) -> qsum (fun x => g (fst x) * snd x) l == 0.
Proof.
  induction n as [|n IH]; intros [|[k w] l] L H; try reflexivity; [cbn [length] in L; lia|]. set (p := fun x : K * Q => if keq k (fst x) then true else false).
  rewrite (qsum_split p). assert (qsum (fun x => g (fst x) * snd x) (filter p ((k, w) :: l)) == g k * mass k ((k, w) :: l)) as ->.
  { unfold mass. generalize ((k, w) :: l). clear. intro l. induction l as [|[k' v] l IH]; [cbn; ring|]. cbn [filter]. unfold p at 1. rewrite qsum_cons. cbn [fst snd]. destruct (keq k k') as [<-|]; rewrite ?qsum_cons, IH; cbn [fst snd]; ring. }
  rewrite H, IH; [ring| |].
  - cbn [filter]. unfold p at 1. cbn [fst]. destruct (keq k k); [|congruence]. cbn [negb]. assert (forall f (m : list (K * Q)), (length (filter f m) <= length m)%nat) as FL by (intros f m; induction m as [|y m IHm]; cbn [filter length]; [lia|destruct (f y); cbn [length]; lia]). pose proof (FL (fun a => negb (p a)) l) as E. cbn [length] in L. lia.
  - intro k'. destruct (keq k' k) as [->|N].
    + unfold mass. generalize ((k, w) :: l). clear. intro l. induction l as [|[k' v] l IH]; [reflexivity|]. cbn [filter]. unfold p at 1. cbn [fst]. destruct (keq k k') eqn:E; cbn [negb]; [exact IH|]. rewrite qsum_cons. cbn [fst]. rewrite E, IH. ring.
    + rewrite <- (H k'). unfold mass. generalize ((k, w) :: l). clear - N. intro l. induction l as [|[k1 v] l IH]; [reflexivity|]. cbn [filter]. unfold p at 1. cbn [fst]. rewrite (qsum_cons _ (k1, v) l). cbn [fst snd]. destruct (keq k k1) as [<-|]; cbn [negb].
      * destruct (keq k' k); [contradiction|]. rewrite IH. ring.
      * rewrite qsum_cons, IH. reflexivity.
Qed.
Lemma qsum_opp {A} (f : A -> Q) l : qsum (fun a => - f a) l == - qsum f l.
Proof. induction l as [|a l IH]; [reflexivity|]. rewrite !qsum_cons, IH. ring. Qed.
Lemma measure (g : K -> Q) l l' : (forall k, mass k l == mass k l') -> qsum (fun x => g (fst x) * snd x) l == qsum (fun x => g (fst x) * snd x) l'.
Proof.
  intro H. pose proof (measure_0 g _ (l ++ map (fun x => (fst x, - snd x)) l') (le_n _)) as Z. rewrite qsum_app, qsum_map in Z. cbn [fst snd] in Z.
  rewrite (qsum_ext (fun a => g (fst a) * - snd a) (fun a => - (g (fst a) * snd a))) in Z by (intros; ring). rewrite qsum_opp in Z.
  assert (forall k, mass k (l ++ map (fun x => (fst x, - snd x)) l') == 0) as M.
  { intro k. unfold mass. rewrite qsum_app, qsum_map. cbn [fst snd]. rewrite (qsum_ext (fun a => if keq k (fst a) then - snd a else 0) (fun a => - (if keq k (fst a) then snd a else 0))) by (intros a _; destruct (keq k (fst a)); reflexivity).
    rewrite qsum_opp. specialize (H k). unfold mass in H. rewrite H. ring. }
  specialize (Z M). lra.
Qed.
End Measure.

(** * Keys *)
Definition zero6 : six Q := mkSix 0 0 0 0 0 0.
Definition strip (r : prow body) : prow body :=
  let b := other _ r in mkRow _ (px _ r) (py _ r) (Some 0) (mkBody (b_ux b) (b_uy b) (b_uz b) (b_ig b) 1 zero6 0).
Definition key (sp : species) (r : prow body) : Q * prow body := (Qred (sp_q sp / sp_m sp), canon (strip r)).
Definition key_dec : forall a b : Q * prow body, {a = b} + {a <> b}.
Proof. assert (forall a b : Q, {a = b} + {a <> b}) as Qd by (repeat decide equality). repeat decide equality. Defined.
Definition placed (r : prow body) : Prop := exists x y, px _ r = Some x /\ py _ r = Some y.
Lemma canon_strip r r' : canon r = canon r' -> canon (strip r) = canon (strip r').
Proof.
  destruct r as [x y z b], r' as [x' y' z' b']. destruct b as [ux uy uz ig w f id], b' as [ux' uy' uz' ig' w' f' id'].
  unfold canon, strip, canon_body. cbn [px py pz other b_ux b_uy b_uz b_ig b_w b_f b_id]. intro H. injection H as Hx Hy Hz H1 H2 H3 H4 H5 _ _ _ _ _ _ _. rewrite Hx, Hy, H1, H2, H3, H4. reflexivity.
Qed.
Lemma canon_placed r r' : canon r = canon r' -> placed r -> placed r'.
Proof.
  intros H (x & y & E1 & E2). unfold canon in H. assert (option_map Qred (px _ r) = option_map Qred (px _ r')) as H1 by congruence. assert (option_map Qred (py _ r) = option_map Qred (py _ r')) as H2 by congruence.
  rewrite E1 in H1. rewrite E2 in H2. unfold placed. destruct (px _ r'), (py _ r'); try discriminate. eauto.
Qed.
Lemma canon_w r r' : canon r = canon r' -> b_w (other _ r) == b_w (other _ r').
Proof. intro H. unfold canon, canon_body in H. assert (Qred (b_w (other _ r)) = Qred (b_w (other _ r'))) as E by congruence. rewrite <- (Qred_correct (b_w (other _ r))), E, Qred_correct. reflexivity. Qed.
(** the key of a point *)
Definition point_row (k : point) : prow body := mkRow _ (Some (pt_x k)) (Some (pt_y k)) (Some 0) (mkBody (pt_ux k) (pt_uy k) (pt_uz k) (pt_ig k) 1 zero6 0).
Definition point_key (k : point) : Q * prow body := (Qred (pt_ratio k), canon (point_row k)).
Lemma qred_iff a b : Qeq_bool a b = true <-> Qred a = Qred b.
Proof. rewrite Qeq_bool_iff. split; [apply Qred_complete|]. intro E. rewrite <- (Qred_correct a), E, Qred_correct. reflexivity. Qed.
Lemma at_key k sp r : placed r -> at_point k sp r = if key_dec (point_key k) (key sp r) then true else false.
Proof.
  intros (x & y & E1 & E2). apply eq_true_iff_eq. unfold at_point. rewrite E1, E2. cbn [val]. rewrite !andb_true_iff, !qred_iff.
  destruct (key_dec (point_key k) (key sp r)) as [E|N].
  - split; [reflexivity|]. intros _. unfold point_key, key, point_row, strip, canon, canon_body in E. rewrite E1, E2 in E. cbn [px py pz other b_ux b_uy b_uz b_ig b_w b_f b_id option_map] in E. injection E as -> -> -> -> -> -> ->. repeat split; reflexivity.
  - split; [|discriminate]. intros ((((((A1 & A2) & A3) & A4) & A5) & A6) & A7). exfalso. apply N. unfold point_key, key, point_row, strip, canon, canon_body. rewrite E1, E2. cbn [px py pz other b_ux b_uy b_uz b_ig b_w b_f b_id option_map]. rewrite A1, A2, A3, A4, A5, A6, A7. reflexivity.
Qed.
(** every key of a placed particle is the key of a point *)
Lemma key_point sp r : placed r -> exists k, key sp r = point_key k.
Proof.
  intros (x & y & E1 & E2). exists (mkPoint (sp_q sp / sp_m sp) x y (b_ux (other _ r)) (b_uy (other _ r)) (b_uz (other _ r)) (b_ig (other _ r))).
  unfold key, point_key, strip, point_row. rewrite E1, E2. reflexivity.
Qed.

(** * The cloud as a list of keys and masses *)
Definition cloud (coef : list Q) (sps : list species) (pss : list (list (list prt))) : list (Q * prow body * Q) :=
  flat_map (fun x => map (fun r => (key (fst (snd x)) r, fst x * b_w (other _ r))) (particles (snd (snd x)))) (combine coef (combine sps pss)).
Definition all_placed (pss : list (list (list prt))) : Prop := forall st r, In st pss -> In r (particles st) -> placed r.
Lemma in_triples {A B C} (x : A * (B * C)) l m n : In x (combine l (combine m n)) -> In (snd (snd x)) n.
Proof. destruct x as [a [b c]]. intro I. apply in_combine_r in I. apply in_combine_r in I. exact I. Qed.
Lemma spread_mass coef sps pss k : all_placed pss -> spread coef sps pss k == mass key_dec (point_key k) (cloud coef sps pss).
Proof.
  intro P. unfold spread, mass, cloud. rewrite qsum_flat. apply qsum_ext. intros x I. rewrite qsum_map. cbn [fst snd]. rewrite <- qsum_scale. apply qsum_ext. intros r Ir.
  rewrite (at_key k _ r (P _ _ (in_triples _ _ _ _ I) Ir)). destruct (key_dec _ _); ring.
Qed.
Lemma cloud_point coef sps pss x : all_placed pss -> In x (cloud coef sps pss) -> exists k, fst x = point_key k.
Proof.
  intros P I. unfold cloud in I. apply in_flat_map in I. destruct I as (y & Iy & I). apply in_map_iff in I. destruct I as (r & <- & Ir). cbn [fst]. apply key_point. exact (P _ _ (in_triples _ _ _ _ Iy) Ir).
Qed.
Lemma mass_none {K} (d : forall a b : K, {a = b} + {a <> b}) k l : (forall x, In x l -> fst x <> k) -> mass d k l == 0.
Proof.
  intro H. unfold mass. induction l as [|x l IH]; [reflexivity|]. rewrite qsum_cons, IH by (intros y I; apply H; right; exact I). destruct (d k (fst x)) as [E|]; [|ring].
  exfalso. apply (H x); [left; reflexivity|congruence].
Qed.
Lemma same_mass coef sps pss coef' sps' pss' : all_placed pss -> all_placed pss' -> (forall k, spread coef sps pss k == spread coef' sps' pss' k) ->
  forall k, mass key_dec k (cloud coef sps pss) == mass key_dec k (cloud coef' sps' pss').
Proof.
  intros P P' H k. destruct (in_dec key_dec k (map fst (cloud coef sps pss ++ cloud coef' sps' pss'))) as [I|N].
  - apply in_map_iff in I. destruct I as (x & <- & I). apply in_app_or in I.
    assert (exists p, fst x = point_key p) as [p ->] by (destruct I as [I|I]; [exact (cloud_point _ _ _ _ P I)|exact (cloud_point _ _ _ _ P' I)]).
    rewrite <- !spread_mass by assumption. apply H.
  - rewrite !mass_none; [reflexivity| |]; intros x I E; apply N; rewrite <- E; apply in_map; apply in_or_app; auto.
Qed.
(** sums of functions of the key *)
Lemma cloud_sum coef sps pss coef' sps' pss' (g : Q * prow body -> Q) : all_placed pss -> all_placed pss' -> (forall k, spread coef sps pss k == spread coef' sps' pss' k) ->
  qsum (fun x => fst x * qsum (fun r => g (key (fst (snd x)) r) * b_w (other _ r)) (particles (snd (snd x)))) (combine coef (combine sps pss)) ==
  qsum (fun x => fst x * qsum (fun r => g (key (fst (snd x)) r) * b_w (other _ r)) (particles (snd (snd x)))) (combine coef' (combine sps' pss')).
Proof.
  intros P P' H. pose proof (measure key_dec g _ _ (same_mass _ _ _ _ _ _ P P' H)) as M. unfold cloud in M. rewrite !qsum_flat in M.
  assert (forall a b c, qsum (fun x => fst x * qsum (fun r => g (key (fst (snd x)) r) * b_w (other _ r)) (particles (snd (snd x)))) (combine a (combine b c)) ==
    qsum (fun a => qsum (fun x => g (fst x) * snd x) (map (fun r => (key (fst (snd a)) r, fst a * b_w (other _ r))) (particles (snd (snd a))))) (combine a (combine b c))) as E.
  { intros a b c. apply qsum_ext. intros x _. rewrite qsum_map. cbn [fst snd]. rewrite <- qsum_scale. apply qsum_ext. intros r _. ring. }
  rewrite !E. exact M.
Qed.

(** * A map of rows that works on keys carries clouds along *)
Section Carry.
Variable h : species -> prow body -> prow body.
Variable H : Q * prow body -> Q * prow body.
Hypothesis h_key : forall sp r, placed r -> key sp (h sp r) = H (key sp r).
Hypothesis h_w : forall sp r, b_w (other _ (h sp r)) = b_w (other _ r).
Hypothesis h_placed : forall sp r, placed r -> placed (h sp r).
Definition carried_by (sps : list species) (pss pss' : list (list (list prt))) : Prop :=
  Forall2 (fun ss st' => Permutation (map canon (particles st')) (map (fun r => canon (h (fst ss) r)) (particles (snd ss)))) (combine sps pss) pss'.
Lemma canon_in r l l' : Permutation (map canon l') l -> In r l' -> In (canon r) l.
Proof. intros P I. apply (Permutation_in _ P). apply in_map. exact I. Qed.
Lemma carried_placed sps pss pss' : carried_by sps pss pss' -> all_placed pss -> all_placed pss'.
Proof.
  intros C P st' r I Ir. assert (exists ss, In ss (combine sps pss) /\ Permutation (map canon (particles st')) (map (fun r => canon (h (fst ss) r)) (particles (snd ss)))) as ([sp st] & Is & X).
  { clear - C I. induction C as [|ss s' l l' E C IH]; [destruct I|]. destruct I as [<-|I]; [exists ss; split; [left; reflexivity|exact E]|]. destruct (IH I) as (x & Ix & Ex). exists x. split; [right; exact Ix|exact Ex]. }
  pose proof (canon_in r _ _ X Ir) as J. apply in_map_iff in J. destruct J as (r0 & E & I0). apply (canon_placed (h sp r0) r E). apply h_placed. apply in_combine_r in Is. exact (P st r0 Is I0).
Qed.
Lemma carried_spread k : forall sps coef pss pss', length pss = length sps -> carried_by sps pss pss' -> all_placed pss ->
  spread coef sps pss' k == qsum (fun x => fst x * qsum (fun r => (if key_dec (point_key k) (H (key (fst (snd x)) r)) then 1 else 0) * b_w (other _ r)) (particles (snd (snd x)))) (combine coef (combine sps pss)).
Proof.
  induction sps as [|sp sps IH]; intros [|a coef] [|st pss] pss' L C P; cbn [length] in L; try lia; try reflexivity; try (unfold spread; destruct pss'; reflexivity).
  unfold carried_by in C. cbn [combine] in C. inversion C as [|? st' ? ps' X C']; subst. specialize (IH coef pss ps' ltac:(lia) C' (fun s r I => P s r (or_intror I))). unfold spread in *. cbn [combine]. rewrite !qsum_cons, IH. cbn [fst snd]. apply Qplus_comp; [|reflexivity].
  apply Qmult_comp; [reflexivity|]. cbn [fst snd] in X.
  assert (forall l, (forall r, In r l -> placed r) -> qsum (fun r => if at_point k sp r then b_w (other _ r) else 0) l == qsum (fun r => (if key_dec (point_key k) (Qred (sp_q sp / sp_m sp), canon (strip r)) then 1 else 0) * b_w (other _ r)) (map canon l)) as E.
  { intros l Pl. rewrite qsum_map. apply qsum_ext. intros r I. rewrite (at_key k sp r (Pl r I)). unfold key. rewrite (canon_strip (canon r) r (canon_idem r)), (canon_w (canon r) r (canon_idem r)). destruct (key_dec _ _); ring. }
  rewrite E, (qsum_perm _ _ _ X), qsum_map.
  - apply qsum_ext. intros r I. rewrite (canon_strip (canon (h sp r)) (h sp r) (canon_idem _)), (canon_w (canon (h sp r)) (h sp r) (canon_idem _)), h_w. fold (key sp (h sp r)). rewrite h_key by (apply (P st r); [left; reflexivity|exact I]). reflexivity.
  - intros r I. apply (carried_placed (sp :: sps) (st :: pss) (st' :: ps') C P st' r); [left; reflexivity|exact I].
Qed.
Lemma carry coef sps pss pss1 coef' sps' pss' pss1' : length pss = length sps -> length pss' = length sps' -> all_placed pss -> all_placed pss' -> carried_by sps pss pss1 -> carried_by sps' pss' pss1' ->
  (forall k, spread coef sps pss k == spread coef' sps' pss' k) -> forall k, spread coef sps pss1 k == spread coef' sps' pss1' k.
Proof.
  intros L L' P P' C C' E k. rewrite (carried_spread k sps coef pss pss1 L C P), (carried_spread k sps' coef' pss' pss1' L' C' P').
  apply (cloud_sum coef sps pss coef' sps' pss' (fun q => if key_dec (point_key k) (H q) then 1 else 0) P P' E).
Qed.
End Carry.
