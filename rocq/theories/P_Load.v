(** Proofs for C39, C67-C70. *)
From Verif Require Import Base M_Load S_Load.
From Coq Require Import QArith Qround String Lqa.
Local Open Scope nat_scope.
Local Open Scope list_scope.

(** ** the sides of one axis *)
Lemma qle_t a b : Qle_bool a b = true <-> (a <= b)%Q. Proof. apply Qle_bool_iff. Qed.
Lemma qle_f a b : Qle_bool a b = false <-> (b < a)%Q.
Proof.
  split; intro H.
  - apply Qnot_le_lt. intro H'. apply Qle_bool_iff in H'. congruence.
  - destruct (Qle_bool a b) eqn:E; [|reflexivity]. apply Qle_bool_iff in E. lra.
Qed.
Lemma qn_mul a b : (qn (a * b) == qn a * qn b)%Q.
Proof. unfold qn. rewrite Nat2Z.inj_mul, inject_Z_mult. reflexivity. Qed.
Lemma qn_S a : (qn (S a) == qn a + 1)%Q.
Proof. unfold qn. rewrite Nat2Z.inj_succ. unfold Z.succ. rewrite inject_Z_plus. reflexivity. Qed.
Lemma qn_le a b : a <= b -> (qn a <= qn b)%Q. Proof. intro H. unfold qn. rewrite <- Zle_Qle. lia. Qed.
Lemma qn_nonneg a : (0 <= qn a)%Q. Proof. apply (qn_le 0 a). lia. Qed.

(** the lower edge of the j-th side without absorbing layer *)
Definition edge (a : axis) (j : nat) : Q := (origin a - step a / 2 + qn j * (qn (cells a) * step a))%Q.
Lemma edge_S a j : (edge a (S j) == edge a j + qn (cells a) * step a)%Q.
Proof. unfold edge. rewrite qn_S. ring. Qed.
Lemma edge_le a i j : (0 < step a)%Q -> i <= j -> (edge a i <= edge a j)%Q.
Proof.
  intros H1 H2. unfold edge. apply Qplus_le_compat; [lra|]. apply Qmult_le_compat_r; [apply qn_le, H2|].
  apply Qmult_le_0_compat; [apply qn_nonneg|lra].
Qed.
Lemma thick_bounds a t : axis_ok a -> thinner t (cells a) -> (0 <= thick t * step a)%Q /\ (thick t * step a <= qn (cells a) * step a)%Q.
Proof.
  intros [_ [H _]] Ht. destruct t as [k|]; unfold thick, thinner in *.
  - split; [apply Qmult_le_0_compat; [apply qn_nonneg|lra]|]. apply Qmult_le_compat_r; [apply qn_le; lia|lra].
  - split; [lra|]. setoid_replace (0 * step a)%Q with 0%Q by ring. apply Qmult_le_0_compat; [apply qn_nonneg|lra].
Qed.
Lemma within_edges a j s x : nth_side a j s ->
  within s x = true <->
  (edge a j + thick (if (j =? 0)%nat then th_lo a else None) * step a <= x)%Q
  /\ (x < edge a (S j) - thick (if (j =? count a - 1)%nat then th_hi a else None) * step a)%Q.
Proof.
  intros [E1 [E2 [E3 [E4 E5]]]]. unfold within, qltb. rewrite andb_true_iff, negb_true_iff, qle_t, qle_f. unfold lower, upper.
  rewrite E2, E3, E4, E5. cbv zeta. rewrite edge_S. unfold edge. rewrite qn_mul in E1.
  assert (A : forall t, (match t with Some k => o s + qn k * step a | None => o s end == o s + thick t * step a)%Q).
  { intros [k|]; unfold thick; ring. }
  assert (B : forall t m, (match t with Some k => m - qn k * step a | None => m end == m - thick t * step a)%Q).
  { intros [k|] m; unfold thick; ring. }
  rewrite A, B. assert (C : (o s == origin a + qn j * (qn (cells a) * step a))%Q) by (rewrite E1; ring). clear E1.
  set (y := (qn j * (qn (cells a) * step a))%Q) in *. set (z := (qn (cells a) * step a)%Q) in *.
  assert (D : ((qn (cells a) - 1) * step a == z - step a)%Q) by (unfold z; ring). rewrite D.
  set (p := (thick (if (j =? 0)%nat then th_lo a else None) * step a)%Q). set (q := (thick (if (j =? count a - 1)%nat then th_hi a else None) * step a)%Q).
  assert (H : (step a / 2 == (1#2) * step a)%Q) by field. rewrite H. split; intros [F1 F2]; split; lra.
Qed.
Lemma inner_edges a x : inner a x = true <->
  (edge a 0 + thick (th_lo a) * step a <= x)%Q /\ (x < edge a (count a) - thick (th_hi a) * step a)%Q.
Proof.
  unfold inner. rewrite andb_true_iff, negb_true_iff, qle_t, qle_f. unfold edge. rewrite qn_mul.
  assert (A : (origin a + (thick (th_lo a) - (1 # 2)) * step a == origin a - step a / 2 + qn 0 * (qn (cells a) * step a) + thick (th_lo a) * step a)%Q)
    by (change (qn 0) with (inject_Z 0); unfold inject_Z; field).
  assert (B : (origin a + (qn (count a) * qn (cells a) - thick (th_hi a) - (1 # 2)) * step a
               == origin a - step a / 2 + qn (count a) * (qn (cells a) * step a) - thick (th_hi a) * step a)%Q) by field.
  rewrite A, B. reflexivity.
Qed.
Lemma within_inner a j s x : axis_ok a -> j < count a -> nth_side a j s -> within s x = true -> inner a x = true.
Proof.
  intros H Hj Hs Hw. apply (within_edges a j s x Hs) in Hw. apply inner_edges. destruct Hw as [H1 H2].
  assert (Hst : (0 < step a)%Q) by apply H.
  destruct (thick_bounds a (th_lo a) H (proj1 (proj2 (proj2 H)))) as [L1 L2].
  destruct (thick_bounds a (th_hi a) H (proj2 (proj2 (proj2 H)))) as [U1 U2]. split.
  - destruct (Nat.eqb_spec j 0) as [->|Hn]; [exact H1|]. pose proof (edge_le a 1 j Hst ltac:(lia)) as E. rewrite edge_S in E.
    unfold thick at 1 in H1. lra.
  - destruct (Nat.eqb_spec j (count a - 1)) as [Hn|Hn].
    + replace (count a) with (S j) by lia. exact H2.
    + pose proof (edge_le a (S (S j)) (count a) Hst ltac:(lia)) as E. rewrite edge_S in E. unfold thick at 1 in H2. lra.
Qed.
Lemma find_index (b : nat -> Q) (x : Q) m : (b 0%nat <= x)%Q -> (x < b m)%Q -> exists i, i < m /\ (b i <= x)%Q /\ (x < b (S i))%Q.
Proof.
  intros H1 H2. induction m as [|m IH]; [lra|]. destruct (Qlt_le_dec x (b m)) as [H|H].
  - destruct (IH H) as [i [A B]]. exists i. split; [lia|exact B].
  - exists m. split; [lia|]. split; assumption.
Qed.
Lemma inner_unique a x : axis_ok a -> inner a x = true ->
  exists i, i < count a /\ forall j s, j < count a -> nth_side a j s -> within s x = (i =? j).
Proof.
  intros H Hi. pose proof Hi as Hi'. apply inner_edges in Hi. destruct Hi as [H1 H2]. assert (Hst : (0 < step a)%Q) by apply H.
  destruct (thick_bounds a (th_lo a) H (proj1 (proj2 (proj2 H)))) as [L1 L2].
  destruct (thick_bounds a (th_hi a) H (proj2 (proj2 (proj2 H)))) as [U1 U2].
  destruct (find_index (edge a) x (count a)) as [i [Hi1 [Hi2 Hi3]]]; [lra|lra|]. exists i. split; [exact Hi1|]. intros j s Hj Hs.
  destruct (Nat.eqb_spec i j) as [<-|Hn].
  - apply (within_edges a i s x Hs). split.
    + destruct (Nat.eqb_spec i 0) as [->|_]; [exact H1|]. unfold thick. lra.
    + destruct (Nat.eqb_spec i (count a - 1)) as [Hl|_]; [|unfold thick; lra]. replace (S i) with (count a) by lia. exact H2.
  - destruct (within s x) eqn:E; [exfalso|reflexivity]. apply (within_edges a j s x Hs) in E. destruct E as [E1 E2].
    assert (P1 : (0 <= thick (if (j =? 0)%nat then th_lo a else None) * step a)%Q).
    { destruct (j =? 0)%nat; [exact L1|unfold thick; lra]. }
    assert (P2 : (0 <= thick (if (j =? count a - 1)%nat then th_hi a else None) * step a)%Q).
    { destruct (j =? count a - 1)%nat; [exact U1|unfold thick; lra]. }
    destruct (Nat.lt_trichotomy i j) as [Hlt|[He|Hgt]]; [|congruence|].
    + pose proof (edge_le a (S i) j Hst ltac:(lia)). lra.
    + pose proof (edge_le a (S j) i Hst ltac:(lia)). lra.
Qed.

(** ** each row has one patch *)
Lemma countb_one {A} (f : A -> bool) (eqd : forall x y : A, {x = y} + {x <> y}) l a :
  NoDup l -> In a l -> (forall x, In x l -> f x = true <-> x = a) -> countb f l = 1.
Proof.
  induction l as [|x l IH]; intros HN Hin Hf; [destruct Hin|]. apply NoDup_cons_iff in HN. destruct HN as [Hx HN]. rewrite countb_cons.
  destruct (eqd x a) as [->|Hne].
  - rewrite (proj2 (Hf a (or_introl eq_refl)) eq_refl). assert (E : countb f l = 0); [|lia]. unfold countb.
    destruct (filter f l) as [|y t] eqn:E; [reflexivity|]. assert (Hy : In y (filter f l)) by (rewrite E; left; reflexivity).
    apply filter_In in Hy. destruct Hy as [Hy1 Hy2]. apply (Hf y (or_intror Hy1)) in Hy2. congruence.
  - destruct (f x) eqn:Ex; [apply (Hf x (or_introl eq_refl)) in Ex; congruence|]. destruct Hin as [H|H]; [congruence|].
    rewrite (IH HN H (fun y Hy => Hf y (or_intror Hy))). reflexivity.
Qed.
Lemma place_dec (x y : nat * nat * nat) : {x = y} + {x <> y}. Proof. repeat decide equality. Qed.
Lemma forall2_countb {A B} (R : A -> B -> Prop) (f : A -> bool) (g : B -> bool) l m :
  Forall2 R l m -> (forall a b, R a b -> f a = g b) -> countb f l = countb g m.
Proof. induction 1 as [|a b l m H1 H2 IH]; intro H; [reflexivity|]. rewrite !countb_cons, IH, (H a b H1) by exact H. reflexivity. Qed.
Lemma countb_zero {A} (f : A -> bool) l : (forall x, In x l -> f x = false) -> countb f l = 0.
Proof.
  induction l as [|x l IH]; intro H; [reflexivity|]. rewrite countb_cons, (H x (or_introl eq_refl)), IH; [reflexivity|]. intros y Hy. exact (H y (or_intror Hy)).
Qed.
Lemma one_patch dim ax ay az ps places r :
  axis_ok ax -> axis_ok ay -> (dim = 3 /\ axis_ok az \/ dim = 2 /\ count az = 1) -> tiles ax ay az ps places ->
  countb (fun p => inbound dim p r) ps = if inside dim ax ay az r then 1 else 0.
Proof.
  intros Hx Hy Hz [HF [HN Hall]]. unfold inside.
  destruct (inner ax (r "x"%string)) eqn:Ix.
  2:{ cbn [andb]. rewrite (forall2_countb _ _ (fun _ => false) _ _ HF); [apply countb_zero; reflexivity|].
      intros p [[i j] k] [Hi [Hj [Hk [Sx [Sy Sz]]]]]. unfold inbound. destruct (within (sx p) (r "x"%string)) eqn:W; [|reflexivity].
      pose proof (within_inner ax i _ _ Hx Hi Sx W). congruence. }
  destruct (inner ay (r "y"%string)) eqn:Iy.
  2:{ cbn [andb]. rewrite (forall2_countb _ _ (fun _ => false) _ _ HF); [apply countb_zero; reflexivity|].
      intros p [[i j] k] [Hi [Hj [Hk [Sx [Sy Sz]]]]]. unfold inbound. destruct (within (sy p) (r "y"%string)) eqn:W; [|rewrite andb_false_r; reflexivity].
      pose proof (within_inner ay j _ _ Hy Hj Sy W). congruence. }
  destruct (inner_unique ax _ Hx Ix) as [i [Hi Ui]]. destruct (inner_unique ay _ Hy Iy) as [j [Hj Uj]]. cbn [andb].
  destruct Hz as [[-> Hz]|[-> Hc]].
  - cbn [Nat.eqb]. destruct (inner az (r "z"%string)) eqn:Iz.
    + destruct (inner_unique az _ Hz Iz) as [k [Hk Uk]].
      rewrite (forall2_countb _ _ (fun '(i', j', k') => (i =? i') && (j =? j') && (k =? k')) _ _ HF).
      * apply (countb_one _ place_dec _ (i, j, k) HN); [apply Hall; assumption|]. intros [[i' j'] k'] _.
        rewrite !andb_true_iff, !Nat.eqb_eq. split; [intros [[-> ->] ->]; reflexivity|intro E; injection E as -> -> ->; auto].
      * intros p [[i' j'] k'] [Hi' [Hj' [Hk' [Sx [Sy Sz]]]]]. unfold inbound. cbn [Nat.eqb]. rewrite (Ui i' _ Hi' Sx), (Uj j' _ Hj' Sy), (Uk k' _ Hk' Sz). reflexivity.
    + rewrite (forall2_countb _ _ (fun _ => false) _ _ HF); [apply countb_zero; reflexivity|].
      intros p [[i' j'] k'] [Hi' [Hj' [Hk' [Sx [Sy Sz]]]]]. unfold inbound. cbn [Nat.eqb]. destruct (within (sz p) (r "z"%string)) eqn:W; [|apply andb_false_r].
      pose proof (within_inner az k' _ _ Hz Hk' Sz W). congruence.
  - cbn [Nat.eqb]. rewrite (forall2_countb _ _ (fun '(i', j', k') => (i =? i') && (j =? j') && (k' =? 0)) _ _ HF).
    + apply (countb_one _ place_dec _ (i, j, 0) HN); [apply Hall; [assumption|assumption|lia]|]. intros [[i' j'] k'] _.
      rewrite !andb_true_iff, !Nat.eqb_eq. split; [intros [[-> ->] ->]; reflexivity|intro E; injection E as -> -> ->; auto].
    + intros p [[i' j'] k'] [Hi' [Hj' [Hk' [Sx [Sy Sz]]]]]. unfold inbound. cbn [Nat.eqb]. rewrite (Ui i' _ Hi' Sx), (Uj j' _ Hj' Sy).
      replace (k' =? 0) with true by lia. reflexivity.
Qed.
Lemma concat_split {A B} (f g : B -> list A) l : Permutation (List.concat (map (fun b => f b ++ g b) l)) (List.concat (map f l) ++ List.concat (map g l)).
Proof.
  induction l as [|b l IH]; cbn [map List.concat]; [reflexivity|]. rewrite IH. rewrite <- !app_assoc. apply Permutation_app_head.
  rewrite !app_assoc. apply Permutation_app_tail, Permutation_app_comm.
Qed.
Lemma concat_pick {A B} (f : B -> bool) (r : A) l : List.concat (map (fun b => if f b then [r] else []) l) = repeat r (countb f l).
Proof.
  induction l as [|b l IH]; [reflexivity|]. cbn [map List.concat]. rewrite countb_cons, IH. destruct (f b); reflexivity.
Qed.
Lemma distribute {A B} (f : B -> A -> bool) (g : A -> bool) (ps : list B) rows :
  (forall r, countb (fun p => f p r) ps = if g r then 1 else 0) ->
  Permutation (List.concat (map (fun p => filter (f p) rows) ps)) (filter g rows).
Proof.
  intro H. induction rows as [|r rows IH].
  - cbn [filter]. clear. induction ps as [|p ps IH]; [constructor|exact IH].
  - transitivity (List.concat (map (fun p => (if f p r then [r] else []) ++ filter (f p) rows) ps)).
    + apply Permutation_refl'. f_equal. apply map_ext. intro p. cbn [filter]. destruct (f p r); reflexivity.
    + rewrite concat_split, concat_pick, H, IH. cbn [filter]. destruct (g r); reflexivity.
Qed.

(** ** one patch *)
Section Load.
Variable root : Q -> Q.
Variable idv : store -> nat -> Q.
Variable dim : nat.
Notation load_patch := (load_patch root idv dim).
Notation load := (load root idv dim).

Lemma skipn_exact {A} (l m : list A) k : k = List.length m -> skipn (List.length (l ++ m) - k) (l ++ m) = m /\ firstn (List.length (l ++ m) - k) (l ++ m) = l.
Proof.
  intros ->. rewrite app_length. replace (List.length l + List.length m - List.length m) with (List.length l) by lia.
  rewrite skipn_app, firstn_app, skipn_all, firstn_all, Nat.sub_diag. cbn [skipn firstn app]. rewrite app_nil_r. split; reflexivity.
Qed.
Definition has (names : list string) (r : row) (s : slot) : Prop := forall a, In a names -> val s a = Some (r a).
Lemma set_last_app a vs old fresh : List.length fresh = List.length vs ->
  set_last a vs (old ++ fresh) = old ++ map (fun '(v, s) => setv a v s) (combine vs fresh).
Proof.
  intro H. unfold set_last. destruct (skipn_exact old fresh (List.length vs) (eq_sym H)) as [-> ->]. reflexivity.
Qed.
Lemma setv_has a names r s : has names r s -> has (names ++ [a]) r (setv a (Some (r a)) s).
Proof.
  intros H b Hb. unfold setv; cbn [val]. destruct (String.eqb_spec a b) as [->|Hn]; [reflexivity|]. apply H.
  apply in_app_or in Hb. destruct Hb as [Hb|[Hb|[]]]; [exact Hb|congruence].
Qed.
Lemma assigned a names rows fresh : Forall2 (has names) rows fresh ->
  Forall2 (has (names ++ [a])) rows (map (fun '(v, s) => setv a v s) (combine (map (fun w => Some (w a)) rows) fresh)).
Proof. induction 1 as [|r s rows fresh H1 H2 IH]; cbn [map combine]; constructor; [apply setv_has, H1|exact IH]. Qed.
Lemma mem_in a l : In a l -> mem a l = true.
Proof. intro H. unfold mem. apply existsb_exists. exists a. split; [exact H|apply String.eqb_refl]. Qed.
Lemma F2_length {A B} (R : A -> B -> Prop) l m : Forall2 R l m -> List.length l = List.length m.
Proof. induction 1; cbn [List.length]; congruence. Qed.
Lemma assigns names : forall rows done s old fresh, slots s = old ++ fresh -> (forall a, In a names -> In a (attrs s)) ->
  Forall2 (has done) rows fresh ->
  exists s', fold_left (assign rows) names (Ok s) = Ok s' /\ attrs s' = attrs s
    /\ exists fresh', slots s' = old ++ fresh' /\ Forall2 (has (done ++ names)) rows fresh'.
Proof.
  induction names as [|a names IH]; intros rows done s old fresh Hs Hn HF; cbn [fold_left].
  - exists s. split; [reflexivity|]. split; [reflexivity|]. exists fresh. rewrite app_nil_r. split; assumption.
  - unfold assign at 2. cbn [bind]. rewrite (mem_in a (attrs s) (Hn a (or_introl eq_refl))).
    destruct (IH rows (done ++ [a]) (mkStore (attrs s) (set_last a (map (fun w => Some (w a)) rows) (slots s)) (created s)) old
                (map (fun '(v, s) => setv a v s) (combine (map (fun w => Some (w a)) rows) fresh))) as [s' [E1 [E2 [fresh' [E3 E4]]]]].
    + cbn [slots]. rewrite Hs. apply set_last_app. rewrite map_length. symmetry. exact (F2_length _ _ _ HF).
    + cbn [attrs]. intros b Hb. apply Hn. right; exact Hb.
    + apply assigned, HF.
    + exists s'. split; [exact E1|]. split; [exact E2|]. exists fresh'. split; [exact E3|]. rewrite <- app_assoc in E4. exact E4.
Qed.
Lemma F2_map {A B C} (R : A -> B -> Prop) (R' : A -> C -> Prop) (f : B -> C) l m :
  (forall a b, R a b -> R' a (f b)) -> Forall2 R l m -> Forall2 R' l (map f m).
Proof. intros H. induction 1; cbn [map]; constructor; auto. Qed.
Lemma loaded_refl names ispec p : loaded names ispec p p [].
Proof.
  split; [reflexivity|]. split; [reflexivity|]. split; [reflexivity|]. split; [reflexivity|]. intros k part H. exists part.
  split; [exact H|]. split; [reflexivity|]. destruct (k =? ispec); [|reflexivity]. exists []. rewrite app_nil_r. split; [reflexivity|constructor].
Qed.
Lemma nth_error_upd_same {A} i (v : A) l : i < List.length l -> nth_error (upd i v l) i = Some v.
Proof. revert i; induction l as [|h t IH]; intros [|i] H; cbn in *; try lia; [reflexivity|]. apply IH. lia. Qed.
Lemma nth_error_upd_other {A} i j (v : A) l : j <> i -> nth_error (upd i v l) j = nth_error l j.
Proof. revert i j; induction l as [|h t IH]; intros [|i] [|j] H; cbn; try reflexivity; try lia. apply IH. lia. Qed.
Lemma load_patch_ok names ispec batch p part :
  nth_error (parts p) ispec = Some part -> (forall a, In a names -> In a (attrs part)) -> ~ In "inv_gamma"%string names ->
  exists p', load_patch names ispec batch p = Ok p' /\ loaded names ispec p p' (filter (inbound dim p) batch).
Proof.
  intros Hp Hn Hi. unfold M_Load.load_patch. set (rows := filter (inbound dim p) batch).
  destruct (Nat.eqb_spec (List.length rows) 0) as [E|E].
  { exists p. split; [reflexivity|]. destruct rows; [|discriminate E]. apply loaded_refl. }
  rewrite Hp. destruct (assigns names rows [] (extend idv (List.length rows) part) (slots part)
    (map (fun i => setv "_id" (Some (idv part (created part + i))) (setv "w" (Some 0%Q) (mkSlot (fun _ => None) true))) (seq 0 (List.length rows))))
    as [s [E1 [E2 [fresh [E3 E4]]]]].
  - reflexivity.
  - exact Hn.
  - clear. generalize 0. induction rows as [|r rows IH]; intro m; cbn [List.length seq map]; constructor; [intros a []|apply IH].
  - rewrite E1. cbn [bind]. cbn [app] in E4.
    set (s1 := if mem "ux" names || mem "uy" names || mem "uz" names then on_slots (gamma_last root (List.length rows)) s else s).
    assert (H1 : attrs s1 = attrs part /\ exists fresh1, slots s1 = slots part ++ fresh1 /\ Forall2 (has names) rows fresh1).
    { unfold s1. destruct (mem "ux" names || mem "uy" names || mem "uz" names).
      - split; [exact E2|]. cbn [on_slots slots]. rewrite E3. unfold gamma_last.
        destruct (skipn_exact (slots part) fresh (List.length rows) (F2_length _ _ _ E4)) as [-> ->]. eexists. split; [reflexivity|].
        refine (F2_map _ _ _ _ _ _ E4). intros r x H a Ha. unfold setv; cbn [val]. destruct (String.eqb_spec "inv_gamma" a) as [<-|_]; [contradiction|apply H, Ha].
      - split; [exact E2|]. exists fresh. split; assumption. }
    clearbody s1. destruct H1 as [A1 [fresh1 [A2 A3]]]. eexists. split; [reflexivity|]. split; [reflexivity|]. split; [reflexivity|]. split; [reflexivity|].
    cbn [parts]. split; [apply upd_length|]. assert (Hlt : ispec < List.length (parts p)) by (apply nth_error_Some; congruence).
    intros k q Hq. destruct (Nat.eqb_spec k ispec) as [->|Hne].
    + rewrite nth_error_upd_same by exact Hlt. eexists. split; [reflexivity|]. assert (q = part) by congruence. subst q. split; [exact A1|].
      cbn [on_slots slots]. rewrite A2. unfold alive_last. destruct (skipn_exact (slots part) fresh1 (List.length rows) (F2_length _ _ _ A3)) as [-> ->].
      eexists. split; [reflexivity|]. refine (F2_map _ _ _ _ _ _ A3). intros r x H. split; [reflexivity|exact H].
    + rewrite nth_error_upd_other by exact Hne. exists q. split; [exact Hq|]. split; reflexivity.
Qed.

Lemma loaded_trans names ispec p p1 p2 new1 new2 :
  loaded names ispec p p1 new1 -> loaded names ispec p1 p2 new2 -> loaded names ispec p p2 (new1 ++ new2).
Proof.
  intros [A1 [A2 [A3 [A4 A5]]]] [B1 [B2 [B3 [B4 B5]]]]. split; [congruence|]. split; [congruence|]. split; [congruence|]. split; [congruence|].
  intros k part H. destruct (A5 k part H) as [part1 [C1 [C2 C3]]]. destruct (B5 k part1 C1) as [part2 [D1 [D2 D3]]]. exists part2.
  split; [exact D1|]. split; [congruence|]. destruct (k =? ispec); [|congruence]. destruct C3 as [f1 [F1 G1]]. destruct D3 as [f2 [F2 G2]].
  exists (f1 ++ f2). split; [rewrite F2, F1; symmetry; apply app_assoc|]. apply Forall2_app; assumption.
Qed.
Lemma loaded_target names ispec p p' new part : loaded names ispec p p' new -> nth_error (parts p) ispec = Some part ->
  exists part', nth_error (parts p') ispec = Some part' /\ attrs part' = attrs part.
Proof. intros [_ [_ [_ [_ H]]]] Hp. destruct (H _ _ Hp) as [part' [E1 [E2 _]]]. exists part'. split; assumption. Qed.
Lemma loaded_inbound names ispec p p' new : loaded names ispec p p' new -> inbound dim p' = inbound dim p.
Proof. intros [A1 [A2 [A3 _]]]. unfold inbound. rewrite A1, A2, A3. reflexivity. Qed.

(** the species has its arrays in every patch of the list *)
Definition ready (names : list string) (ispec : nat) (p : patch) : Prop :=
  exists part, nth_error (parts p) ispec = Some part /\ forall a, In a names -> In a (attrs part).
Lemma mapM_ok names ispec batch : ~ In "inv_gamma"%string names -> forall ps, Forall (ready names ispec) ps ->
  exists ps', mapM (load_patch names ispec batch) ps = Ok ps'
    /\ Forall2 (fun p p' => loaded names ispec p p' (filter (inbound dim p) batch)) ps ps'.
Proof.
  intros Hi. induction ps as [|p ps IH]; intro H; cbn [mapM]; [exists []; split; [reflexivity|constructor]|].
  pose proof (Forall_inv H) as [part [H1 H2]]. destruct (load_patch_ok names ispec batch p part H1 H2 Hi) as [p' [-> E]].
  destruct (IH (Forall_inv_tail H)) as [ps' [-> E']]. cbn [bind]. exists (p' :: ps'). split; [reflexivity|]. constructor; assumption.
Qed.
Lemma loaded_ready names ispec p p' new : loaded names ispec p p' new -> ready names ispec p -> ready names ispec p'.
Proof.
  intros H [part [H1 H2]]. destruct (loaded_target _ _ _ _ _ _ H H1) as [part' [E1 E2]]. exists part'. split; [exact E1|]. rewrite E2. exact H2.
Qed.
Lemma batches_ok names ispec : ~ In "inv_gamma"%string names -> forall bs ps, Forall (ready names ispec) ps ->
  exists ps', fold_left (fun r batch => bind r (mapM (load_patch names ispec batch))) bs (Ok ps) = Ok ps'
    /\ Forall2 (fun p p' => loaded names ispec p p' (filter (inbound dim p) (List.concat bs))) ps ps'.
Proof.
  intros Hi. induction bs as [|b bs IH]; intros ps H; cbn [fold_left List.concat].
  - exists ps. split; [reflexivity|]. clear. induction ps; constructor; [apply loaded_refl|assumption].
  - cbn [bind]. destruct (mapM_ok names ispec b Hi ps H) as [ps1 [-> E1]].
    assert (H1 : Forall (ready names ispec) ps1).
    { clear - E1 H. induction E1 as [|p p' l l' H1 H2 IH]; constructor; [exact (loaded_ready _ _ _ _ _ H1 (Forall_inv H))|exact (IH (Forall_inv_tail H))]. }
    destruct (IH ps1 H1) as [ps2 [-> E2]]. exists ps2. split; [reflexivity|]. clear - E1 E2. revert ps2 E2.
    induction E1 as [|p p1 l l1 G1 G2 IH]; intros ps2 E2; inversion E2 as [|a p2 b' l2 K1 K2]; subst; constructor; [|apply IH; assumption].
    rewrite filter_app. rewrite (loaded_inbound _ _ _ _ _ G1) in K1. exact (loaded_trans _ _ _ _ _ _ _ G1 K1).
Qed.
Lemma chunks_concat {A} size : 0 < size -> forall fuel (l : list A), List.length l <= fuel -> List.concat (chunks fuel size l) = l.
Proof.
  intro Hs. induction fuel as [|fuel IH]; intros l H; [destruct l; [reflexivity|cbn in H; lia]|]. destruct l as [|a l]; [reflexivity|].
  cbn [chunks]. change (List.concat (firstn size (a :: l) :: chunks fuel size (skipn size (a :: l))))
    with (firstn size (a :: l) ++ List.concat (chunks fuel size (skipn size (a :: l)))).
  rewrite IH; [apply firstn_skipn|]. rewrite skipn_length. cbn [List.length] in *. lia.
Qed.
Lemma names_no_gamma keys l : ~ In "inv_gamma"%string
  (filter (fun a => mem a l && negb (String.eqb a "_id") && negb (String.eqb a "inv_gamma")) keys).
Proof. intro H. apply filter_In in H. destruct H as [_ H]. cbn in H. rewrite andb_false_r in H. discriminate. Qed.
Lemma mem_in' a l : mem a l = true -> In a l.
Proof. unfold mem. intro H. apply existsb_exists in H. destruct H as [x [H1 H2]]. apply String.eqb_eq in H2. congruence. Qed.

Lemma load_ok keys ispec bs rows ps sig :
  enough dim keys -> 0 < bs -> ps <> [] -> Forall (fun p => map attrs (parts p) = sig) ps ->
  ispec < List.length sig -> nth 0 sig [] = nth ispec sig [] ->
  exists ps', load keys ispec bs rows ps = Ok ps'
    /\ Forall2 (fun p p' => loaded (filter (fun a => mem a (nth ispec sig []) && negb (String.eqb a "_id") && negb (String.eqb a "inv_gamma")) keys)
                              ispec p p' (filter (inbound dim p) rows)) ps ps'.
Proof.
  intros [Kx [Ky [Kw Kz]]] Hbs Hne Hsig Hlt Hsame. unfold M_Load.load, filter_attributes.
  rewrite (mem_in _ _ Kx), (mem_in _ _ Ky), (mem_in _ _ Kw). cbn [negb].
  replace ((dim =? 3) && negb (mem "z" keys)) with false.
  2:{ destruct (Nat.eqb_spec dim 3) as [E|E]; [|reflexivity]. rewrite (mem_in _ _ (Kz E)). reflexivity. }
  destruct ps as [|p0 ps0]; [congruence|]. pose proof (Forall_inv Hsig) as H0. cbn beta in H0. destruct (parts p0) as [|first others] eqn:Ep.
  { cbn in H0. subst sig. cbn in Hlt. lia. }
  cbn [bind]. assert (Ef : attrs first = nth ispec sig []) by (rewrite <- Hsame, <- H0; reflexivity). rewrite Ef.
  set (names := filter _ keys). destruct (batches_ok names ispec (names_no_gamma _ _) (chunks (List.length rows) bs rows) (p0 :: ps0)) as [ps' [E1 E2]].
  - apply Forall_forall. intros p Hp. pose proof (proj1 (Forall_forall _ _) Hsig p Hp) as Hs. cbn beta in Hs.
    destruct (nth_error (parts p) ispec) as [part|] eqn:En.
    + exists part. split; [exact En|]. intros a Ha. apply filter_In in Ha. destruct Ha as [_ Ha]. apply andb_true_iff in Ha. destruct Ha as [Ha _].
      apply andb_true_iff in Ha. destruct Ha as [Ha _]. apply mem_in' in Ha. rewrite <- Hs in Ha.
      rewrite (nth_indep _ [] (attrs part)) in Ha by (rewrite map_length; apply nth_error_Some; congruence).
      rewrite map_nth in Ha. rewrite (nth_error_nth _ _ _ En) in Ha. exact Ha.
    + apply nth_error_None in En. rewrite <- Hs, map_length in Hlt. lia.
  - rewrite chunks_concat in E2 by lia. exists ps'. split; assumption.
Qed.
End Load.

(** ** all processes *)
Section Everywhere.
Variable root : Q -> Q.
Variable idv : store -> nat -> Q.
Variable dim : nat.
Lemma F2_concat {A B} (R : A -> B -> Prop) l m : Forall2 (Forall2 R) l m -> Forall2 R (List.concat l) (List.concat m).
Proof. induction 1; cbn [List.concat]; [constructor|]. apply Forall2_app; assumption. Qed.
Lemma everywhere ax ay az keys ispec bs rows procs places sig :
  axis_ok ax -> axis_ok ay -> (dim = 3 /\ axis_ok az \/ dim = 2 /\ count az = 1) ->
  tiles ax ay az (List.concat procs) places -> enough dim keys -> 0 < bs ->
  Forall (fun ps => ps <> []) procs -> Forall (fun p => map attrs (parts p) = sig) (List.concat procs) ->
  ispec < List.length sig -> nth 0 sig [] = nth ispec sig [] ->
  exists procs' news,
    Forall2 (fun ps ps' => load root idv dim keys ispec bs rows ps = Ok ps') procs procs' /\
    List.length (List.concat procs') = List.length (List.concat procs) /\
    Forall2 (fun '(p, p') new => loaded (filter (fun a => mem a (nth ispec sig []) && negb (String.eqb a "_id") && negb (String.eqb a "inv_gamma")) keys)
                                   ispec p p' new) (combine (List.concat procs) (List.concat procs')) news /\
    Permutation (List.concat news) (filter (inside dim ax ay az) rows).
Proof.
  intros Hx Hy Hz Ht Hk Hbs Hne Hsig Hlt Hsame.
  assert (H : exists procs', Forall2 (fun ps ps' => load root idv dim keys ispec bs rows ps = Ok ps') procs procs' /\
     Forall2 (Forall2 (fun p p' => loaded (filter (fun a => mem a (nth ispec sig []) && negb (String.eqb a "_id") && negb (String.eqb a "inv_gamma")) keys)
                              ispec p p' (filter (inbound dim p) rows))) procs procs').
  { clear Ht. induction procs as [|ps procs IH]; [exists []; split; constructor|].
    cbn [List.concat] in Hsig. apply Forall_app in Hsig. destruct Hsig as [S1 S2].
    destruct (IH (Forall_inv_tail Hne) S2) as [procs' [A B]].
    destruct (load_ok root idv dim keys ispec bs rows ps sig Hk Hbs (Forall_inv Hne) S1 Hlt Hsame) as [ps' [E1 E2]].
    exists (ps' :: procs'). split; constructor; assumption. }
  destruct H as [procs' [A B]]. apply F2_concat in B.
  exists procs', (map (fun p => filter (inbound dim p) rows) (List.concat procs)). split; [exact A|]. split; [symmetry; exact (F2_length _ _ _ B)|].
  split.
  - clear - B. induction B as [|p p' l l' H1 H2 IH]; cbn [combine map]; constructor; assumption.
  - apply distribute. intro r. apply (one_patch dim ax ay az _ places r Hx Hy Hz Ht).
Qed.

(** ** momenta *)
Lemma put_u_pushed (add : bool) (ux uy uz : Q) (R : Q * Q * Q -> Q * Q * Q -> Prop) s :
  (forall a b c : Q, R (a, b, c) (if add then (a + ux, b + uy, c + uz) else (ux, uy, uz))%Q) -> dead s = false ->
  pushed root R s (put_u root add ux uy uz s).
Proof.
  intros HR Hd. split; [reflexivity|]. split; [congruence|]. intros _. split.
  - intros a Ha. unfold put_u, inverse_gamma, setv. cbn [val].
    destruct (String.eqb_spec "inv_gamma" a) as [<-|_]; [exfalso; apply Ha; cbn; tauto|].
    destruct (String.eqb_spec "uz" a) as [<-|_]; [exfalso; apply Ha; cbn; tauto|].
    destruct (String.eqb_spec "uy" a) as [<-|_]; [exfalso; apply Ha; cbn; tauto|].
    destruct (String.eqb_spec "ux" a) as [<-|_]; [exfalso; apply Ha; cbn; tauto|]. reflexivity.
  - intros [[a b] c] Hm. specialize (HR a b c). unfold momentum in Hm.
    destruct (val s "ux") as [a'|] eqn:Ea; [|discriminate]. destruct (val s "uy") as [b'|] eqn:Eb; [|discriminate].
    destruct (val s "uz") as [c'|] eqn:Ec; [|discriminate]. assert (a' = a /\ b' = b /\ c' = c) as [-> [-> ->]] by (split; [congruence|split; congruence]).
    unfold put_u, inverse_gamma, momentum, usq, setv. cbn -[Qplus Qmult Qdiv]. rewrite Ea, Eb, Ec. destruct add; cbn -[Qplus Qmult Qdiv].
    + exists (a + ux)%Q, (b + uy)%Q, (c + uz)%Q. split; [reflexivity|]. split; [exact HR|]. eexists. split; [|reflexivity]. reflexivity.
    + exists ux, uy, uz. split; [reflexivity|]. split; [exact HR|]. eexists. split; [|reflexivity]. reflexivity.
Qed.
Lemma dead_pushed R s : dead s = true -> pushed root R s s.
Proof. intro H. split; [reflexivity|]. split; [reflexivity|]. congruence. Qed.
Lemma set_momentum_ok add u l : Forall2 (pushed root (target add u)) l (set_momentum root add u l).
Proof.
  destruct u as [[ux uy] uz]. unfold set_momentum, onalive. induction l as [|s l IH]; cbn [map]; constructor; [|exact IH].
  destruct (dead s) eqn:E; [apply dead_pushed, E|]. apply put_u_pushed; [|exact E]. intros a b c. reflexivity.
Qed.
Lemma set_samples_ok add us t l : forall k,
  each (fun k => pushed root (target add (stretched us t k))) k l (set_samples root add us t k l).
Proof.
  induction l as [|s l IH]; intro k; cbn [set_samples]; [constructor|]. destruct (dead s) eqn:E.
  - apply each_dead; [exact E|apply dead_pushed, E|apply IH].
  - destruct (us k) as [[ux uy] uz] eqn:Eu. destruct t as [[t0 t1] t2]. apply each_alive; [exact E| |apply IH].
    apply put_u_pushed; [|exact E]. intros a b c. unfold target, stretched. rewrite Eu. reflexivity.
Qed.
Lemma pushed_trans (R1 R2 R : Q * Q * Q -> Q * Q * Q -> Prop) s s1 s2 :
  (forall a b c, R1 a b -> R2 b c -> R a c) -> pushed root R1 s s1 -> pushed root R2 s1 s2 -> pushed root R s s2.
Proof.
  intros HR [A1 [A2 A3]] [B1 [B2 B3]]. split; [congruence|]. split.
  - intro H. rewrite B2 by congruence. apply A2, H.
  - intro H. destruct (A3 H) as [C1 C2]. destruct (B3 (eq_trans A1 H)) as [D1 D2]. split.
    + intros a Ha. rewrite D1, C1 by exact Ha. reflexivity.
    + intros m Hm. destruct (C2 m Hm) as [a [b [c [E1 [E2 _]]]]]. destruct (D2 _ E1) as [x [y [z [F1 [F2 F3]]]]].
      exists x, y, z. split; [exact F1|]. split; [exact (HR _ _ _ E2 F2)|exact F3].
Qed.
Lemma set_both_ok add u us t l :
  each (fun k => pushed root (both add u (stretched us t k))) 0 l (set_momentum_temperature root add u us t l).
Proof.
  unfold set_momentum_temperature, set_temperature. pose proof (set_momentum_ok add u l) as H1.
  pose proof (set_samples_ok true us t (set_momentum root add u l) 0) as H2. revert H1 H2.
  generalize (set_momentum root add u l) as l1. generalize (set_samples root true us t 0) as f. intros f l1.
  generalize (f l1) as l2. clear f. intros l2 H1. revert l2. generalize 0.
  induction H1 as [|s s1 l l1 G1 G2 IH]; intros k l2 H2; inversion H2 as [|k' a b c e Hd Hr He|k' a b c e Hd Hr He]; subst.
  - constructor.
  - apply each_dead; [destruct G1 as [G _]; congruence| |apply IH, He].
    refine (pushed_trans _ _ _ _ _ _ _ G1 Hr). intros x y z X Y. exists y. split; assumption.
  - apply each_alive; [destruct G1 as [G _]; congruence| |apply IH, He].
    refine (pushed_trans _ _ _ _ _ _ _ G1 Hr). intros x y z X Y. exists y. split; assumption.
Qed.
(** ** the stretch squares the ratio *)
Lemma stretch_sums us t0 t1 t2 l : ~ (t0 == 0)%Q -> forall k,
  (square_sum "ux" (set_samples root false us (t0, t1, t2) k l) == sums px us k l)%Q /\
  (square_sum "uy" (set_samples root false us (t0, t1, t2) k l) == (t1 / t0) * (t1 / t0) * sums py us k l)%Q.
Proof.
  intro H0. induction l as [|s l IH]; intro k; cbn [set_samples].
  - cbn [square_sum sums]. split; ring.
  - cbn [sums]. destruct (dead s) eqn:E.
    + cbn [square_sum]. rewrite E. destruct (IH k) as [I1 I2]. split; [rewrite I1|rewrite I2]; ring.
    + destruct (us k) as [[ux uy] uz] eqn:Eu. destruct (IH (S k)) as [I1 I2]. cbn [square_sum].
      replace (dead (put_u root false ux (uy * t1 / t0) (uz * t2 / t0) s)) with false by (symmetry; exact E).
      unfold put_u, inverse_gamma, setv. cbn -[Qplus Qmult Qdiv square_sum sums]. split; [rewrite I1|rewrite I2]; unfold px, py; cbn [fst snd]; field; exact H0.
Qed.
End Everywhere.
