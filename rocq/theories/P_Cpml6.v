(** The stretched update (C77). *)
From Coq Require Import Field_theory Ring.
From Verif Require Import Base M_Layout M_PartSync S_PartSync M_FieldSync S_FieldSync M_Maxwell S_Maxwell M_Cpml S_Cpml P_FieldGeo P_Maxwell P_Maxwell2 P_Cpml P_Cpml3 P_Cpml5.
Local Open Scope Z_scope.

Lemma upd_add (ns c : list Z) (Hc : interior ns c) a x : (a < length ns)%nat -> upd a (nth a c 0 + x) c = add c (unit_ (length ns) a x).
Proof.
  unfold unit_. revert a c Hc. induction ns as [|n l IH]; intros a c Hc Ha; [cbn in Ha; lia|].
  destruct c as [|y c]; [inversion Hc|]. assert (Hc' : interior l c) by (inversion Hc; assumption). cbn [length seq map add].
  assert (Q : forall b, map (fun i => if (i =? S b)%nat then x else 0) (seq 1 (length l)) = map (fun i => if (i =? b)%nat then x else 0) (seq 0 (length l))).
  { intro b. rewrite <- seq_shift, map_map. apply map_ext. intro i. reflexivity. }
  destruct a as [|a].
  - cbn [upd nth Nat.eqb]. f_equal. clear - Hc'. replace (map (fun i => if (i =? 0)%nat then x else 0) (seq 1 (length l))) with (repeat 0 (length l)).
    + revert c Hc'. induction l as [|n l IH]; intros c Hc; inversion Hc; subst; [reflexivity|]. cbn [length repeat add]. f_equal; [lia|apply IH; assumption].
    + rewrite <- seq_shift, map_map. cbn [Nat.eqb]. clear. assert (forall k, repeat 0 (length l) = map (fun _ : nat => 0) (seq k (length l))) as X; [|apply X]. induction (length l) as [|m IH]; intro k; [reflexivity|]. cbn [repeat seq map]. f_equal. apply IH.
  - cbn [upd nth]. cbn [Nat.eqb]. rewrite Q. f_equal; [lia|]. apply IH; [exact Hc'|cbn in Ha; lia].
Qed.
Lemma upd_0 (ns c : list Z) (Hc : interior ns c) a : (a < length ns)%nat -> upd a (nth a c 0 + 0) c = c.
Proof.
  revert a c Hc. induction ns as [|n l IH]; intros a c Hc Ha; [cbn in Ha; lia|]. destruct c as [|y c]; [inversion Hc|]. assert (interior l c) by (inversion Hc; assumption).
  destruct a as [|a]; cbn [upd nth]; [f_equal; lia|]. f_equal. apply IH; [assumption|cbn in Ha; lia].
Qed.
Lemma interior_nth' (ns c : list Z) (Hc : interior ns c) a : (a < length ns)%nat -> 0 <= nth a c 0 < nth a ns 0.
Proof.
  revert a c Hc. induction ns as [|n l IH]; intros a c Hc Ha; [cbn in Ha; lia|]. destruct c as [|y c]; [inversion Hc|]. inversion Hc; subst. destruct a as [|a]; cbn [nth]; [assumption|].
  apply IH; [assumption|cbn in Ha; lia].
Qed.

Section Str.
Context {V : Type} (A : arith V) (K : layer V) (zero : V) (inv : V -> V).
Hypothesis Fth : field_theory zero (one_ K) (plus_ A) (times_ A) (minus_ A) (minus1_ A) (over_ A) inv (@eq V).
Local Notation "x +. y" := (plus_ A x y) (at level 50, left associativity).
Local Notation "x -. y" := (minus_ A x y) (at level 50, left associativity).
Local Notation "x *. y" := (times_ A x y) (at level 40, left associativity).
Local Notation "x /. y" := (over_ A x y) (at level 40, left associativity).
Lemma Rth6 : ring_theory zero (one_ K) (plus_ A) (times_ A) (minus_ A) (minus1_ A) (@eq V). Proof using Fth. exact (F_R Fth). Qed.
Add Ring VR6 : Rth6.

Lemma range_depth e s n i : 0 <= i < n -> in_range K e s n i = in_depth K e s n i.
Proof using. intro H. unfold in_range, in_depth, half_cells, l_start, l_stop. destruct (is_min s), e; lia. Qed.
Lemma pos_depth e s n i : pos_ A K e s n i = depth A K e s n i.
Proof using.
  unfold pos_, depth, half_cells, l_start. cbv zeta. destruct (is_min s), e;
  match goal with |- context [ofZ_ K ?x] => lazymatch goal with |- context [ofZ_ K (?y / 2)] => replace x with (y / 2) by lia end end; reflexivity.
Qed.
Lemma kappa_depth e s n i : kappa_in A K e s n i = kappa_at A K (depth A K e s n i).
Proof using. unfold kappa_in, kappa_at, pos3. cbv zeta. rewrite pos_depth. reflexivity. Qed.
Lemma decay_depth e s n i dt : bcoeff A K e s n i dt = decay A K (depth A K e s n i) dt.
Proof using. unfold bcoeff, decay, sigma_in, a_in, sigma_at, a_at, pos3. cbv zeta. rewrite kappa_depth, pos_depth. reflexivity. Qed.
Lemma drive_depth e s n i dt d : ccoeff A K e s n i dt d = drive A K (depth A K e s n i) dt d.
Proof using. unfold ccoeff, drive. rewrite decay_depth, kappa_depth. unfold sigma_in, a_in, sigma_at, a_at, pos3. cbv zeta. rewrite pos_depth. reflexivity. Qed.
Lemma psi_curl e a f : (a < 3)%nat -> (f < 3)%nat -> psi_of e a f = match curl_term f a with Some (o, b) => Some (o, if e then b else negb b) | None => None end.
Proof using. intros Ha Hf. destruct a as [|[|[|a]]]; [| | |lia]; (destruct f as [|[|[|f]]]; [| | |lia]); destruct e; reflexivity. Qed.
Lemma axis_lt s : (axis_of s < 3)%nat. Proof using. destruct s; cbn; lia. Qed.

Section Sum.
Variable ns : list Z.
Definition sumA (g : nat -> V) : V := fold_right (fun a t => g a +. t) zero (seq 0 (length ns)).
Lemma sumA_single (g : nat -> V) a0 : (a0 < length ns)%nat -> (forall a, a <> a0 -> g a = zero) -> sumA g = g a0.
Proof using Fth.
  intros Ha Hz. unfold sumA. assert (I : In a0 (seq 0 (length ns))) by (apply in_seq; lia). pose proof (seq_NoDup (length ns) 0) as ND. induction (seq 0 (length ns)) as [|a l IH]; [contradiction|].
  apply NoDup_cons_iff in ND as [N1 N2]. cbn [fold_right]. destruct I as [->|I].
  - assert (fold_right (fun a t => g a +. t) zero l = zero) as ->; [|ring]. clear IH N2. induction l as [|b l IH]; [reflexivity|]. cbn [fold_right In] in * . rewrite IH, (Hz b); [ring|intros ->; apply N1; left; reflexivity|intro I; apply N1; right; exact I].
  - rewrite IH, (Hz a); [ring|intros ->; contradiction|exact I|exact N2].
Qed.
Lemma sumA_plus g h : sumA g +. sumA h = sumA (fun a => g a +. h a).
Proof using Fth. unfold sumA. induction (seq 0 (length ns)) as [|a l IH]; cbn [fold_right]; [ring|]. rewrite <- IH. ring. Qed.
Lemma sumA_ext g h : (forall a, (a < length ns)%nat -> g a = h a) -> sumA g = sumA h.
Proof using.
  intro H. unfold sumA. assert (forall a, In a (seq 0 (length ns)) -> g a = h a) as H' by (intros a I; apply in_seq in I; apply H; lia). clear H. induction (seq 0 (length ns)) as [|a l IH]; [reflexivity|].
  cbn [fold_right]. rewrite IH, (H' a); [reflexivity|left; reflexivity|intros b I; apply H'; right; exact I].
Qed.
Lemma sumA_scale k g : sumA (fun a => k *. g a) = k *. sumA g.
Proof using Fth. unfold sumA. induction (seq 0 (length ns)) as [|a l IH]; cbn [fold_right]; [ring|]. rewrite IH. ring. Qed.
End Sum.

Section At.
Variables (ns : list Z) (ng : Z) (ds : list V) (e : bool) (dt : V) (mO : addr -> V) (psi : pml_side -> addr -> V) (p f : nat) (c : list Z).
Hypothesis Hc : interior ns c.
Hypothesis Hf : (f < 3)%nat.
Lemma cell_eq o q c' : cell_ ns ng o q c' = cell ns ng o q c'. Proof using. reflexivity. Qed.
Lemma difference_eq a o : (a < length ns)%nat -> diff_ A ns ng e a mO o p c = difference A ns ng e mO p c a o.
Proof using Hc. intro Ha. unfold diff_, difference. cbv zeta. rewrite !cell_eq, (upd_0 ns c Hc) by exact Ha. destruct e; rewrite (upd_add ns c Hc) by exact Ha; reflexivity. Qed.
Lemma npsi_eq s : (axis_of s < length ns)%nat -> npsi A K ns ng ds e s dt mO p f c (psi s (pcell ns f p c)) = remembered A K ns ng ds e dt mO psi p f c s.
Proof using Hc Hf.
  intro Ha. unfold npsi, np, remembered, in_layer_, new_psi, next_psi, depth_at, size_, coord. cbv zeta. rewrite (range_depth e s _ _ (interior_nth' ns c Hc _ Ha)), (psi_curl e _ f (axis_lt s) Hf).
  destruct (curl_term f (axis_of s)) as [[o b]|]; [|destruct (in_depth _ _ _ _ _); reflexivity]. rewrite decay_depth, drive_depth, difference_eq by exact Ha. reflexivity.
Qed.
(** contribution of the layers across axis a *)
Definition psi_part (l : list pml_side) (a : nat) : V :=
  match layer_at K ns l e c a, curl_term f a with
  | Some s, Some (o, true) => next_psi A K ns ng ds e dt mO psi p f c s o
  | Some s, Some (o, false) => zero -. next_psi A K ns ng ds e dt mO psi p f c s o
  | _, _ => zero
  end.
Definition part (l : list pml_side) (a : nat) : V := if e then fac_ A e dt *. psi_part l a else zero -. fac_ A e dt *. psi_part l a.
Lemma gain_eq s v : (axis_of s < length ns)%nat ->
  gain A K ns e s dt f c (npsi A K ns ng ds e s dt mO p f c (psi s (pcell ns f p c))) v = v +. part [s] (axis_of s).
Proof using Fth Hc Hf.
  intro Ha. rewrite npsi_eq by exact Ha. unfold gain, gn, part, psi_part, remembered, layer_at, in_layer_, size_, coord. cbn [find]. rewrite Nat.eqb_refl, andb_true_l.
  rewrite (range_depth e s _ _ (interior_nth' ns c Hc _ Ha)), (psi_curl e _ f (axis_lt s) Hf). destruct (in_depth _ _ _ _ _); [|destruct e; ring].
  destruct (curl_term f (axis_of s)) as [[o [|]]|]; destruct e; cbn [negb]; ring.
Qed.
Lemma at_none l a : ~ In a (map axis_of l) -> layer_at K ns l e c a = None.
Proof using. intro H. unfold layer_at. induction l as [|s l IH]; [reflexivity|]. cbn [find map In] in * . destruct (Nat.eqb_spec (axis_of s) a) as [E|E]; [exfalso; apply H; left; exact E|]. cbn [andb]. apply IH. intro I. apply H. right. exact I. Qed.
Lemma at_other s l a : axis_of s <> a -> layer_at K ns (s :: l) e c a = layer_at K ns l e c a.
Proof using. intro H. unfold layer_at. cbn [find]. destruct (Nat.eqb_spec (axis_of s) a) as [E|E]; [contradiction|]. reflexivity. Qed.
Lemma at_here s l : ~ In (axis_of s) (map axis_of l) -> layer_at K ns (s :: l) e c (axis_of s) = layer_at K ns [s] e c (axis_of s).
Proof using. intro H. pose proof (at_none l (axis_of s) H) as N. unfold layer_at in * . cbn [find]. destruct (_ && _); [reflexivity|exact N]. Qed.
Lemma part_none l a : layer_at K ns l e c a = None -> part l a = zero.
Proof using Fth. intro H. unfold part, psi_part. rewrite H. destruct e; ring. Qed.
Lemma part_at l l' a : layer_at K ns l e c a = layer_at K ns l' e c a -> part l a = part l' a.
Proof using. intro H. unfold part, psi_part. rewrite H. reflexivity. Qed.
Lemma gains_eq l : one_layer_per_axis (length ns) l -> forall v,
  fold_left (fun v s => gain A K ns e s dt f c (npsi A K ns ng ds e s dt mO p f c (psi s (pcell ns f p c))) v) l v = v +. sumA ns (part l).
Proof using Fth Hc Hf.
  intros [ND HA]. induction l as [|s l IH]; intro v.
  - cbn [fold_left]. assert (sumA ns (part []) = zero) as ->; [|ring]. unfold sumA. induction (seq 0 (length ns)) as [|a q IHq]; [reflexivity|]. cbn [fold_right]. rewrite IHq, part_none by reflexivity. ring.
  - cbn [map] in ND. apply NoDup_cons_iff in ND as [N1 N2]. cbn [fold_left]. rewrite IH by (auto; intros; apply HA; now right).
    rewrite gain_eq by (apply HA; now left).
    assert (sumA ns (fun a => if (a =? axis_of s)%nat then part [s] a else zero) = part [s] (axis_of s)) as <-.
    { rewrite (sumA_single ns _ (axis_of s)); [rewrite Nat.eqb_refl; reflexivity|apply HA; now left|intros a Ha; apply Nat.eqb_neq in Ha; rewrite Ha; reflexivity]. }
    replace (v +. sumA ns (fun a => if (a =? axis_of s)%nat then part [s] a else zero) +. sumA ns (part l)) with (v +. (sumA ns (fun a => if (a =? axis_of s)%nat then part [s] a else zero) +. sumA ns (part l))) by ring.
    rewrite (sumA_plus ns). f_equal. apply sumA_ext. intros a Ha. destruct (Nat.eqb_spec a (axis_of s)) as [->|E].
    + rewrite (part_none l) by (apply at_none; exact N1). rewrite (part_at (s :: l) [s]) by (apply at_here; exact N1). ring.
    + rewrite (part_at (s :: l) l) by (apply at_other; congruence). ring.
Qed.
Lemma kappa_at_eq l a : one_layer_per_axis (length ns) l -> (a < length ns)%nat ->
  kappa_list A K e l a (size_ ns a) (coord a c) = match layer_at K ns l e c a with Some s => kappa_at A K (depth_at A K ns e c s) | None => one_ K end.
Proof using Hc.
  intros [ND HA] Ha. destruct (layer_at K ns l e c a) as [s|] eqn:E.
  - unfold layer_at in E. apply find_some in E. destruct E as [I E]. apply andb_true_iff in E. destruct E as [E1 E2]. apply Nat.eqb_eq in E1. subst a.
    rewrite <- (range_depth e s _ _ (interior_nth' ns c Hc _ Ha)) in E2. unfold size_, coord, depth_at. rewrite <- kappa_depth.
    clear HA. destruct l as [|s0 l]; [contradiction|]. unfold kappa_list. set (k0 := kappa_arr A K e s0 (axis_of s) _). clearbody k0.
    revert k0. induction (s0 :: l) as [|t l' IH]; [contradiction|]. intro k0. cbn [map] in ND. apply NoDup_cons_iff in ND as [N1 N2]. cbn [fold_left]. destruct I as [->|I].
    + rewrite Nat.eqb_refl. assert (X : forall l2 k, ~ In (axis_of s) (map axis_of l2) -> fold_left (fun k t => if (axis_of t =? axis_of s)%nat then kappa_arr A K e t (axis_of s) (nth (axis_of s) ns 0) else k) l2 k (nth (axis_of s) c 0) = k (nth (axis_of s) c 0)).
      { induction l2 as [|u l2 IH2]; intros k Hn; [reflexivity|]. cbn [map In] in Hn. cbn [fold_left]. rewrite IH2 by (intro I2; apply Hn; right; exact I2). destruct (Nat.eqb_spec (axis_of u) (axis_of s)) as [E|E]; [exfalso; apply Hn; left; exact E|reflexivity]. }
      rewrite X by exact N1. unfold kappa_arr. rewrite Nat.eqb_refl, E2. reflexivity.
    + apply IH; auto.
  - apply kappa_off. intros s I <-. unfold size_, coord. rewrite (range_depth e s _ _ (interior_nth' ns c Hc _ Ha)). unfold layer_at in E. apply (find_none _ _ E) in I. rewrite Nat.eqb_refl in I. exact I.
Qed.
(** the kernel with coefficients k *)
Definition kernel_part (k : nat -> V) (a : nat) : V :=
  match curl_term f a with
  | Some (o, b) => let t := difference A ns ng e mO p c a o /. k a /. nth a ds (one_ K) in if b then t else zero -. t
  | None => zero
  end.
Lemma inv_one6 : inv (one_ K) = one_ K.
Proof using Fth. pose proof (Finv_l Fth (one_ K) (F_1_neq_0 Fth)) as E. rewrite <- E at 2. ring. Qed.
Lemma curl_split l : one_layer_per_axis (length ns) l -> stretched_curl A K zero ns ng ds l e dt mO psi p f c =
  sumA ns (fun a => kernel_part (fun a => kappa_list A K e l a (size_ ns a) (coord a c)) a +. psi_part l a).
Proof using Fth Hc.
  clear Hf. intro HL. unfold stretched_curl, sumA. assert (forall a, In a (seq 0 (length ns)) -> (a < length ns)%nat) as H by (intros a I; apply in_seq in I; lia).
  induction (seq 0 (length ns)) as [|a q IH]; [reflexivity|]. cbn [fold_right]. rewrite IH by (intros; apply H; now right). specialize (H a (or_introl eq_refl)).
  clear IH. match goal with |- context [fold_right ?F zero q] => generalize (fold_right F zero q); intro T end.
  unfold kernel_part, psi_part, stretched. cbv zeta. rewrite (kappa_at_eq l a HL H).
  destruct (curl_term f a) as [[o [|]]|]; destruct (layer_at K ns l e c a) as [s|]; rewrite ?(Fdiv_def Fth), ?inv_one6; ring.
Qed.
End At.

Lemma kernel_E2 nx ny ng dx dy mB mJ p f c k dt v : (f < 3)%nat -> interior [nx; ny] c ->
  KE2 A dx dy k dt f (fun f' d => mB (cell [nx; ny] ng f' p (add c d))) (fun f' => mJ (cell [nx; ny] ng f' p c)) v =
  v +. dt *. csq A *. sumA [nx; ny] (kernel_part [nx; ny] ng [dx; dy] true mB p f c k) -. dt /. eps0 A *. mJ (cell [nx; ny] ng f p c).
Proof using Fth.
  intros Hf Hc. destruct c as [|i c]; [inversion Hc|]. destruct c as [|j c]; [inversion Hc as [|? ? ? ? ? X]; inversion X|]. destruct c; [|inversion Hc as [|? ? ? ? ? X]; inversion X as [|? ? ? ? ? Y]; inversion Y].
  unfold sumA, KE2, kernel_part, difference. cbn [length seq fold_right]. cbv zeta. cbn [nth upd add].
  destruct f as [|[|[|f]]]; [| | |lia]; cbn [curl_term Nat.add Nat.modulo Nat.divmod fst snd Nat.sub Nat.eqb nth upd]; rewrite ?Z.add_0_r; rewrite ?(Fdiv_def Fth); ring.
Qed.
Lemma kernel_B2 nx ny ng dx dy mE mJ p f c k dt v : (f < 3)%nat -> interior [nx; ny] c ->
  KB2 A dx dy k dt f (fun f' d => mE (cell [nx; ny] ng f' p (add c d))) (fun f' => mJ (cell [nx; ny] ng f' p c)) v =
  v -. dt *. sumA [nx; ny] (kernel_part [nx; ny] ng [dx; dy] false mE p f c k).
Proof using Fth.
  intros Hf Hc. destruct c as [|i c]; [inversion Hc|]. destruct c as [|j c]; [inversion Hc as [|? ? ? ? ? X]; inversion X|]. destruct c; [|inversion Hc as [|? ? ? ? ? X]; inversion X as [|? ? ? ? ? Y]; inversion Y].
  unfold sumA, KB2, kernel_part, difference. cbn [length seq fold_right]. cbv zeta. cbn [nth upd add].
  destruct f as [|[|[|f]]]; [| | |lia]; cbn [curl_term Nat.add Nat.modulo Nat.divmod fst snd Nat.sub Nat.eqb nth upd]; rewrite ?Z.add_0_r; rewrite ?(Fdiv_def Fth); ring.
Qed.
Lemma kernel_E3 nx ny nz ng dx dy dz mB mJ p f c k dt v : (f < 3)%nat -> interior [nx; ny; nz] c ->
  KE3 A dx dy dz k dt f (fun f' d => mB (cell [nx; ny; nz] ng f' p (add c d))) (fun f' => mJ (cell [nx; ny; nz] ng f' p c)) v =
  v +. dt *. csq A *. sumA [nx; ny; nz] (kernel_part [nx; ny; nz] ng [dx; dy; dz] true mB p f c k) -. dt /. eps0 A *. mJ (cell [nx; ny; nz] ng f p c).
Proof using Fth.
  intros Hf Hc. destruct c as [|i c]; [inversion Hc|]. destruct c as [|j c]; [inversion Hc as [|? ? ? ? ? X]; inversion X|]. destruct c as [|l c]; [inversion Hc as [|? ? ? ? ? X]; inversion X as [|? ? ? ? ? Y]; inversion Y|].
  destruct c; [|inversion Hc as [|? ? ? ? ? X]; inversion X as [|? ? ? ? ? Y]; inversion Y as [|? ? ? ? ? U]; inversion U].
  unfold sumA, KE3, kernel_part, difference. cbn [length seq fold_right]. cbv zeta. cbn [nth upd add].
  destruct f as [|[|[|f]]]; [| | |lia]; cbn [curl_term Nat.add Nat.modulo Nat.divmod fst snd Nat.sub Nat.eqb nth upd]; rewrite ?Z.add_0_r; rewrite ?(Fdiv_def Fth); ring.
Qed.
Lemma kernel_B3 nx ny nz ng dx dy dz mE mJ p f c k dt v : (f < 3)%nat -> interior [nx; ny; nz] c ->
  KB3 A dx dy dz k dt f (fun f' d => mE (cell [nx; ny; nz] ng f' p (add c d))) (fun f' => mJ (cell [nx; ny; nz] ng f' p c)) v =
  v -. dt *. sumA [nx; ny; nz] (kernel_part [nx; ny; nz] ng [dx; dy; dz] false mE p f c k).
Proof using Fth.
  intros Hf Hc. destruct c as [|i c]; [inversion Hc|]. destruct c as [|j c]; [inversion Hc as [|? ? ? ? ? X]; inversion X|]. destruct c as [|l c]; [inversion Hc as [|? ? ? ? ? X]; inversion X as [|? ? ? ? ? Y]; inversion Y|].
  destruct c; [|inversion Hc as [|? ? ? ? ? X]; inversion X as [|? ? ? ? ? Y]; inversion Y as [|? ? ? ? ? U]; inversion U].
  unfold sumA, KB3, kernel_part, difference. cbn [length seq fold_right]. cbv zeta. cbn [nth upd add].
  destruct f as [|[|[|f]]]; [| | |lia]; cbn [curl_term Nat.add Nat.modulo Nat.divmod fst snd Nat.sub Nat.eqb nth upd]; rewrite ?Z.add_0_r; rewrite ?(Fdiv_def Fth); ring.
Qed.

Lemma stretch_E ns ng ds n pmls dt mB mJ mE psi st' (h : nat -> nat -> list Z -> V -> V) p f c :
  layered A K ns ng ds n pmls true dt mB h (mE, psi) st' -> one_layer_per_axis (length ns) (pmls p) -> (f < 3)%nat -> (p < n)%nat -> interior ns c ->
  (forall v, h p f c v = v +. dt *. csq A *. sumA ns (kernel_part ns ng ds true mB p f c (fun a => kappa_list A K true (pmls p) a (size_ ns a) (coord a c))) -. dt /. eps0 A *. mJ (cell ns ng f p c)) ->
  fst st' (cell ns ng f p c) = stretched_E A K zero ns ng ds (pmls p) dt mB mJ mE psi p f c /\
  forall s, In s (pmls p) -> snd st' s (pcell ns f p c) = remembered A K ns ng ds true dt mB psi p f c s.
Proof using Fth.
  intros (L1 & _ & L3) HL Hf Hp Hc Hh. split.
  - rewrite (L1 f p c Hf Hp Hc). cbn [fst snd]. rewrite (gains_eq ns ng ds true dt mB psi p f c Hc Hf (pmls p) HL), Hh. unfold stretched_E. rewrite (curl_split ns ng ds true dt mB psi p f c Hc (pmls p) HL), <- sumA_plus.
    unfold part. cbn [fac_]. rewrite sumA_scale. ring.
  - intros s Hs. rewrite (L3 f p c s Hf Hp Hc Hs). cbn [snd]. apply npsi_eq; auto. apply (proj2 HL). exact Hs.
Qed.
Lemma stretch_B ns ng ds n pmls dt mE mB psi st' (h : nat -> nat -> list Z -> V -> V) p f c :
  layered A K ns ng ds n pmls false dt mE h (mB, psi) st' -> one_layer_per_axis (length ns) (pmls p) -> (f < 3)%nat -> (p < n)%nat -> interior ns c ->
  (forall v, h p f c v = v -. dt *. sumA ns (kernel_part ns ng ds false mE p f c (fun a => kappa_list A K false (pmls p) a (size_ ns a) (coord a c)))) ->
  fst st' (cell ns ng f p c) = stretched_B A K zero ns ng ds (pmls p) dt mE mB psi p f c /\
  forall s, In s (pmls p) -> snd st' s (pcell ns f p c) = remembered A K ns ng ds false dt mE psi p f c s.
Proof using Fth.
  intros (L1 & _ & L3) HL Hf Hp Hc Hh. split.
  - rewrite (L1 f p c Hf Hp Hc). cbn [fst snd]. rewrite (gains_eq ns ng ds false dt mE psi p f c Hc Hf (pmls p) HL), Hh. unfold stretched_B. rewrite (curl_split ns ng ds false dt mE psi p f c Hc (pmls p) HL), <- sumA_plus.
    rewrite (sumA_ext ns (part ns ng ds false dt mE psi p f c (pmls p)) (fun a => (zero -. dt) *. psi_part ns ng ds false dt mE psi p f c (pmls p) a)) by (intros; unfold part, fac_; ring). rewrite sumA_scale. ring.
  - intros s Hs. rewrite (L3 f p c s Hf Hp Hc Hs). cbn [snd]. apply npsi_eq; auto. apply (proj2 HL). exact Hs.
Qed.
End Str.
