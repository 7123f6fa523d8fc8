(** The grid view of an update with absorbing layers followed by the exchange. *)
From Verif Require Import Base M_Layout S_Layout M_PartSync S_PartSync M_FieldSync S_FieldSync M_Maxwell S_Maxwell M_Cpml S_Cpml.
From Verif Require Import P_Layout P_PartSync P_PartSync2 P_PartSync3 P_Threads P_FieldGeo P_FieldPar P_FieldSync P_FieldSync2 P_FieldSync3 P_FieldSync4 P_FieldSync5 P_Maxwell P_Maxwell2 P_Maxwell3 P_Cpml.
Local Open Scope Z_scope.

Definition open_ (a : axis) : bool := bc_eqb (ax_lo a) Pml.
Definition opens (axes : list axis) (a : nat) : bool := nth a (map open_ axes) false.
Definition totals (axes : list axis) (ns : list Z) : list Z := map (fun an => ax_n (fst an) * snd an) (combine axes ns).

Section Grid.
Context {V : Type} (zero : V) (A : arith V) (K : layer V).
Local Notation "x +. y" := (plus_ A x y) (at level 50, left associativity).
Local Notation "x -. y" := (minus_ A x y) (at level 50, left associativity).
Local Notation "x *. y" := (times_ A x y) (at level 40, left associativity).
Local Notation "x /. y" := (over_ A x y) (at level 40, left associativity).
Variable ds : list V.
Variable sides : list pml_side.
(** ordinary part of an update: coefficients along the axes, time step *)
Variable Sk : (nat -> V) -> V -> @stencil V.
Variable dim : nat.
Hypothesis Hlocal : forall k dt, local dim (Sk k dt).
Hypothesis Hk : forall k k' dt f o j v, (forall a, (a < dim)%nat -> k a = k' a) -> Sk k dt f o j v = Sk k' dt f o j v.

(** ** the update of the whole grid: [op] the open axes, [Ns] the sizes, [pl] the cells of the grid *)
Section Whole.
Variables (e : bool) (dt : V) (op : nat -> bool) (Ns : list Z) (pl : list Z -> option (list Z)).
Variables (FO FJ F : nat -> list Z -> V) (PF : pml_side -> nat -> list Z -> V).
Definition gget (f : nat) (g : list Z) : V := match pl g with Some h => FO f h | None => zero end.
Definition gact (s : pml_side) (g : list Z) : bool := op (axis_of s) && in_range K e s (nth (axis_of s) Ns 0) (coord (axis_of s) g).
Definition gdiff (a o : nat) (g : list Z) : V :=
  if e then FO o g -. gget o (add g (unit_ dim a (-1))) else gget o (add g (unit_ dim a 1)) -. FO o g.
Definition gpsi (s : pml_side) (f : nat) (g : list Z) (v : V) : V :=
  if gact s g then match psi_of e (axis_of s) f with
    | Some (o, _) => let a := axis_of s in bcoeff A K e s (nth a Ns 0) (coord a g) dt *. v +. ccoeff A K e s (nth a Ns 0) (coord a g) dt (nth a ds (one_ K)) *. gdiff a o g
    | None => v end else v.
Definition ggain (s : pml_side) (f : nat) (g : list Z) (x v : V) : V := if gact s g then gn A e s dt f x v else v.
Definition gkappa (g : list Z) (a : nat) : V :=
  fold_left (fun k s => if (axis_of s =? a)%nat && gact s g then kappa_in A K e s (nth a Ns 0) (coord a g) else k) sides (one_ K).
Definition gfield (f : nat) (g : list Z) : V :=
  fold_left (fun v s => ggain s f g (gpsi s f g (PF s f g)) v) sides (Sk (gkappa g) dt f (fun f' d => gget f' (add g d)) (fun f' => FJ f' g) (F f g)).
Definition gaux (s : pml_side) (f : nat) (g : list Z) : V := gpsi s f g (PF s f g).
End Whole.

(** depends on the fields only through their values *)
Lemma gfield_ext e dt op Ns pl pl' FO FJ F PF FO' FJ' F' PF' :
  (forall g, pl g = pl' g) -> (forall f g, FO f g = FO' f g) -> (forall f g, FJ f g = FJ' f g) -> (forall f g, F f g = F' f g) -> (forall s f g, PF s f g = PF' s f g) ->
  (forall f g, gfield e dt op Ns pl FO FJ F PF f g = gfield e dt op Ns pl' FO' FJ' F' PF' f g) /\
  (forall s f g, gaux e dt op Ns pl FO PF s f g = gaux e dt op Ns pl' FO' PF' s f g).
Proof.
  intros Hpl HO HJ HF HP.
  assert (Eg : forall f g, gget pl FO f g = gget pl' FO' f g) by (intros f g; unfold gget; rewrite Hpl; destruct (pl' g); auto).
  assert (Ep : forall s f g v, gpsi e dt op Ns pl FO s f g v = gpsi e dt op Ns pl' FO' s f g v).
  { intros s f g v. unfold gpsi. destruct (gact e op Ns s g); [|reflexivity]. destruct (psi_of e (axis_of s) f) as [[o b]|]; [|reflexivity].
    cbv zeta. unfold gdiff. rewrite !Eg, HO. reflexivity. }
  split.
  - intros f g. unfold gfield. rewrite HF. rewrite (Hlocal (gkappa e op Ns g) dt f _ (fun f' d => gget pl' FO' f' (add g d)) _ (fun f' => FJ' f' g)); [|intros; apply Eg|auto].
    apply fold_ext_in. intros v s _. rewrite Ep, HP. reflexivity.
  - intros s f g. unfold gaux. rewrite Ep, HP. reflexivity.
Qed.

(** ** a decomposed grid *)
Variables (ns : list Z) (ng : Z) (bounds : list (list Z)) (opp : nat -> nat) (n : nat) (nbr : nat -> nat -> option nat) (axes : list axis) (position : nat -> list Z).
Hypothesis D : decomp ns ng bounds opp n nbr axes position.
Hypothesis Hdim : length ns = dim.
Hypothesis Hsides : forall s, In s sides -> (axis_of s < dim)%nat.
Hypothesis Hth : forall a, (a < dim)%nat -> opens axes a = true -> 0 < thick K < nth a ns 0.
Hypothesis Hmany : forall a, (a < dim)%nat -> opens axes a = true -> 2 <= ax_n (nth a axes (mkAxis 0 Pml Pml)).
Hypothesis Hnodup : NoDup sides.
Definition present (p : nat) (s : pml_side) : bool :=
  opens axes (axis_of s) && (if is_min s then nth (axis_of s) (position p) 0 =? 0 else nth (axis_of s) (position p) 0 =? ax_n (nth (axis_of s) axes (mkAxis 0 Pml Pml)) - 1).
Variable pmls : nat -> list pml_side.
Hypothesis Hpmls : forall p, (p < n)%nat -> pmls p = filter (present p) sides.
Notation Ns := (totals axes ns).
Notation op := (opens axes).
Notation pl := (place axes ns (zeros ns)).
Notation sh := (shows zero axes ns ng n position).
Notation shi := (shows_inside zero axes ns ng n position).

Lemma in_grid_nth a i : (a < dim)%nat -> in_grid axes i -> 0 <= nth a i 0 < ax_n (nth a axes (mkAxis 0 Pml Pml)).
Proof.
  intros Ha Hi. pose proof (d_len _ _ _ _ _ _ _ _ D) as L. rewrite Hdim in L. clear - Ha Hi L. revert a Ha L. subst. unfold in_grid in Hi.
  generalize dim. intros d. revert d. induction Hi as [|x a0 i axs H Hi IH]; intros d a Ha L; [cbn in L; lia|]. destruct a as [|a]; cbn [nth]; [exact H|].
  destruct d as [|d]; [lia|]. apply (IH d); [lia|]. cbn in L. lia.
Qed.
Lemma totals_nth a : (a < dim)%nat -> nth a Ns 0 = ax_n (nth a axes (mkAxis 0 Pml Pml)) * nth a ns 0.
Proof.
  intro Ha. pose proof (d_len _ _ _ _ _ _ _ _ D) as L. assert (Ha' : (a < length ns)%nat) by lia. clear - L Ha'. unfold totals.
  revert a Ha' axes L. induction ns as [|k l IH]; intros a Ha [|x axs] L; cbn in L, Ha; try lia. destruct a as [|a]; [reflexivity|]. cbn [combine map nth]. apply IH; lia.
Qed.
Lemma flat_nth a i c : (a < dim)%nat -> length i = length ns -> length c = length ns -> coord a (flat ns i c) = nth a i 0 * nth a ns 0 + coord a c.
Proof.
  intros Ha Li Lc. assert (Ha' : (a < length ns)%nat) by lia. clear - Ha' Li Lc. unfold coord. revert a Ha' i c Li Lc.
  induction ns as [|k l IH]; intros a Ha [|x i] [|y c] Li Lc; cbn in Ha, Li, Lc; try lia. destruct a as [|a]; [reflexivity|]. cbn [flat nth]. apply IH; lia.
Qed.
Lemma interior_nth a c : (a < dim)%nat -> interior ns c -> 0 <= coord a c < nth a ns 0.
Proof.
  intros Ha Hc. assert (Ha' : (a < length ns)%nat) by lia. clear - Ha' Hc. unfold coord. revert a Ha'. induction Hc as [|k x l c Hx Hc IH]; intros a Ha; [cbn in Ha; lia|].
  destruct a as [|a]; cbn [nth]; [exact Hx|]. apply IH. cbn in Ha. lia.
Qed.

Section Cell.
Variables (p : nat) (c : list Z).
Hypothesis Hp : (p < n)%nat.
Hypothesis Hc : interior ns c.
Notation g := (flat ns (position p) c).
Lemma here a : (a < dim)%nat -> coord a g = nth a (position p) 0 * nth a ns 0 + coord a c /\ 0 <= coord a c < nth a ns 0 /\
  0 <= nth a (position p) 0 < ax_n (nth a axes (mkAxis 0 Pml Pml)) /\ nth a Ns 0 = ax_n (nth a axes (mkAxis 0 Pml Pml)) * nth a ns 0.
Proof.
  intro Ha. pose proof (d_grid _ _ _ _ _ _ _ _ D p Hp) as Hg. pose proof (grid_len axes _ Hg) as Lg. pose proof (d_len _ _ _ _ _ _ _ _ D) as L.
  split; [apply flat_nth; auto; [lia|now apply interior_len]|]. split; [now apply interior_nth|]. split; [now apply in_grid_nth|now apply totals_nth].
Qed.
(** a layer reaches a cell of the grid iff the patch has it and its own slice contains the cell *)
Lemma act_here e s : In s sides -> gact e op Ns s g = present p s && in_layer_ K ns e s c.
Proof.
  intro Hs. specialize (Hsides s Hs). destruct (here (axis_of s) Hsides) as (E1 & E2 & E3 & E4). specialize (Hth _ Hsides). clear - E1 E2 E3 E4 Hth.
  unfold gact, present, in_layer_, in_range, size_. rewrite E1, E4. set (k := nth (axis_of s) (position p) 0) in * . set (x := coord (axis_of s) c) in * .
  set (m := nth (axis_of s) ns 0) in * . set (N := ax_n _) in * . clearbody k x m N. destruct (op (axis_of s)); [|reflexivity]. specialize (Hth eq_refl). cbn [andb].
  unfold l_start, l_stop. destruct (is_min s), e.
  - destruct (k =? 0) eqn:B; cbn [andb]; [apply Z.eqb_eq in B; subst k; rewrite Z.mul_0_l; reflexivity|]. apply Z.eqb_neq in B. assert (m <= k * m) by nia. lia.
  - destruct (k =? 0) eqn:B; cbn [andb]; [apply Z.eqb_eq in B; subst k; rewrite Z.mul_0_l; reflexivity|]. apply Z.eqb_neq in B. assert (m <= k * m) by nia. lia.
  - destruct (k =? N - 1) eqn:B; cbn [andb]; [apply Z.eqb_eq in B; subst k; rewrite Z.mul_sub_distr_r, Z.mul_1_l; lia|]. apply Z.eqb_neq in B. assert (k * m <= (N - 2) * m) by nia. lia.
  - destruct (k =? N - 1) eqn:B; cbn [andb]; [apply Z.eqb_eq in B; subst k; rewrite Z.mul_sub_distr_r, Z.mul_1_l; lia|]. apply Z.eqb_neq in B. assert (k * m <= (N - 2) * m) by nia. lia.
Qed.
(** where the patch has the layer, positions in the slice are those of the whole grid *)
Lemma pos_here e s : In s sides -> present p s = true -> pos_ A K e s (nth (axis_of s) Ns 0) (coord (axis_of s) g) = pos_ A K e s (size_ ns (axis_of s)) (coord (axis_of s) c).
Proof.
  intros Hs Hpr. specialize (Hsides s Hs). destruct (here (axis_of s) Hsides) as (E1 & E2 & E3 & E4). unfold present in Hpr. apply andb_true_iff in Hpr as [_ Hpr].
  unfold pos_. cbv zeta. rewrite E1, E4. unfold size_. set (k := nth (axis_of s) (position p) 0) in * . set (x := coord (axis_of s) c) in * .
  set (m := nth (axis_of s) ns 0) in * . set (N := ax_n _) in * .
  assert (X : k * m + x - l_start K e s (N * m) = x - l_start K e s m).
  { unfold l_start. destruct (is_min s); apply Z.eqb_eq in Hpr; rewrite Hpr; [lia|]. destruct e; nia. }
  rewrite X. reflexivity.
Qed.
Lemma coeffs_here e s dt d : In s sides -> present p s = true ->
  bcoeff A K e s (nth (axis_of s) Ns 0) (coord (axis_of s) g) dt = bcoeff A K e s (size_ ns (axis_of s)) (coord (axis_of s) c) dt /\
  ccoeff A K e s (nth (axis_of s) Ns 0) (coord (axis_of s) g) dt d = ccoeff A K e s (size_ ns (axis_of s)) (coord (axis_of s) c) dt d /\
  kappa_in A K e s (nth (axis_of s) Ns 0) (coord (axis_of s) g) = kappa_in A K e s (size_ ns (axis_of s)) (coord (axis_of s) c).
Proof.
  intros Hs Hpr. unfold ccoeff, bcoeff, kappa_in, sigma_in, a_in, pos3. cbv zeta. rewrite (pos_here e s Hs Hpr). auto.
Qed.
(** values around the cell *)
Lemma near_shows FO mO : sh FO mO -> forall f d, (f < 3)%nat -> P_Maxwell.near d -> length d = dim -> mO (cell ns ng f p (add c d)) = gget pl FO f (add g d).
Proof.
  intros HO f d Hf Hd Ld. rewrite <- Hdim in Ld.
  rewrite (HO f p _ Hf Hp (near_within ns ng bounds opp (d_geo _ _ _ _ _ _ _ _ D) c d Hc Hd Ld)).
  unfold gget. apply (shown_add zero ns n axes position (d_len _ _ _ _ _ _ _ _ D) (d_grid _ _ _ _ _ _ _ _ D)); auto. now apply interior_len.
Qed.
Lemma center_shows FO mO : shi FO mO -> forall f, (f < 3)%nat -> mO (cell ns ng f p c) = FO f g.
Proof.
  intros HO f Hf. rewrite (HO f p c Hf Hp Hc). unfold shown.
  now rewrite (place_interior ns ng bounds opp n (d_geo _ _ _ _ _ _ _ _ D) axes position (d_pair _ _ _ _ _ _ _ _ D) (d_len _ _ _ _ _ _ _ _ D) (d_grid _ _ _ _ _ _ _ _ D) p c Hp Hc).
Qed.
Lemma unit_near a x : -1 <= x <= 1 -> P_Maxwell.near (unit_ dim a x) /\ length (unit_ dim a x) = dim.
Proof.
  intro Hx. unfold unit_. split; [|rewrite map_length, seq_length; reflexivity]. unfold P_Maxwell.near. apply Forall_forall. intros y Hy. apply in_map_iff in Hy as (i & <- & _). destruct (i =? a)%nat; lia.
Qed.
Lemma diff_here e a o FO mO : sh FO mO -> (o < 3)%nat -> diff_ A ns ng e a mO o p c = gdiff e pl FO a o g.
Proof.
  intros HO Ho. assert (HI : shi FO mO) by (apply shows_here; auto; pose proof (ng_pos _ _ _ _ (d_geo _ _ _ _ _ _ _ _ D)); lia).
  unfold diff_, gdiff. change (cell_ ns ng) with (cell ns ng). rewrite (center_shows FO mO HI o Ho).
  destruct (unit_near a 1 ltac:(lia)) as [N1 L1]. destruct (unit_near a (-1) ltac:(lia)) as [N2 L2]. rewrite Hdim.
  rewrite (near_shows FO mO HO o _ Ho N1 L1), (near_shows FO mO HO o _ Ho N2 L2). reflexivity.
Qed.
Lemma psi_lt e a f o b : psi_of e a f = Some (o, b) -> (o < 3)%nat.
Proof. clear. destruct e; cbn [psi_of]; unfold psi_e, psi_b; destruct a as [|[|[|a]]]; destruct f as [|[|[|f]]]; intro E; inversion E; lia. Qed.
Lemma npsi_here e s dt FO mO f v : sh FO mO -> In s sides -> (if present p s then npsi A K ns ng ds e s dt mO p f c v else v) = gpsi e dt op Ns pl FO s f g v.
Proof.
  intros HO Hs. unfold gpsi. rewrite (act_here e s Hs). unfold npsi, np. destruct (present p s) eqn:Hpr; cbn [andb]; [|reflexivity].
  destruct (in_layer_ K ns e s c); [|reflexivity]. destruct (psi_of e (axis_of s) f) as [[o b]|] eqn:Ep; [|reflexivity]. cbv zeta. unfold new_psi. cbv zeta.
  destruct (coeffs_here e s dt (nth (axis_of s) ds (one_ K)) Hs Hpr) as (C1 & C2 & _). rewrite C1, C2, (diff_here e (axis_of s) o FO mO HO (psi_lt _ _ _ _ _ Ep)). reflexivity.
Qed.
Lemma gain_here e s dt f x v : In s sides -> (if present p s then gain A K ns e s dt f c x v else v) = ggain e dt op Ns s f g x v.
Proof.
  intros Hs. unfold ggain. rewrite (act_here e s Hs). unfold gain. destruct (present p s); cbn [andb]; [|reflexivity]. reflexivity.
Qed.
(** a patch has at most one layer per axis *)
Lemma one_per_axis s t : In s (pmls p) -> In t (pmls p) -> axis_of s = axis_of t -> s = t.
Proof.
  rewrite Hpmls by exact Hp. rewrite !filter_In. intros [I1 P1] [I2 P2] E. unfold present in P1, P2. rewrite <- E in P2. apply andb_true_iff in P1 as [O1 P1]. apply andb_true_iff in P2 as [_ P2].
  specialize (Hmany _ (Hsides s I1) O1).
  assert (B : is_min s = is_min t). { destruct (is_min s), (is_min t); auto; apply Z.eqb_eq in P1, P2; lia. }
  clear - E B. destruct s, t; cbn in *; congruence.
Qed.
Lemma fold_last {B C} (q : B -> bool) (v : B -> C) l d : (forall x y, In x l -> In y l -> q x = true -> q y = true -> v x = v y) ->
  forall x, In x l -> q x = true -> fold_left (fun k y => if q y then v y else k) l d = v x.
Proof.
  clear. intros Hu. assert (G : forall d, (forall x, In x l -> q x = true -> fold_left (fun k y => if q y then v y else k) l d = v x) /\
     ((forall x, In x l -> q x = false) -> fold_left (fun k y => if q y then v y else k) l d = d)); [|intros x Hx Hq; now apply G].
  induction l as [|y l IH]; intro d0; [split; [now intros|reflexivity]|]. cbn [fold_left].
  assert (Hu' : forall x z, In x l -> In z l -> q x = true -> q z = true -> v x = v z) by (intros; apply Hu; auto; now right).
  destruct (existsb q l) eqn:Ex.
  - apply existsb_exists in Ex as (z & Iz & Qz). specialize (IH Hu' (if q y then v y else d0)). destruct IH as [IH _]. split.
    + intros x [->|I] Q; [rewrite (IH z Iz Qz); apply Hu; auto; [now right|now left]|now apply IH].
    + intro H. rewrite (H z) in Qz; [discriminate|now right].
  - assert (N : forall x, In x l -> q x = false). { intros x I. destruct (q x) eqn:Q; auto. exfalso. assert (existsb q l = true) by (apply existsb_exists; eauto). congruence. }
    destruct (IH Hu' (if q y then v y else d0)) as [_ IH2]. rewrite (IH2 N). split.
    + intros x [->|I] Q; [now rewrite Q|rewrite (N x I) in Q; discriminate].
    + intro H. rewrite (H y) by now left. reflexivity.
Qed.
Lemma fold_none {B C} (q : B -> bool) (v : B -> C) l (d : C) : (forall x, In x l -> q x = false) -> fold_left (fun k y => if q y then v y else k) l d = d.
Proof. clear. induction l as [|y l IH]; intro H; [reflexivity|]. cbn [fold_left]. rewrite (H y) by now left. apply IH. intros; apply H; now right. Qed.
Lemma kappa_here e a : (a < dim)%nat -> kappa_list A K e (pmls p) a (size_ ns a) (coord a c) = gkappa e op Ns g a.
Proof.
  intro Ha. unfold gkappa.
  assert (ActIn : forall s, In s sides -> ((axis_of s =? a)%nat && gact e op Ns s g = true <-> In s (pmls p) /\ axis_of s = a /\ in_layer_ K ns e s c = true)).
  { intros s Is. rewrite (act_here e s Is), Hpmls, filter_In, !andb_true_iff, Nat.eqb_eq by exact Hp. tauto. }
  assert (Sub : forall s, In s (pmls p) -> In s sides) by (intros s I; rewrite Hpmls, filter_In in I by exact Hp; tauto).
  assert (Pres : forall s, In s (pmls p) -> present p s = true) by (intros s I; rewrite Hpmls, filter_In in I by exact Hp; tauto).
  (* the value of the list *)
  assert (KL : forall s, In s (pmls p) -> axis_of s = a -> kappa_list A K e (pmls p) a (size_ ns a) (coord a c) = kappa_arr A K e s a (size_ ns a) (coord a c)).
  { intros s I Es. unfold kappa_list. destruct (pmls p) as [|s0 l] eqn:El; [contradiction|].
    rewrite (fold_last (fun s => (axis_of s =? a)%nat) (fun s => kappa_arr A K e s a (size_ ns a)) (s0 :: l) _) with (x := s); auto; [|now apply Nat.eqb_eq].
    intros x y Ix Iy Qx Qy. apply Nat.eqb_eq in Qx, Qy. rewrite <- El in Ix, Iy. rewrite (one_per_axis x y Ix Iy) by congruence. reflexivity. }
  destruct (existsb (fun s => (axis_of s =? a)%nat) (pmls p)) eqn:Ex.
  - apply existsb_exists in Ex as (s & Is & Es). apply Nat.eqb_eq in Es. rewrite (KL s Is Es). unfold kappa_arr. rewrite Es, Nat.eqb_refl. cbn [andb].
    destruct (in_range K e s (size_ ns a) (coord a c)) eqn:B.
    + rewrite (fold_last (fun s => (axis_of s =? a)%nat && gact e op Ns s g) (fun s => kappa_in A K e s (nth a Ns 0) (coord a g)) sides _) with (x := s).
      * symmetry. destruct (coeffs_here e s (one_ K) (one_ K) (Sub s Is) (Pres s Is)) as (_ & _ & C). rewrite Es in C. exact C.
      * intros x y Ix Iy Qx Qy. apply ActIn in Qx as (Q1 & Q2 & _); auto. apply ActIn in Qy as (Q3 & Q4 & _); auto. rewrite (one_per_axis x y Q1 Q3) by congruence. reflexivity.
      * now apply Sub.
      * apply ActIn; [now apply Sub|]. unfold in_layer_. rewrite Es. auto.
    + symmetry. apply (fold_none (fun s => (axis_of s =? a)%nat && gact e op Ns s g)). intros x Ix. destruct ((axis_of x =? a)%nat && gact e op Ns x g) eqn:Q; auto. apply ActIn in Q as (Q1 & Q2 & Q3); auto.
      rewrite (one_per_axis x s Q1 Is) in Q3 by congruence. unfold in_layer_ in Q3. rewrite Es in Q3. congruence.
  - assert (N : forall s, In s (pmls p) -> (axis_of s =? a)%nat = false).
    { intros s I. destruct (axis_of s =? a)%nat eqn:Q; auto. exfalso. assert (existsb (fun s => (axis_of s =? a)%nat) (pmls p) = true) by (apply existsb_exists; eauto). congruence. }
    rewrite (fold_none (fun s => (axis_of s =? a)%nat && gact e op Ns s g)).
    + unfold kappa_list. destruct (pmls p) as [|s0 l] eqn:El; [reflexivity|]. rewrite (fold_none (fun s => (axis_of s =? a)%nat)) by exact N. unfold kappa_arr. rewrite (N s0) by now left. reflexivity.
    + intros x Ix. destruct ((axis_of x =? a)%nat && gact e op Ns x g) eqn:Q; auto. apply ActIn in Q as (Q1 & Q2 & Q3); auto. apply N in Q1. apply Nat.eqb_neq in Q1. contradiction.
Qed.
End Cell.

Definition psi_shows (PF : pml_side -> nat -> list Z -> V) (psi : pml_side -> memory V) : Prop :=
  forall s f p c, (f < 3)%nat -> (p < n)%nat -> interior ns c -> In s (pmls p) -> psi s (pcell ns f p c) = PF s f (flat ns (position p) c).
Lemma fold_filter {B C} (q : B -> bool) (F : C -> B -> C) l : forall v, fold_left F (filter q l) v = fold_left (fun v x => if q x then F v x else v) l v.
Proof. clear. induction l as [|x l IH]; intro v; [reflexivity|]. cbn [filter fold_left]. destruct (q x); cbn [fold_left]; apply IH. Qed.

Theorem layered_shows e dt FO FJ F PF mO mJ m psi m1 psi1 m2 :
  sh F m -> sh FO mO -> shi FJ mJ -> psi_shows PF psi ->
  layered A K ns ng ds n pmls e dt mO
    (fun p f c v => Sk (fun a => kappa_list A K e (pmls p) a (size_ ns a) (coord a c)) dt f (fun f' d => mO (cell ns ng f' p (add c d))) (fun f' => mJ (cell ns ng f' p c)) v)
    (m, psi) (m1, psi1) ->
  guards_exchanged bounds ns ng n nbr 3 m1 m2 ->
  sh (gfield e dt op Ns pl FO FJ F PF) m2 /\ psi_shows (gaux e dt op Ns pl FO PF) psi1.
Proof.
  intros HF HO HJ HP (U1 & U2 & U3) [R _]. cbn [fst snd] in * . destruct D as [G Hpair Hlen Hgrid Hall Hnbr Honto].
  assert (Sub : forall p s, (p < n)%nat -> In s (pmls p) -> In s sides /\ present p s = true) by (intros p s Hp I; rewrite Hpmls, filter_In in I by exact Hp; tauto).
  split.
  - intros f p c Hf Hp Hc. rewrite (R f p c Hf Hp Hc).
    rewrite (guard_global ns ng bounds opp n G nbr axes position Hpair Hlen Hgrid Hall Hnbr Honto m1 (gfield e dt op Ns pl FO FJ F PF) f); [|clear p c Hp Hc|exact Hp|exact Hc].
    + unfold shown. destruct (place axes ns (position p) c) as [g|] eqn:E; [reflexivity|].
      rewrite U2; [rewrite (HF f p c Hf Hp Hc); unfold shown; now rewrite E|].
      intros f' p' c' Hf' Hp' Hc' Ec. apply (cell_inj ns ng bounds opp G) in Ec as (-> & -> & ->); auto; [|apply interior_within; auto; apply (ng_pos ns ng bounds opp G)].
      rewrite (place_interior ns ng bounds opp n G axes position Hpair Hlen Hgrid p' c' Hp' Hc') in E. discriminate.
    + intros p c g Hp Hc E. rewrite (U1 f p c Hf Hp Hc).
      rewrite (place_interior ns ng bounds opp n G axes position Hpair Hlen Hgrid p c Hp Hc) in E. inversion E; subst g. clear E.
      unfold gfield. rewrite (Hk _ (gkappa e op Ns (flat ns (position p) c))) by (intros a Ha; now apply kappa_here).
      rewrite (Hlocal _ dt f _ (fun f' d => gget pl FO f' (add (flat ns (position p) c) d)) _ (fun f' => FJ f' (flat ns (position p) c)));
        [|intros f' d Hf' Hd Ld; now apply near_shows|intros f' Hf'; now apply center_shows].
      assert (HFi : shi F m) by (apply shows_here; auto; pose proof (ng_pos _ _ _ _ G); lia).
      rewrite (center_shows p c Hp Hc F m HFi f Hf). rewrite (Hpmls p Hp), fold_filter. apply fold_ext_in. intros v s Is.
      destruct (present p s) eqn:Hpr.
      * pose proof (gain_here p c Hp Hc e s dt f (npsi A K ns ng ds e s dt mO p f c (psi s (pcell ns f p c))) v Is) as X. rewrite Hpr in X. rewrite X.
        pose proof (npsi_here p c Hp Hc e s dt FO mO f (psi s (pcell ns f p c)) HO Is) as Y. rewrite Hpr in Y. rewrite Y.
        rewrite (HP s f p c) by (auto; rewrite Hpmls, filter_In by exact Hp; auto). reflexivity.
      * unfold ggain. rewrite (act_here p c Hp Hc e s Is), Hpr. reflexivity.
  - intros s f p c Hf Hp Hc Is. rewrite (U3 f p c s Hf Hp Hc Is). destruct (Sub p s Hp Is) as [Is' Hpr]. unfold gaux.
    pose proof (npsi_here p c Hp Hc e s dt FO mO f (psi s (pcell ns f p c)) HO Is') as Y. rewrite Hpr in Y. rewrite Y. rewrite (HP s f p c) by auto. reflexivity.
Qed.
End Grid.
