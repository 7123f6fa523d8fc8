(** Whole time steps with open sides, part 3: the exchange of particles wraps positions along periodic axes and removes the
    particles that entered a layer. *)
From Coq Require Import QArith Qabs Qround Qcanon Permutation Lqa.
From Verif Require Import Base M_Layout S_Layout M_PartSync S_PartSync M_FieldSync S_FieldSync M_Maxwell S_Maxwell M_Cpml S_Cpml M_Deposit M_Push P_Layout P_PartSync P_PartSync2 P_PartSync3 P_FieldSync5 P_Cpml P_Cpml2 P_Cpml3 P_Cpml4 P_Cpml5 Properties_PartSync M_Step S_Step M_StepO S_StepO P_Step1 P_Step2 P_Step5 P_Step6 P_StepO1.
Local Open Scope list_scope.
Local Open Scope Z_scope.

Definition is_open (a : axis) : bool := bc_eqb (ax_lo a) Pml.
Definition keep1 (op : bool) (th W : Z) (d v : Q) : option Q :=
  if op then (if Qle_bool (inject_Z th * d - d / 2) v && Qle_bool v (inject_Z (W - th) * d - d / 2) then Some v else None) else Some (wrap1 W d v).
Definition okeep (ox oy : bool) (th Nx Ny : Z) (dx dy : Q) (r : prow body) : list (prow body) :=
  match px _ r, py _ r with
  | Some x, Some y => match keep1 ox th Nx dx x, keep1 oy th Ny dy y with Some x', Some y' => [mkRow _ (Some x') (Some y') (pz _ r) (other _ r)] | _, _ => [] end
  | _, _ => [r]
  end.
Lemma keep1_eq op th W d v v' : (v == v')%Q -> option_map Qred (keep1 op th W d v) = option_map Qred (keep1 op th W d v').
Proof.
  intro E. unfold keep1. destruct op; [|cbn [option_map]; f_equal; apply Qred_complete, wrap1_eq; exact E].
  rewrite (Qleb_comp _ _ (Qeq_refl _) v v' E), (Qleb_comp v v' E _ _ (Qeq_refl _)). destruct (_ && _); [|reflexivity]. cbn [option_map]. f_equal. apply Qred_complete. exact E.
Qed.
Lemma okeep_eq ox oy th Nx Ny dx dy r r' : canon r = canon r' -> map canon (okeep ox oy th Nx Ny dx dy r) = map canon (okeep ox oy th Nx Ny dx dy r').
Proof.
  intro H0. pose proof H0 as H. destruct r as [x y z b], r' as [x' y' z' b']. unfold canon, okeep in *. cbn [px py pz other] in *.
  assert (option_map Qred x = option_map Qred x') as E1 by congruence. assert (option_map Qred y = option_map Qred y') as E2 by congruence.
  assert (option_map Qred z = option_map Qred z') as E3 by congruence. assert (canon_body b = canon_body b') as E4 by congruence.
  assert (forall a c, Some (Qred a) = Some (Qred c) -> (a == c)%Q) as R by (intros a c E; assert (Qred a = Qred c) as E' by congruence; rewrite <- (Qred_correct a), <- (Qred_correct c), E'; reflexivity).
  destruct x as [x|], x' as [x'|]; cbn [option_map] in E1; try discriminate; destruct y as [y|], y' as [y'|]; cbn [option_map] in E2; try discriminate; cbn [map px py pz other option_map]; try congruence.
  pose proof (keep1_eq ox th Nx dx x x' (R _ _ E1)) as K1. pose proof (keep1_eq oy th Ny dy y y' (R _ _ E2)) as K2.
  destruct (keep1 ox th Nx dx x) as [u|], (keep1 ox th Nx dx x') as [u'|]; cbn [option_map] in K1; try discriminate; [|reflexivity].
  destruct (keep1 oy th Ny dy y) as [w|], (keep1 oy th Ny dy y') as [w'|]; cbn [option_map] in K2; try discriminate; [|reflexivity].
  cbn [map px py pz other option_map]. rewrite E3, E4, K1, K2. reflexivity.
Qed.

(** a coordinate at most one cell away from the patch *)
Definition step_near (m : Z) (d : Q) (i : Z) (v : Q) : Prop := (cell_edge m d i - d <= v)%Q /\ (v <= cell_edge m d (i + 1) + d)%Q.
Lemma step_near_near m d i v : 1 <= m -> (0 < d)%Q -> step_near m d i v -> near m d i (Some v).
Proof.
  intros Hm Hd [A B]. cbn [near]. pose proof (width_pos m d Hm Hd) as WP.
  replace (i - 1) with (i + -1) by lia. replace (i + 2) with (i + 1 + 1) by lia. rewrite (edge_step m d i (-1)), (edge_step m d (i + 1) 1).
  change (inject_Z 1) with 1%Q. change (inject_Z (-1)) with (-1)%Q. lra.
Qed.
Lemma out1_dir g v : out1 g (Some v) = false <-> dir1 g (Some v) = 0.
Proof. unfold out1, dir1. destruct (below _ _), (above _ _); cbn; split; intro; congruence || lia. Qed.
Lemma geo_periodic a m th d k : ax_lo a = Periodic -> ax_hi a = Periodic -> ax_geo a m th d k = ax_geo a m 0 d k.
Proof. intros P1 P2. unfold ax_geo, lo_layer, hi_layer. rewrite P1, P2. cbn [bc_eqb]. rewrite !andb_false_r. reflexivity. Qed.
Lemma axis_keep a m th d i v : ax_lo a = ax_hi a -> 0 <= i < ax_n a -> 1 <= m -> 0 <= th -> (ax_lo a = Pml -> th < m /\ 2 <= ax_n a) -> (0 < d)%Q -> step_near m d i v ->
  match wrap a (i + dir1 (ax_geo a m th d i) (Some v)) with
  | Some k => exists v' w, handle_periodic (ax_geo a m th d k) (Some v) = Some v' /\ keep1 (is_open a) th (ax_n a * m) d v = Some w /\ (v' == w)%Q /\
      in_cells m d k v' /\ dir1 (ax_geo a m th d k) (Some v') = 0
  | None => keep1 (is_open a) th (ax_n a * m) d v = None
  end.
Proof.
  intros Par Hi Hm Hth Hop D SN. pose proof (step_near_near m d i v Hm D SN) as N. unfold is_open. destruct (ax_lo a) eqn:P.
  - (* open *)
    destruct (Hop eq_refl) as [Tm N2]. clear Hop. cbn [bc_eqb]. unfold keep1. assert (Hn : 1 <= ax_n a) by lia.
    pose proof (geo_lo a m th d i Hn) as GL. pose proof (geo_hi a m th d i Hn) as GH.
    assert (cell_edge m d 0 == - (d / 2))%Q as E0 by (unfold cell_edge; change (inject_Z (0 * m)) with 0%Q; ring).
    assert (inject_Z (ax_n a * m - th) * d - d / 2 == cell_edge m d (ax_n a) - inject_Z th * d)%Q as En by (unfold cell_edge, Zminus; rewrite inject_Z_plus, inject_Z_opp; ring).
    assert (inject_Z th * d <= inject_Z m * d - d)%Q as TH.
    { assert (inject_Z th <= inject_Z m - 1)%Q as T1. { change 1%Q with (inject_Z 1). unfold Qminus. rewrite <- inject_Z_opp, <- inject_Z_plus, <- Zle_Qle. lia. }
      apply (Qmult_le_compat_r _ _ d) in T1; [|lra]. lra. }
    pose proof (layer_nonneg th d Hth D) as T0. pose proof (width_pos m d Hm D) as WP.
    destruct SN as [S1 S2].
    set (lo := (inject_Z th * d - d / 2)%Q) in *. set (hi := (inject_Z (ax_n a * m - th) * d - d / 2)%Q) in *.
    assert (lo == cell_edge m d 0 + inject_Z th * d)%Q as Elo by (unfold lo; rewrite E0; ring).
    assert (KK : forall k v', 0 <= k < ax_n a -> (v' == v)%Q -> in_cells m d k v' -> (lo <= v)%Q -> (v <= hi)%Q -> dir1 (ax_geo a m th d k) (Some v') = 0).
    { intros k v' Hk Ev [C1 C2] L1 L2. pose proof (geo_lo a m th d k Hn) as GLk. pose proof (geo_hi a m th d k Hn) as GHk.
      unfold dir1. assert (below (Some v') (g_lo (ax_geo a m th d k)) = false) as ->.
      { apply below_false. unfold lo_layer in GLk. destruct (Z.eqb_spec k 0) as [->|]; cbn [andb] in GLk; [destruct (bc_eqb (ax_lo a) Pml)|]; change (inject_Z 0) with 0%Q in GLk; lra. }
      assert (above (Some v') (g_hi (ax_geo a m th d k)) = false) as ->; [|reflexivity].
      apply above_false. unfold hi_layer in GHk. destruct (Z.eqb_spec k (ax_n a - 1)) as [->|]; cbn [andb] in GHk; [destruct (bc_eqb (ax_hi a) Pml)|]; change (inject_Z 0) with 0%Q in GHk; try lra.
      replace (ax_n a - 1 + 1) with (ax_n a) in GHk by lia. lra. }
    assert (HP : forall k, 0 <= k < ax_n a -> (lo <= v)%Q -> (v <= hi)%Q -> handle_periodic (ax_geo a m th d k) (Some v) = Some v).
    { intros k Hk L1 L2. apply periodic_inside; [rewrite geo_min; lra|rewrite geo_max; lra]. }
    assert (IN : forall k, (lo <= v)%Q -> (v <= hi)%Q -> wrap a (i + dir1 (ax_geo a m th d i) (Some v)) = Some k ->
      exists v' w, handle_periodic (ax_geo a m th d k) (Some v) = Some v' /\ (if Qle_bool lo v && Qle_bool v hi then Some v else None) = Some w /\ (v' == w)%Q /\ in_cells m d k v' /\ dir1 (ax_geo a m th d k) (Some v') = 0).
    { intros k L1 L2 W. assert (Hk : 0 <= k < ax_n a) by (eapply wrap_range; eauto).
      exists v, v. rewrite (HP k Hk L1 L2). rewrite (proj2 (Qle_bool_iff _ _) L1), (proj2 (Qle_bool_iff _ _) L2). split; [reflexivity|]. split; [reflexivity|]. split; [reflexivity|].
      assert (Par' : ax_lo a = ax_hi a) by congruence.
      destruct (axis_arrival a m th d i (Some v) k Par' Hi Hm Hth D N W) as [C _]. rewrite (HP k Hk L1 L2) in C. cbn [in_cells'] in C. split; [exact C|]. apply KK; auto. reflexivity. }
    destruct (wrap a (i + dir1 (ax_geo a m th d i) (Some v))) as [k|] eqn:W.
    + apply IN; [| |reflexivity]; clear IN.
      * (* not below *) destruct (Qlt_le_dec v lo) as [V|V]; [exfalso|exact V]. unfold dir1 in W. destruct (Z.eq_dec i 0) as [->|Ni].
        -- rewrite (proj2 (below_spec v _)) in W; [|unfold lo_layer in GL; rewrite P in GL; cbn [bc_eqb andb Z.eqb] in GL; lra]. unfold wrap in W. change (0 + -1 <? 0) with true in W. cbv iota in W. rewrite P in W. cbn [bc_eqb] in W. discriminate.
        -- pose proof (edge_mono m d 1 i Hm D ltac:(lia)). pose proof (edge_step m d 0 1) as E1. change (inject_Z 1) with 1%Q in E1. change (0 + 1) with 1 in E1. lra.
      * destruct (Qlt_le_dec hi v) as [V|V]; [exfalso|exact V]. unfold dir1 in W. destruct (Z.eq_dec i (ax_n a - 1)) as [->|Ni].
        -- replace (ax_n a - 1 + 1) with (ax_n a) in * by lia. rewrite (proj2 (below_false v _)) in W.
           2:{ unfold lo_layer in GL. destruct (Z.eqb_spec (ax_n a - 1) 0); [lia|]. cbn [andb] in GL. change (inject_Z 0) with 0%Q in GL. pose proof (edge_step m d (ax_n a - 1) 1) as E1. change (inject_Z 1) with 1%Q in E1. replace (ax_n a - 1 + 1) with (ax_n a) in E1 by lia. lra. }
           rewrite (proj2 (above_spec v _)) in W; [|unfold hi_layer in GH; rewrite Z.eqb_refl, <- Par in GH; cbn [bc_eqb andb] in GH; lra].
           unfold wrap in W. destruct (Z.ltb_spec (ax_n a - 1 + 1) 0); [lia|]. destruct (Z.leb_spec (ax_n a) (ax_n a - 1 + 1)); [|lia]. rewrite <- Par in W. cbn [bc_eqb] in W. discriminate.
        -- pose proof (edge_mono m d (i + 1) (ax_n a - 1) Hm D ltac:(lia)). pose proof (edge_step m d (ax_n a - 1) 1) as E1. change (inject_Z 1) with 1%Q in E1. replace (ax_n a - 1 + 1) with (ax_n a) in E1 by lia. lra.
    + destruct (Qle_bool lo v && Qle_bool v hi) eqn:E; [|reflexivity]. exfalso. apply andb_true_iff in E. destruct E as [L1 L2]. apply Qle_bool_iff in L1, L2.
      unfold dir1 in W. destruct (below (Some v) _) eqn:B.
      * apply below_spec in B. unfold wrap in W. destruct (Z.ltb_spec (i + -1) 0); [|destruct (Z.leb_spec (ax_n a) (i + -1)); [lia|discriminate]].
        assert (i = 0) by lia. subst i. unfold lo_layer in GL. rewrite P in GL. cbn [bc_eqb andb Z.eqb] in GL. lra.
      * destruct (above (Some v) _) eqn:B2.
        -- apply above_spec in B2. unfold wrap in W. destruct (Z.ltb_spec (i + 1) 0); [lia|]. destruct (Z.leb_spec (ax_n a) (i + 1)); [|discriminate].
           assert (i = ax_n a - 1) by lia. subst i. replace (ax_n a - 1 + 1) with (ax_n a) in * by lia. unfold hi_layer in GH. rewrite Z.eqb_refl, <- Par in GH. cbn [bc_eqb andb] in GH. lra.
        -- unfold wrap in W. rewrite Z.add_0_r in W. destruct (Z.ltb_spec i 0); [lia|]. destruct (Z.leb_spec (ax_n a) i); [lia|]. discriminate.
  - (* periodic *)
    symmetry in Par. cbn [bc_eqb]. unfold keep1. rewrite (geo_periodic a m th d i P Par).
    destruct (wrap a (i + dir1 (ax_geo a m 0 d i) (Some v))) as [k|] eqn:W.
    + destruct (axis_wrap a m d i v k P Par Hi Hm D N W) as (v' & E & Ev & C). exists v', (wrap1 (ax_n a * m) d v). rewrite (geo_periodic a m th d k P Par).
      split; [exact E|]. split; [reflexivity|]. split; [exact Ev|]. split; [exact C|].
      assert (Hn : 1 <= ax_n a) by lia. assert (Hk : 0 <= k < ax_n a) by (eapply wrap_range; eauto).
      destruct (Z.eq_dec (dir1 (ax_geo a m 0 d k) (Some v')) 0) as [|Nz]; [assumption|exfalso].
      destruct (dir1_layer a m 0 d k v' Hn D C Hk Nz) as [_ [(_ & X & _)|(_ & X & _)]]; congruence.
    + exfalso. unfold wrap in W. rewrite P, Par in W. cbn [bc_eqb] in W. destruct (_ <? 0); [discriminate|]. destruct (_ <=? _); discriminate.
Qed.
Lemma keep1_same op th W m d i v w : (exists nn, W = nn * m /\ 0 <= i < nn) -> 1 <= m -> (0 < d)%Q -> in_cells m d i v -> keep1 op th W d v = Some w -> w = v.
Proof.
  intros (nn & -> & Hi) Hm Hd [B1 B2] H. unfold keep1 in H. destruct op; [destruct (_ && _); congruence|]. apply some_eq in H. rewrite <- H.
  pose proof (edge_mono m d 0 i Hm Hd ltac:(lia)) as M3. pose proof (edge_mono m d (i + 1) nn Hm Hd ltac:(lia)) as M4.
  assert (cell_edge m d 0 == - (d / 2))%Q as E0 by (unfold cell_edge; change (inject_Z (0 * m)) with 0%Q; ring).
  assert (cell_edge m d nn == inject_Z (nn * m) * d - d / 2)%Q as En by reflexivity.
  apply wrap1_in; lra.
Qed.
Lemma keep1_clear a th W d v w v' : keep1 (is_open a) th W d v = Some w -> (v' == w)%Q -> clear_of_layers a th W d v'.
Proof.
  unfold keep1, is_open, clear_of_layers. intros H E P. rewrite P in H. cbn [bc_eqb] in H. destruct (Qle_bool _ v && _) eqn:B; [|discriminate].
  apply some_eq in H. subst w. apply andb_true_iff in B. destruct B as [B1 B2]. apply Qle_bool_iff in B1, B2. rewrite E. auto.
Qed.

Section Exchange.
Variable K : layer Qc. Variable D : domain2. Variable pmls : nat -> list pml_side.
Hypothesis OK : open_ok K D pmls.
Local Notation OT := (twin_ok K D pmls OK).
Local Notation n := (npatches2 D).
Local Notation nbr := (nbr2 (d_ax D) (d_ay D)).
Local Notation geo := (geo_open K D).
Local Notation live_rows p st := (S_PartSync.alive (nth p st [])).
Local Notation Nx := (ax_n (d_ax D) * d_nx D). Local Notation Ny := (ax_n (d_ay D) * d_ny D).
Local Notation kept := (okeep (is_open (d_ax D)) (is_open (d_ay D)) (thick K) Nx Ny (d_dx D) (d_dy D)).

Lemma ok_axes : ax_lo (d_ax D) = ax_hi (d_ax D) /\ ax_lo (d_ay D) = ax_hi (d_ay D).
Proof. pose proof (oo_p K D pmls OK) as P. inversion P as [|? ? E1 P']; subst. inversion P' as [|? ? E2 _]; subst. auto. Qed.
Lemma ok_fits : (ax_lo (d_ax D) = Pml -> thick K < d_nx D /\ 2 <= ax_n (d_ax D)) /\ (ax_lo (d_ay D) = Pml -> thick K < d_ny D /\ 2 <= ax_n (d_ay D)).
Proof.
  destruct (oo_n K D pmls OK) as [N1 N2]. pose proof (layers2_many _ _ _ _ _ _ (oo_p K D pmls OK) N1 N2 (oo_l K D pmls OK)) as Many.
  pose proof (fit_opens _ _ _ (oo_fit K D pmls OK) eq_refl) as Fit. split; intro P.
  - assert (opens [d_ax D; d_ay D] 0 = true) as Op by (unfold opens, open_; cbn [map nth]; rewrite P; reflexivity).
    specialize (Many 0%nat ltac:(lia) Op). specialize (Fit 0%nat ltac:(cbn [length]; lia) Op). cbn [nth] in *. lia.
  - assert (opens [d_ax D; d_ay D] 1 = true) as Op by (unfold opens, open_; cbn [map nth]; rewrite P; reflexivity).
    specialize (Many 1%nat ltac:(lia) Op). specialize (Fit 1%nat ltac:(cbn [length]; lia) Op). cbn [nth] in *. lia.
Qed.
Lemma onbr_sym : nbr_symmetric n 8 opp2 nbr.
Proof. destruct (oo_n K D pmls OK) as [N1 N2]. exact (sym2 _ _ (oo_p K D pmls OK) N1 N2). Qed.
Lemma opij p : (p < n)%nat -> 0 <= pi D p < ax_n (d_ax D) /\ 0 <= pj D p < ax_n (d_ay D).
Proof. exact (pij (twin D) OT p). Qed.
Lemma moved_step p r x y : moved D p r -> px _ r = Some x -> py _ r = Some y -> step_near (d_nx D) (d_dx D) (pi D p) x /\ step_near (d_ny D) (d_dy D) (pj D p) y.
Proof.
  intros (x0 & y0 & E1 & E2 & V1 & V2 & R1 & R2) E1' E2'. assert (x0 = x) by congruence. assert (y0 = y) by congruence. subst x0 y0.
  destruct (cdt2_ok (twin D) OT) as (C0 & C1 & C2). change (cdt2 (twin D)) with (cdt2 D) in *. cbn [twin d_dx d_dy] in *.
  destruct (half_cell _ _ _ _ C0 C1 V1) as [X1 X2]. destruct (half_cell _ _ _ _ C0 C2 V2) as [Y1 Y2]. destruct R1 as [A1 A2], R2 as [B1 B2].
  unfold step_near. set (wx := (cdt2 D * b_ig (other _ r) * b_ux (other _ r))%Q) in *. set (wy := (cdt2 D * b_ig (other _ r) * b_uy (other _ r))%Q) in *.
  clearbody wx wy. unfold Qdiv in *. change (/ 2)%Q with (1#2)%Q in *. repeat split; lra.
Qed.
(** what becomes of one particle *)
Lemma fate p r x y : (p < n)%nat -> moved D p r -> px _ r = Some x -> py _ r = Some y ->
  (forall k, wrap (d_ax D) (pi D p + dir1 (fst (geo p)) (Some x)) = Some k -> exists x' w, handle_periodic (ax_geo (d_ax D) (d_nx D) (thick K) (d_dx D) k) (Some x) = Some x' /\
     keep1 (is_open (d_ax D)) (thick K) Nx (d_dx D) x = Some w /\ (x' == w)%Q /\ in_cells (d_nx D) (d_dx D) k x' /\ dir1 (ax_geo (d_ax D) (d_nx D) (thick K) (d_dx D) k) (Some x') = 0) /\
  (wrap (d_ax D) (pi D p + dir1 (fst (geo p)) (Some x)) = None -> keep1 (is_open (d_ax D)) (thick K) Nx (d_dx D) x = None) /\
  (forall k, wrap (d_ay D) (pj D p + dir1 (snd (geo p)) (Some y)) = Some k -> exists y' w, handle_periodic (ax_geo (d_ay D) (d_ny D) (thick K) (d_dy D) k) (Some y) = Some y' /\
     keep1 (is_open (d_ay D)) (thick K) Ny (d_dy D) y = Some w /\ (y' == w)%Q /\ in_cells (d_ny D) (d_dy D) k y' /\ dir1 (ax_geo (d_ay D) (d_ny D) (thick K) (d_dy D) k) (Some y') = 0) /\
  (wrap (d_ay D) (pj D p + dir1 (snd (geo p)) (Some y)) = None -> keep1 (is_open (d_ay D)) (thick K) Ny (d_dy D) y = None).
Proof.
  intros Hp M E1 E2. destruct (moved_step p r x y M E1 E2) as [S1 S2]. destruct (opij p Hp) as [I1 I2]. destruct ok_axes as [P1 P2]. destruct ok_fits as [F1 F2].
  destruct (oo_g K D pmls OK) as (G1 & G2 & G3). destruct (oo_d K D pmls OK) as [D1 D2]. pose proof (oo_th K D pmls OK) as Th.
  pose proof (axis_keep (d_ax D) (d_nx D) (thick K) (d_dx D) (pi D p) x P1 I1 ltac:(lia) Th F1 D1 S1) as A1.
  pose proof (axis_keep (d_ay D) (d_ny D) (thick K) (d_dy D) (pj D p) y P2 I2 ltac:(lia) Th F2 D2 S2) as A2.
  unfold geo_open, geo2. cbn [fst snd].
  split; [intros k W; rewrite W in A1; exact A1|]. split; [intros W; rewrite W in A1; exact A1|].
  split; [intros k W; rewrite W in A2; exact A2|]. intros W; rewrite W in A2; exact A2.
Qed.
Definition clear_row (r : prow body) : Prop := forall x y, px _ r = Some x -> py _ r = Some y ->
  clear_of_layers (d_ax D) (thick K) Nx (d_dx D) x /\ clear_of_layers (d_ay D) (thick K) Ny (d_dy D) y.
Lemma ostays p r : moved D p r -> (p < n)%nat -> cl2 _ (geo p) r = None -> in_patch D p r /\ kept r = [r] /\ clear_row r.
Proof.
  intros M Hp C. destruct (oo_n K D pmls OK) as [N1 N2]. destruct (oo_d K D pmls OK) as [D1 D2]. destruct (oo_g K D pmls OK) as (G1 & G2 & G3). destruct (opij p Hp) as [I1 I2].
  pose proof C as C'. unfold cl2 in C'. pose proof (classify2_dirs (fst (geo p)) (snd (geo p)) (px _ r) (py _ r)) as Cd. rewrite C' in Cd. destruct Cd as [Z1 Z2].
  apply (proj2 (P_PartSync3.sides2 body)) in C.
  destruct (C43_absorbed_2d body (d_ax D) (d_ay D) (d_nx D) (d_ny D) (thick K) (d_dx D) (d_dy D) p r N1 N2 (oo_th K D pmls OK) D1 D2 C) as (A1 & A2 & _).
  pose proof M as M'. destruct M' as (x & y & E1 & E2 & V1 & V2 & _). rewrite E1 in A1, Z1. rewrite E2 in A2, Z2. cbn [in_cells'] in A1, A2.
  destruct (fate p r x y Hp M E1 E2) as (Fx & _ & Fy & _). rewrite Z1, Z.add_0_r in Fx. rewrite Z2, Z.add_0_r in Fy.
  assert (forall a i, 0 <= i < ax_n a -> wrap a i = Some i) as Wi by (intros a i H; unfold wrap; destruct (Z.ltb_spec i 0); [lia|]; destruct (Z.leb_spec (ax_n a) i); [lia|reflexivity]).
  destruct (Fx _ (Wi _ _ I1)) as (x' & wx & _ & Kx & _). destruct (Fy _ (Wi _ _ I2)) as (y' & wy & _ & Ky & _).
  assert (wx = x). { eapply (keep1_same _ _ _ (d_nx D)); [eexists; split; [reflexivity|exact I1]|lia|exact D1|exact A1|exact Kx]. }
  assert (wy = y). { eapply (keep1_same _ _ _ (d_ny D)); [eexists; split; [reflexivity|exact I2]|lia|exact D2|exact A2|exact Ky]. }
  subst wx wy. split; [|split].
  - exists x, y. repeat (split; [assumption|]). assumption.
  - unfold okeep. rewrite E1, E2, Kx, Ky. rewrite <- E1, <- E2. destruct r; reflexivity.
  - intros x0 y0 E1' E2'. assert (x0 = x) by congruence. assert (y0 = y) by congruence. subst. split; (eapply keep1_clear; [eassumption|reflexivity]).
Qed.
Lemma oarrives p b q r : moved D p r -> (p < n)%nat -> nbr p b = Some q -> cl2 _ (geo p) r = Some b ->
  in_patch D q (sh2 _ (geo q) r) /\ map canon (kept r) = [canon (sh2 _ (geo q) r)] /\ clear_row (sh2 _ (geo q) r) /\ out2 _ (geo q) (sh2 _ (geo q) r) = false.
Proof.
  intros M Hp N C. destruct (oo_n K D pmls OK) as [N1 N2].
  pose proof M as M'. destruct M' as (x & y & E1 & E2 & V1 & V2 & _).
  assert (Hb : (b < 8)%nat) by exact (proj1 (P_PartSync3.sides2 body) _ _ _ C).
  pose proof (nbr2_lt _ _ N1 N2 p b q Hp Hb N) as Hq. pose proof N as W. apply (nbr2_spec _ _ N1 N2) in W; auto. destruct W as [_ W].
  pose proof (classify2_dirs (fst (geo p)) (snd (geo p)) (px _ r) (py _ r)) as Cd. pose proof C as C'. unfold cl2 in C'. rewrite C' in Cd. destruct Cd as [_ Cd]. rewrite Cd in W.
  rewrite E1, E2 in W. cbn [wrap_all add] in W.
  destruct (wrap (d_ax D) _) as [k1|] eqn:W1 in W; [|discriminate]. destruct (wrap (d_ay D) _) as [k2|] eqn:W2 in W; [|discriminate].
  assert (k1 = pi D q) by (unfold cx in W; congruence). assert (k2 = pj D q) by (unfold cy in W; congruence). subst k1 k2.
  destruct (fate p r x y Hp M E1 E2) as (Fx & _ & Fy & _).
  destruct (Fx _ W1) as (x' & wx & Hx & Kx & Ex & Cx & Zx). destruct (Fy _ W2) as (y' & wy & Hy & Ky & Ey & Cy & Zy).
  assert (sh2 body (geo q) r = mkRow _ (Some x') (Some y') (pz _ r) (other _ r)) as Sh by (unfold sh2, geo_open; cbn [geo2 fst snd]; rewrite E1, E2, Hx, Hy; reflexivity).
  rewrite Sh. split; [|split; [|split]].
  - exists x', y'. cbn [px py other]. repeat (split; [reflexivity || assumption|]). assumption.
  - unfold okeep. rewrite E1, E2, Kx, Ky. cbn [map]. unfold canon. cbn [px py pz other option_map]. rewrite (Qred_complete _ _ Ex), (Qred_complete _ _ Ey). reflexivity.
  - intros x0 y0 F1 F2. cbn [px py] in F1, F2. apply some_eq in F1, F2. subst x0 y0. split; eapply keep1_clear; eassumption.
  - unfold out2, geo_open, geo2. cbn [fst snd px py]. apply out1_dir in Zx, Zy. unfold pnum in *. apply orb_false_iff. split; assumption.
Qed.
Lemma olost p b r : moved D p r -> (p < n)%nat -> nbr p b = None -> cl2 _ (geo p) r = Some b -> kept r = [].
Proof.
  intros M Hp N C. destruct (oo_n K D pmls OK) as [N1 N2].
  pose proof M as M'. destruct M' as (x & y & E1 & E2 & V1 & V2 & _).
  assert (Hb : (b < 8)%nat) by exact (proj1 (P_PartSync3.sides2 body) _ _ _ C).
  pose proof (classify2_dirs (fst (geo p)) (snd (geo p)) (px _ r) (py _ r)) as Cd. pose proof C as C'. unfold cl2 in C'. rewrite C' in Cd. destruct Cd as [_ Cd].
  destruct (fate p r x y Hp M E1 E2) as (_ & Lx & _ & Ly). unfold okeep. rewrite E1, E2.
  destruct (wrap (d_ax D) (pi D p + dir1 (fst (geo p)) (Some x))) as [k1|] eqn:W1; [|rewrite (Lx eq_refl); reflexivity].
  destruct (wrap (d_ay D) (pj D p + dir1 (snd (geo p)) (Some y))) as [k2|] eqn:W2; [|rewrite (Ly eq_refl); destruct (keep1 _ _ _ _ x); reflexivity].
  exfalso. pose proof (wrap_range _ _ _ N1 W1) as R1. pose proof (wrap_range _ _ _ N2 W2) as R2.
  destruct (honto2 _ _ N1 N2 [k1; k2]) as (q & Hq & Eq). { constructor; [lia|constructor; [lia|constructor]]. }
  assert (nbr p b = Some q); [|congruence]. apply (nbr2_spec _ _ N1 N2 p b q Hp Hb). split; [exact Hq|]. rewrite Cd, E1, E2. cbn [wrap_all add].
  unfold position2 in Eq. unfold cx, cy at 1. unfold pnum in *. rewrite W1. fold (cy (d_ax D) p). unfold cy. unfold pnum. rewrite W2. f_equal. symmetry. exact Eq.
Qed.
Lemma oarrival_in st q r : length st = n -> (q < n)%nat -> In r (arrivals 8 opp2 (cl2 body) geo nbr st q) ->
  exists p b, (p < n)%nat /\ nbr p b = Some q /\ cl2 _ (geo p) r = Some b /\ In r (live_rows p st).
Proof.
  intros L Hq I. unfold arrivals in I. apply in_flat_map in I. destruct I as (b & Hb & I). apply in_seq in Hb.
  destruct (nbr q b) as [p|] eqn:E; [|destruct I]. destruct (onbr_sym q b p Hq ltac:(lia) E) as (Hp & Ho & Hoo & N').
  unfold left_by in I. apply filter_In in I. destruct I as [I S]. exists p, (opp2 b). split; [exact Hp|]. split; [exact N'|]. split; [|exact I].
  unfold on_side in S. destruct (cl2 body (geo p) r); [|discriminate]. apply Nat.eqb_eq in S. congruence.
Qed.
Lemma flat_map_nil {A B} (f : A -> list B) l : (forall a, In a l -> f a = []) -> flat_map f l = [].
Proof. induction l as [|a l IH]; intro H; [reflexivity|]. cbn [flat_map]. rewrite (H a) by (left; reflexivity). apply IH. intros; apply H; right; assumption. Qed.
Lemma flat_map_flat {A B C} (f : A -> list B) (g : B -> list C) l : flat_map g (flat_map f l) = flat_map (fun a => flat_map g (f a)) l.
Proof. induction l as [|a l IH]; [reflexivity|]. cbn [flat_map]. rewrite flat_map_app, IH. reflexivity. Qed.
Lemma flat_map_single {A B} (f : A -> list B) (g : A -> B) l : (forall a, In a l -> f a = [g a]) -> flat_map f l = map g l.
Proof. induction l as [|a l IH]; intro H; [reflexivity|]. cbn [flat_map map]. rewrite (H a) by (left; reflexivity). cbn [app]. f_equal. apply IH. intros; apply H; right; assumption. Qed.
Lemma oexchange_ok rank st st'' : length st = n -> (forall p r, (p < n)%nat -> In r (live_rows p st) -> moved D p r) -> sync_particles_open K D rank st st'' ->
  settled D st'' /\ none_in_layers (thick K) D st'' /\ Permutation (map canon (particles st'')) (flat_map (fun r => map canon (kept r)) (particles st)).
Proof.
  intros L M (fresh & st' & es & sched & E1 & Pm & E2).
  assert (Sy : nbr_symmetric (length st) 8 opp2 nbr) by (rewrite L; exact onbr_sym).
  assert (Rm : remote_ok (length st) 8 opp2 nbr (remote_of rank nbr)) by (apply remote_of_ok; auto).
  destruct (C50_distribution _ _ 8 opp2 (cl2 body) (sh2 body) (out2 body) (clear2 body) false geo nbr fresh (remote_of rank nbr) st es sched st' st'' (P_PartSync3.sides2 body) Sy Rm) as [L'' R]; auto.
  { intros q b p r c Hq Hb N Hr C. exfalso. destruct (Sy q b p Hq Hb N) as (Hp & Ho & Hoo & N'). rewrite L in Hp, Hq.
    unfold left_by in Hr. apply filter_In in Hr. destruct Hr as [Hr Hs].
    assert (Cp : cl2 body (geo p) r = Some (opp2 b)) by (unfold on_side in Hs; destruct (cl2 body (geo p) r); [|discriminate]; apply Nat.eqb_eq in Hs; congruence).
    destruct (oarrives p (opp2 b) q r (M p r Hp Hr) Hp N' Cp) as (_ & _ & _ & O). apply (proj2 (P_PartSync3.sides2 body)) in O. congruence. }
  rewrite L in R, L''.
  assert (Kq : forall q, (q < n)%nat -> Permutation (live_rows q st'') (stayed (cl2 body) (geo q) (nth q st []) ++ map (sh2 body (geo q)) (arrivals 8 opp2 (cl2 body) geo nbr st q))).
  { intros q Hq. rewrite (R q Hq). apply Permutation_app_head. rewrite (filter_id _ (map _ _)); [reflexivity|].
    intros r' I. apply in_map_iff in I. destruct I as (r & <- & I). destruct (oarrival_in st q r L Hq I) as (p & b & Hp & N & C & I').
    destruct (oarrives p b q r (M p r Hp I') Hp N C) as (_ & _ & _ & O). rewrite O. reflexivity. }
  assert (Each : forall q r, (q < n)%nat -> In r (live_rows q st'') -> in_patch D q r /\ clear_row r).
  { intros q r Hq I. apply (Permutation_in r (Kq q Hq)) in I. apply in_app_or in I. destruct I as [I|I].
    + apply filter_In in I. destruct I as [I C]. destruct (cl2 body (geo q) r) eqn:Ec; [discriminate|]. destruct (ostays q r (M q r Hq I) Hq Ec) as (X & _ & Y). auto.
    + apply in_map_iff in I. destruct I as (r0 & <- & I). destruct (oarrival_in st q r0 L Hq I) as (p & b & Hp & N & C & I').
      destruct (oarrives p b q r0 (M p r0 Hp I') Hp N C) as (X & _ & Y & _). auto. }
  split; [|split].
  - split; [exact L''|]. intros q r Hq I. exact (proj1 (Each q r Hq I)).
  - intros r x y I Ex Ey. unfold particles in I. rewrite (flat_map_nth _ [] st''), L'' in I. apply in_flat_map in I. destruct I as (q & Hq & I). apply in_seq in Hq.
    exact (proj2 (Each q r ltac:(lia) I) x y Ex Ey).
  - set (g := fun r => map canon (kept r)). unfold particles. rewrite (flat_map_nth _ [] st''), L''. rewrite (flat_map_nth _ [] st), L.
    transitivity (flat_map g (flat_map (fun q => stayed (cl2 body) (geo q) (nth q st []) ++ arrivals 8 opp2 (cl2 body) geo nbr st q) (seq 0 n))).
    + rewrite flat_map_flat, flat_map_concat_map, concat_map, map_map, <- flat_map_concat_map. apply flat_map_perm_ext. intros q Hq. apply in_seq in Hq.
      rewrite (Kq q ltac:(lia)), map_app, map_map, flat_map_app.
      rewrite (flat_map_single g canon (stayed _ _ _)).
      2:{ intros r I. apply filter_In in I. destruct I as [I C]. destruct (cl2 body (geo q) r) eqn:Ec; [discriminate|].
        unfold g. rewrite (proj1 (proj2 (ostays q r (M q r ltac:(lia) I) ltac:(lia) Ec))). reflexivity. }
      rewrite (flat_map_single g (fun r => canon (sh2 body (geo q) r)) (arrivals _ _ _ _ _ _ _)); [reflexivity|].
      intros r I. destruct (oarrival_in st q r L ltac:(lia) I) as (p & b & Hp & N & C & I'). exact (proj1 (proj2 (oarrives p b q r (M p r Hp I') Hp N C))).
    + rewrite flat_map_flat.
      transitivity (flat_map g (flat_map (fun q => stayed (cl2 body) (geo q) (nth q st []) ++ leavers (cl2 body) geo nbr st q) (seq 0 n))).
      { rewrite <- flat_map_flat. apply Permutation_flat_map. rewrite flat_map_app2. pose proof (C04_arrive_once _ _ 8 opp2 (cl2 body) (out2 body) geo nbr st (P_PartSync3.sides2 body) Sy) as A. rewrite L in A. rewrite A.
        rewrite <- flat_map_app2. reflexivity. }
      rewrite !flat_map_flat. apply flat_map_perm_ext. intros q Hq. apply in_seq in Hq.
      rewrite (C04_stayed_left_or_lost _ _ (cl2 body) geo nbr st q), app_assoc, (flat_map_app g (_ ++ _)).
      rewrite (flat_map_nil g (filter _ _)); [rewrite app_nil_r; reflexivity|].
      intros r I. apply filter_In in I. destruct I as [I C]. destruct (cl2 body (geo q) r) as [b|] eqn:Ec; [|discriminate]. destruct (nbr q b) eqn:En; [discriminate|].
      unfold g. rewrite (olost q b r (M q r ltac:(lia) I) ltac:(lia) En Ec). reflexivity.
Qed.
End Exchange.
