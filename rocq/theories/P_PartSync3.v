(** Geometry of the exchange on rectangular domains. *)
From Verif Require Import Base M_Layout S_Layout P_Layout M_PartSync S_PartSync P_PartSync P_PartSync2.
From Coq Require Import QArith Qabs Permutation Lqa.
Local Open Scope list_scope.
Local Open Scope Z_scope.

Lemma below_spec x b : below (Some x) b = true <-> (x < b)%Q.
Proof. unfold below. rewrite negb_true_iff. rewrite <- not_true_iff_false, Qle_bool_iff. split; [apply Qnot_le_lt|apply Qlt_not_le]. Qed.
Lemma above_spec x b : above (Some x) b = true <-> (b < x)%Q.
Proof. unfold above. rewrite negb_true_iff. rewrite <- not_true_iff_false, Qle_bool_iff. split; [apply Qnot_le_lt|apply Qlt_not_le]. Qed.
Lemma below_false x b : below (Some x) b = false <-> (b <= x)%Q.
Proof. unfold below. rewrite negb_false_iff. apply Qle_bool_iff. Qed.
Lemma above_false x b : above (Some x) b = false <-> (x <= b)%Q.
Proof. unfold above. rewrite negb_false_iff. apply Qle_bool_iff. Qed.

(** *** classification = direction vector *)
Lemma classify2_dirs gx gy x y : match classify2 gx gy x y with
  | Some b => (b < 8)%nat /\ nth b bounds2 [] = [dir1 gx x; dir1 gy y]
  | None => dir1 gx x = 0 /\ dir1 gy y = 0 end.
Proof.
  unfold classify2, dir1. destruct (below y (g_lo gy)), (above y (g_hi gy)), (below x (g_lo gx)), (above x (g_hi gx)); cbn; auto; split; auto; unfold XMIN, XMAX, YMIN, YMAX, XMINYMIN, XMAXYMIN, XMINYMAX, XMAXYMAX; lia.
Qed.
Lemma classify3_dirs gx gy gz x y z : match classify3 gx gy gz x y z with
  | Some b => (b < 26)%nat /\ nth b bounds3 [] = [dir1 gx x; dir1 gy y; dir1 gz z]
  | None => dir1 gx x = 0 /\ dir1 gy y = 0 /\ dir1 gz z = 0 end.
Proof.
  unfold classify3, dir1. destruct (below y (g_lo gy)), (above y (g_hi gy)), (below x (g_lo gx)), (above x (g_hi gx)), (below z (g_lo gz)), (above z (g_hi gz)); cbn; auto; split; auto; lia.
Qed.
Lemma out1_dir g x : out1 g x = false <-> dir1 g x = 0.
Proof. unfold out1, dir1. destruct (below x (g_lo g)), (above x (g_hi g)); cbn; split; intro; auto; discriminate. Qed.
Lemma dir1_range g x : -1 <= dir1 g x <= 1.
Proof. unfold dir1. destruct (below x (g_lo g)), (above x (g_hi g)); lia. Qed.
Lemma bounds2_nonzero b : (b < 8)%nat -> nth b bounds2 [] <> [0; 0].
Proof. intro H. do 8 (destruct b as [|b]; [discriminate|]). lia. Qed.
Lemma bounds3_nonzero b : (b < 26)%nat -> nth b bounds3 [] <> [0; 0; 0].
Proof. intro H. do 26 (destruct b as [|b]; [discriminate|]). lia. Qed.
Lemma sides2 A : sides_ok 8 (cl2 A) (out2 A).
Proof.
  split.
  - intros g r b E. pose proof (classify2_dirs (fst g) (snd g) (px A r) (py A r)) as H. unfold cl2 in E. rewrite E in H. tauto.
  - intros g r. unfold out2, cl2. rewrite orb_false_iff, !out1_dir. pose proof (classify2_dirs (fst g) (snd g) (px A r) (py A r)) as H.
    destruct (classify2 _ _ _ _) as [b|]; [|tauto]. split; [|discriminate]. intros [H1 H2]. exfalso. destruct H as [Hb H]. rewrite H1, H2 in H. revert H. now apply bounds2_nonzero.
Qed.
Lemma sides3 A : sides_ok 26 (cl3 A) (out3 A).
Proof.
  split.
  - intros [[gx gy] gz] r b E. pose proof (classify3_dirs gx gy gz (px A r) (py A r) (pz A r)) as H. unfold cl3 in E. rewrite E in H. tauto.
  - intros [[gx gy] gz] r. unfold out3, cl3. rewrite !orb_false_iff, !out1_dir. pose proof (classify3_dirs gx gy gz (px A r) (py A r) (pz A r)) as H.
    destruct (classify3 _ _ _ _ _ _) as [b|]; [|tauto]. split; [|discriminate]. intros [[H1 H2] H3]. exfalso. destruct H as [Hb H]. rewrite H1, H2, H3 in H. revert H. now apply bounds3_nonzero.
Qed.

(** *** one axis *)
Lemma x0_eq np m i dx : 1 <= np -> (patch_x0 (np * m) np i dx == inject_Z (i * m) * dx)%Q.
Proof.
  intro H. unfold patch_x0. rewrite !inject_Z_mult. field. intro E. unfold Qeq in E. cbn in E. lia.
Qed.
Lemma geo_lo a m th dx k : 1 <= ax_n a -> (g_lo (ax_geo a m th dx k) == cell_edge m dx k + inject_Z (lo_layer a th k) * dx)%Q.
Proof. intro H. unfold ax_geo, axis_geo, patch_xmin, cell_edge. cbn [g_lo]. rewrite x0_eq by auto. ring. Qed.
Lemma geo_hi a m th dx k : 1 <= ax_n a -> (g_hi (ax_geo a m th dx k) == cell_edge m dx (k + 1) - inject_Z (hi_layer a th k) * dx)%Q.
Proof.
  intro H. unfold ax_geo, axis_geo, patch_xmax, cell_edge, cells_per_patch. cbn [g_hi]. rewrite x0_eq by auto.
  replace (ax_n a * m / ax_n a) with m by (rewrite Z.mul_comm, Z.div_mul; lia). rewrite !inject_Z_mult, !inject_Z_plus. field.
Qed.
Lemma geo_min a m th dx k : (g_min (ax_geo a m th dx k) == cell_edge m dx 0)%Q.
Proof. unfold ax_geo, axis_geo, cell_edge. cbn [g_min]. change (inject_Z (0 * m)) with 0%Q. field. Qed.
Lemma geo_max a m th dx k : (g_max (ax_geo a m th dx k) == cell_edge m dx (ax_n a))%Q.
Proof. unfold ax_geo, axis_geo, cell_edge. cbn [g_max]. ring. Qed.
Lemma edge_step m dx k j : (cell_edge m dx (k + j) == cell_edge m dx k + inject_Z j * (inject_Z m * dx))%Q.
Proof. unfold cell_edge. rewrite !inject_Z_mult, !inject_Z_plus. ring. Qed.
Lemma width_pos m dx : 1 <= m -> (0 < dx -> dx <= inject_Z m * dx)%Q.
Proof. intros H D. assert (1 <= inject_Z m)%Q by (change 1%Q with (inject_Z 1); rewrite <- Zle_Qle; lia). nra. Qed.
Lemma edge_mono m dx k k' : 1 <= m -> (0 < dx)%Q -> k <= k' -> (cell_edge m dx k <= cell_edge m dx k')%Q.
Proof.
  intros Hm D H. replace k' with (k + (k' - k)) by lia. rewrite edge_step. pose proof (width_pos m dx Hm D).
  assert (0 <= inject_Z (k' - k))%Q by (change 0%Q with (inject_Z 0); rewrite <- Zle_Qle; lia). nra.
Qed.
Lemma layer_nonneg th dx : 0 <= th -> (0 < dx)%Q -> (0 <= inject_Z th * dx)%Q.
Proof. intros H D. assert (0 <= inject_Z th)%Q by (change 0%Q with (inject_Z 0); rewrite <- Zle_Qle; lia). nra. Qed.
Lemma lo_layer_nonneg a th k : 0 <= th -> 0 <= lo_layer a th k.
Proof. unfold lo_layer. destruct (_ && _); lia. Qed.
Lemma hi_layer_nonneg a th k : 0 <= th -> 0 <= hi_layer a th k.
Proof. unfold hi_layer. destruct (_ && _); lia. Qed.

(** value after the periodic correction, given where it is *)
Lemma periodic_inside g v : (g_min g <= v)%Q -> (v <= g_max g)%Q -> handle_periodic g (Some v) = Some v.
Proof. intros H1 H2. unfold handle_periodic. rewrite (proj2 (above_false v (g_max g)) H2), (proj2 (below_false v (g_min g)) H1). reflexivity. Qed.
Lemma periodic_up g v : (v < g_min g)%Q -> (g_min g <= g_max g)%Q -> (Qabs (g_hi g - g_max g) < g_cell g)%Q -> handle_periodic g (Some v) = Some (v + (g_max g - g_min g))%Q.
Proof.
  intros H1 H2 H3. unfold handle_periodic. rewrite (proj2 (above_false v (g_max g))) by lra. rewrite (proj2 (below_spec v (g_min g)) H1). cbn [andb].
  destruct (Qle_bool (g_cell g) (Qabs (g_hi g - g_max g))) eqn:E; [|reflexivity]. apply Qle_bool_iff in E. lra.
Qed.
Lemma periodic_down g v : (g_max g < v)%Q -> (g_min g <= g_max g)%Q -> (Qabs (g_lo g - g_min g) < g_cell g)%Q -> handle_periodic g (Some v) = Some (v - (g_max g - g_min g))%Q.
Proof.
  intros H1 H2 H3. unfold handle_periodic. rewrite (proj2 (above_spec v (g_max g)) H1). cbn [andb].
  destruct (Qle_bool (g_cell g) (Qabs (g_lo g - g_min g))) eqn:E; [apply Qle_bool_iff in E; lra|]. cbn [negb].
  rewrite (proj2 (below_false v (g_min g))) by lra. reflexivity.
Qed.

Lemma dir1_layer a m th dx k v : 1 <= ax_n a -> (0 < dx)%Q -> in_cells m dx k v -> 0 <= k < ax_n a ->
  dir1 (ax_geo a m th dx k) (Some v) <> 0 -> wrap a (k + dir1 (ax_geo a m th dx k) (Some v)) = None /\ in_layer a m th dx k (Some v).
Proof.
  intros Hn D [C1 C2] Hk N. pose proof (geo_lo a m th dx k Hn) as GL. pose proof (geo_hi a m th dx k Hn) as GH.
  unfold dir1 in *. destruct (below (Some v) _) eqn:B.
  - apply below_spec in B. unfold lo_layer in GL. destruct ((k =? 0) && bc_eqb (ax_lo a) Pml) eqn:L.
    + apply andb_true_iff in L. destruct L as [L1 L2]. apply Z.eqb_eq in L1. apply bc_eqb_eq in L2. subst k. split.
      * unfold wrap. rewrite L2. reflexivity.
      * left. split; auto. split; auto. lra.
    + change (inject_Z 0) with 0%Q in GL. exfalso. lra.
  - destruct (above (Some v) _) eqn:B2; [|congruence]. apply above_spec in B2. unfold hi_layer in GH. destruct ((k =? ax_n a - 1) && bc_eqb (ax_hi a) Pml) eqn:L.
    + apply andb_true_iff in L. destruct L as [L1 L2]. apply Z.eqb_eq in L1. apply bc_eqb_eq in L2. split.
      * unfold wrap. rewrite L2. replace (k + 1 <? 0) with false by lia. replace (ax_n a <=? k + 1) with true by lia. reflexivity.
      * right. split; auto. split; auto. replace (k + 1) with (ax_n a) in GH by lia. lra.
    + change (inject_Z 0) with 0%Q in GH. exfalso. lra.
Qed.
Lemma axis_arrival a m th dx i x k : ax_lo a = ax_hi a -> 0 <= i < ax_n a -> 1 <= m -> 0 <= th -> (0 < dx)%Q -> near m dx i x ->
  wrap a (i + dir1 (ax_geo a m th dx i) x) = Some k ->
  let x' := handle_periodic (ax_geo a m th dx k) x in
  in_cells' m dx k x' /\ (dir1 (ax_geo a m th dx k) x' <> 0 -> wrap a (k + dir1 (ax_geo a m th dx k) x') = None /\ in_layer a m th dx k x').
Proof.
  intros Par Hi Hm Hth D Near W x'.
  destruct x as [v|]; [|split; [exact I|]; intro H; exfalso; apply H; reflexivity].
  assert (Hn : 1 <= ax_n a) by lia.
  assert (Hk : 0 <= k < ax_n a) by (eapply wrap_range; eauto).
  cut (exists v', x' = Some v' /\ in_cells m dx k v').
  { intros (v' & E & C). rewrite E. split; [exact C|]. intro N. apply dir1_layer; auto. }
  pose proof (geo_lo a m th dx i Hn) as GL. pose proof (geo_hi a m th dx i Hn) as GH.
  pose proof (geo_min a m th dx k) as Gmin. pose proof (geo_max a m th dx k) as Gmax.
  pose proof (layer_nonneg _ dx (lo_layer_nonneg a th i Hth) D) as LN. pose proof (layer_nonneg _ dx (hi_layer_nonneg a th i Hth) D) as HN.
  pose proof (width_pos m dx Hm D) as WP.
  pose proof (edge_mono m dx 0 i Hm D ltac:(lia)) as M1. pose proof (edge_mono m dx (i + 1) (ax_n a) Hm D ltac:(lia)) as M2.
  pose proof (edge_step m dx i 1) as S1. pose proof (edge_step m dx i (-1)) as S2. pose proof (edge_step m dx i 2) as S3.
  change (inject_Z 1) with 1%Q in S1. change (inject_Z (-1)) with (-1)%Q in S2. change (inject_Z 2) with 2%Q in S3.
  destruct Near as [N1 N2]. replace (i - 1) with (i + -1) in N1 by lia.
  unfold x'. clear x'. unfold dir1 in W. destruct (below (Some v) (g_lo (ax_geo a m th dx i))) eqn:B.
  - apply below_spec in B. unfold wrap in W. destruct (i + -1 <? 0) eqn:E1.
    + assert (i = 0) by lia. subst i. destruct (bc_eqb (ax_lo a) Periodic) eqn:P; [|discriminate]. apply bc_eqb_eq in P. inversion W; subst k.
      assert (LL : lo_layer a th 0 = 0) by (unfold lo_layer; rewrite P; now rewrite andb_false_r). rewrite LL in GL. change (inject_Z 0) with 0%Q in GL.
      pose proof (geo_hi a m th dx (ax_n a - 1) Hn) as GHk. assert (HL : hi_layer a th (ax_n a - 1) = 0) by (unfold hi_layer; rewrite <- Par, P; now rewrite andb_false_r).
      rewrite HL in GHk. change (inject_Z 0) with 0%Q in GHk. replace (ax_n a - 1 + 1) with (ax_n a) in GHk by lia.
      assert (v < cell_edge m dx 0)%Q by lra.
      rewrite periodic_up; [| lra | lra |].
      * eexists; split; [reflexivity|]. pose proof (edge_step m dx (ax_n a) (-1)) as S4. change (inject_Z (-1)) with (-1)%Q in S4.
        split; [replace (ax_n a - 1) with (ax_n a + -1) at 1 by lia; rewrite S4|replace (ax_n a - 1 + 1) with (ax_n a) by lia]; lra.
      * assert (Z0 : (g_hi (ax_geo a m th dx (ax_n a - 1)) - g_max (ax_geo a m th dx (ax_n a - 1)) == 0)%Q) by lra. rewrite Z0. exact D.
    + destruct (ax_n a <=? i + -1) eqn:E2; [lia|]. inversion W; subst k. pose proof (edge_mono m dx 0 (i + -1) Hm D ltac:(lia)) as M3. 
      assert (LL : lo_layer a th i = 0) by (unfold lo_layer; replace (i =? 0) with false by lia; reflexivity). rewrite LL in GL. change (inject_Z 0) with 0%Q in GL.
      assert (v < cell_edge m dx i)%Q by lra. 
      rewrite periodic_inside by lra. eexists; split; [reflexivity|]. split; [lra|]. replace (i + -1 + 1) with i by lia. lra.
  - apply below_false in B. destruct (above (Some v) (g_hi (ax_geo a m th dx i))) eqn:B2.
    + apply above_spec in B2. unfold wrap in W. replace (i + 1 <? 0) with false in W by lia. destruct (ax_n a <=? i + 1) eqn:E2.
      * assert (i = ax_n a - 1) by lia. subst i. destruct (bc_eqb (ax_hi a) Periodic) eqn:P; [|discriminate]. apply bc_eqb_eq in P. inversion W; subst k.
        assert (HL : hi_layer a th (ax_n a - 1) = 0) by (unfold hi_layer; rewrite P; now rewrite andb_false_r). rewrite HL in GH. change (inject_Z 0) with 0%Q in GH.
        pose proof (geo_lo a m th dx 0 Hn) as GLk. assert (LL : lo_layer a th 0 = 0) by (unfold lo_layer; rewrite Par, P; now rewrite andb_false_r).
        rewrite LL in GLk. change (inject_Z 0) with 0%Q in GLk.
        replace (ax_n a - 1 + 1) with (ax_n a) in * by lia.
        pose proof (edge_step m dx (ax_n a) 1) as S4. change (inject_Z 1) with 1%Q in S4. pose proof (edge_step m dx 0 1) as S5. change (inject_Z 1) with 1%Q in S5.
        rewrite periodic_down; [| lra | lra |].
        -- eexists; split; [reflexivity|]. replace (ax_n a - 1 + 2) with (ax_n a + 1) in * by lia. split; lra.
        -- assert (Z0 : (g_lo (ax_geo a m th dx 0) - g_min (ax_geo a m th dx 0) == 0)%Q) by lra. rewrite Z0. exact D.
      * inversion W; subst k. pose proof (edge_mono m dx (i + 2) (ax_n a) Hm D ltac:(lia)) as M3. 
        assert (HL : hi_layer a th i = 0) by (unfold hi_layer; replace (i =? ax_n a - 1) with false by lia; reflexivity). rewrite HL in GH. change (inject_Z 0) with 0%Q in GH.
        rewrite periodic_inside by lra. eexists; split; [reflexivity|]. split; [lra|]. replace (i + 1 + 1) with (i + 2) by lia. lra.
    + apply above_false in B2. rewrite Z.add_0_r in W. unfold wrap in W. replace (i <? 0) with false in W by lia. replace (ax_n a <=? i) with false in W by lia. inversion W; subst k.
      rewrite periodic_inside by lra. eexists; split; [reflexivity|]. split; lra.
Qed.

(** *** two axes *)
Section D2.
Variables ax ay : axis.
Variables mx my th : Z.
Variables dx dy : Q.
Hypothesis Pxy : paired [ax; ay].
Hypothesis Nx : 1 <= ax_n ax. Hypothesis Ny : 1 <= ax_n ay.
Hypothesis Mx : 1 <= mx. Hypothesis My : 1 <= my. Hypothesis Th : 0 <= th.
Hypothesis Dx : (0 < dx)%Q. Hypothesis Dy : (0 < dy)%Q.
Definition npatch2 : nat := Z.to_nat (ax_n ax * ax_n ay).
Definition cx (p : nat) := pnum p mod ax_n ax.
Definition cy (p : nat) := pnum p / ax_n ax.
Lemma coords2 p : (p < npatch2)%nat -> 0 <= cx p < ax_n ax /\ 0 <= cy p < ax_n ay /\ pnum p = cx p + cy p * ax_n ax.
Proof.
  unfold npatch2, cx, cy, pnum. intro H. pose proof (Z.mod_pos_bound (Z.of_nat p) (ax_n ax) ltac:(lia)). pose proof (Z.div_mod (Z.of_nat p) (ax_n ax) ltac:(lia)).
  split; auto. split; [|lia]. split; [apply Z.div_pos; lia|]. apply Z.div_lt_upper_bound; lia.
Qed.
Lemma in_rect2 p : (p < npatch2)%nat -> In ([cx p; cy p], pnum p) (rect2 (ax_n ax) (ax_n ay)).
Proof. intro H. apply rect2_in. exists (cx p), (cy p). destruct (coords2 p H) as (? & ? & ?). auto. Qed.
Lemma rect2_num c ix : In (c, ix) (rect2 (ax_n ax) (ax_n ay)) -> (Z.to_nat ix < npatch2)%nat /\ c = [cx (Z.to_nat ix); cy (Z.to_nat ix)] /\ pnum (Z.to_nat ix) = ix.
Proof.
  intro H. apply rect2_in in H. destruct H as (i & j & -> & -> & Hi & Hj). unfold npatch2, cx, cy, pnum. rewrite Z2Nat.id by nia. split; [nia|].
  split; auto. f_equal; [|f_equal].
  - rewrite Z.add_comm, Z.mul_comm, Z.add_comm. rewrite (Z.mul_comm (ax_n ax)). rewrite Z.mod_add by lia. symmetry. apply Z.mod_small. lia.
  - rewrite Z.div_add by lia. rewrite Z.div_small by lia. reflexivity.
Qed.
Lemma unit2 b : (b < 8)%nat -> unit_offset [ax; ay] (nth b bounds2 []).
Proof. intro H. unfold unit_offset. do 8 (destruct b as [|b]; [repeat constructor; cbn; discriminate|]). lia. Qed.
Lemma nbr2_spec p b q : (p < npatch2)%nat -> (b < 8)%nat -> nbr2 ax ay p b = Some q <-> (q < npatch2)%nat /\ wrap_all [ax; ay] (add [cx p; cy p] (nth b bounds2 [])) = Some [cx q; cy q].
Proof.
  intros Hp Hb. destruct (rect2_patch_set ax ay) as [PS FG]. unfold nbr2. fold (cx p) (cy p).
  destruct (neighbor_full _ _ _ _ (nth b bounds2 []) PS FG (unit2 b Hb) (in_rect2 p Hp)) as [NK _]. revert NK. unfold neighbor.
  destruct (wrap_all [ax; ay] (add [cx p; cy p] (nth b bounds2 []))) as [c'|] eqn:W; [|intros _; split; [discriminate|intros [_ E]; discriminate]].
  destruct (lookup c' (rect2 (ax_n ax) (ax_n ay))) as [ix|] eqn:L.
  - intros _. apply lookup_in in L. apply rect2_num in L. destruct L as (L1 & L2 & L3). split.
    + intro E. inversion E; subst q. split; auto. congruence.
    + intros [Hq E]. f_equal. inversion E as [E']. rewrite L2 in E'. inversion E' as [[E1 E2]]. destruct (coords2 _ L1) as (_ & _ & E3). destruct (coords2 _ Hq) as (_ & _ & E4).
      unfold pnum in *. rewrite E1, E2 in E3. lia.
  - destruct (_ =? _); [congruence|]. intros _. split; [discriminate|]. intros [Hq E]. inversion E; subst c'. exfalso.
    rewrite lookup_none in L. apply (L (pnum q)). apply in_rect2; auto.
Qed.
Lemma nbr2_lt p b q : (p < npatch2)%nat -> (b < 8)%nat -> nbr2 ax ay p b = Some q -> (q < npatch2)%nat.
Proof. intros Hp Hb E. apply nbr2_spec in E; tauto. Qed.
Lemma sym2 : nbr_symmetric npatch2 8 opp2 (nbr2 ax ay).
Proof.
  intros p b q Hp Hb E. pose proof (nbr2_lt p b q Hp Hb E) as Hq. destruct (opposite2_ok b Hb) as (O2 & O1 & O3).
  apply nbr2_spec in E; auto. destruct E as [_ W]. split; auto. split; [exact O1|]. split; [exact O3|]. apply nbr2_spec; [auto|exact O1|]. split; auto.
  unfold opp2. rewrite O2. apply (wrap_all_back [ax; ay]); auto; [|apply unit2; auto]. destruct (coords2 p Hp) as (? & ? & _). repeat constructor; auto; lia.
Qed.
Variable A : Type.
Local Notation prow := (prow A).
Local Notation geo := (geo2 ax ay mx my th dx dy).
Definition near2 (p : nat) (r : prow) : Prop := near mx dx (cx p) (px A r) /\ near my dy (cy p) (py A r).
Definition in_cells2 (p : nat) (r : prow) : Prop := in_cells' mx dx (cx p) (px A r) /\ in_cells' my dy (cy p) (py A r).
Definition in_layer2 (p : nat) (r : prow) : Prop := in_layer ax mx th dx (cx p) (px A r) \/ in_layer ay my th dy (cy p) (py A r).
Lemma arrival2 p b q r : (p < npatch2)%nat -> (b < 8)%nat -> nbr2 ax ay p b = Some q -> cl2 A (geo p) r = Some b -> near2 p r ->
  in_cells2 q (sh2 A (geo q) r) /\
  (forall c, cl2 A (geo q) (sh2 A (geo q) r) = Some c -> nbr2 ax ay q c = None /\ in_layer2 q (sh2 A (geo q) r)).
Proof.
  intros Hp Hb E C [Nrx Nry]. pose proof (nbr2_lt p b q Hp Hb E) as Hq. apply nbr2_spec in E; auto. destruct E as [_ W].
  pose proof (classify2_dirs (fst (geo p)) (snd (geo p)) (px A r) (py A r)) as Cd. unfold cl2 in C. rewrite C in Cd. destruct Cd as [_ Cd]. rewrite Cd in W.
  cbn [wrap_all add geo2 fst snd] in W. fold (cx p) (cy p) in W.
  destruct (wrap ax _) as [k1|] eqn:W1 in W; [|discriminate]. destruct (wrap ay _) as [k2|] eqn:W2 in W; [|discriminate]. inversion W; subst k1 k2; clear W.
  pose proof (coords2 p Hp) as (Hx & Hy & _). pose proof (coords2 q Hq) as (Hx' & Hy' & _).
  pose proof (Forall_inv Pxy) as P1. pose proof (Forall_inv (Forall_inv_tail Pxy)) as P2.
  pose proof (axis_arrival ax mx th dx (cx p) (px A r) (cx q) P1 Hx Mx Th Dx Nrx W1) as [X1 X2].
  pose proof (axis_arrival ay my th dy (cy p) (py A r) (cy q) P2 Hy My Th Dy Nry W2) as [Y1 Y2].
  split; [split; assumption|]. intros c Cc. pose proof (classify2_dirs (fst (geo q)) (snd (geo q)) (px A (sh2 A (geo q) r)) (py A (sh2 A (geo q) r))) as Cd'.
  unfold cl2 in Cc. rewrite Cc in Cd'. destruct Cd' as [Hc Cd']. cbn [sh2 px py geo2 fst snd] in Cd'. fold (cx q) (cy q) in Cd'.
  assert (WN : wrap_all [ax; ay] (add [cx q; cy q] (nth c bounds2 [])) = None /\ in_layer2 q (sh2 A (geo q) r)).
  { unfold in_layer2. cbn [sh2 px py geo2 fst snd]. fold (cx q) (cy q). rewrite Cd'. cbn [add wrap_all].
    destruct (Z.eq_dec (dir1 (ax_geo ax mx th dx (cx q)) (handle_periodic (ax_geo ax mx th dx (cx q)) (px A r))) 0) as [Z1|Z1].
    - destruct (Z.eq_dec (dir1 (ax_geo ay my th dy (cy q)) (handle_periodic (ax_geo ay my th dy (cy q)) (py A r))) 0) as [Z2|Z2].
      + exfalso. rewrite Z1, Z2 in Cd'. revert Cd'. now apply bounds2_nonzero.
      + destruct (Y2 Z2) as [Y3 Y4]. rewrite Y3. split; [repeat match goal with |- context [match wrap ?a ?e with _ => _ end] => destruct (wrap a e) end; reflexivity|auto].
    - destruct (X2 Z1) as [X3 X4]. rewrite X3. split; [reflexivity|auto]. }
  destruct WN as [WN IL]. split; [|exact IL]. destruct (nbr2 ax ay q c) as [q'|] eqn:E; auto. apply nbr2_spec in E; auto. destruct E as [_ E]. congruence.
Qed.
End D2.

(** *** three axes *)
Section D3.
Variables ax ay az : axis.
Variables mx my mz th : Z.
Variables dx dy dz : Q.
Hypothesis Pxyz : paired [ax; ay; az].
Hypothesis Nx : 1 <= ax_n ax. Hypothesis Ny : 1 <= ax_n ay. Hypothesis Nz : 1 <= ax_n az.
Hypothesis Mx : 1 <= mx. Hypothesis My : 1 <= my. Hypothesis Mz : 1 <= mz. Hypothesis Th : 0 <= th.
Hypothesis Dx : (0 < dx)%Q. Hypothesis Dy : (0 < dy)%Q. Hypothesis Dz : (0 < dz)%Q.
Definition npatch3 : nat := Z.to_nat (ax_n ax * ax_n ay * ax_n az).
Definition c3x (p : nat) := pnum p mod ax_n ax.
Definition c3y (p : nat) := (pnum p / ax_n ax) mod ax_n ay.
Definition c3z (p : nat) := pnum p / ax_n ax / ax_n ay.
Lemma coords3 p : (p < npatch3)%nat -> 0 <= c3x p < ax_n ax /\ 0 <= c3y p < ax_n ay /\ 0 <= c3z p < ax_n az /\ pnum p = c3x p + c3y p * ax_n ax + c3z p * ax_n ax * ax_n ay.
Proof.
  unfold npatch3, c3x, c3y, c3z, pnum. intro H. 
  assert (H0 : 0 <= Z.of_nat p < ax_n ax * ax_n ay * ax_n az) by lia. clear H. set (P := Z.of_nat p) in *. clearbody P.
  pose proof (Z.mod_pos_bound P (ax_n ax) ltac:(lia)) as B1. pose proof (Z.div_mod P (ax_n ax) ltac:(lia)) as E1.
  pose proof (Z.mod_pos_bound (P / ax_n ax) (ax_n ay) ltac:(lia)) as B2. pose proof (Z.div_mod (P / ax_n ax) (ax_n ay) ltac:(lia)) as E2.
  assert (L : 0 <= P / ax_n ax) by (apply Z.div_pos; lia).
  split; [exact B1|]. split; [exact B2|]. split.
  - split; [apply Z.div_pos; lia|]. apply Z.div_lt_upper_bound; [lia|]. apply Z.div_lt_upper_bound; [lia|]. nia.
  - set (u := P / ax_n ax) in *. set (w := u / ax_n ay) in *. rewrite E1 at 1. rewrite E2 at 1. ring.
Qed.
Lemma in_rect3 p : (p < npatch3)%nat -> In ([c3x p; c3y p; c3z p], pnum p) (rect3 (ax_n ax) (ax_n ay) (ax_n az)).
Proof. intro H. apply rect3_in. exists (c3x p), (c3y p), (c3z p). destruct (coords3 p H) as (? & ? & ? & ?). auto. Qed.
Lemma rect3_num c ix : In (c, ix) (rect3 (ax_n ax) (ax_n ay) (ax_n az)) ->
  (Z.to_nat ix < npatch3)%nat /\ c = [c3x (Z.to_nat ix); c3y (Z.to_nat ix); c3z (Z.to_nat ix)] /\ pnum (Z.to_nat ix) = ix.
Proof.
  intro H. apply rect3_in in H. destruct H as (i & j & k & -> & -> & Hi & Hj & Hk). unfold npatch3, c3x, c3y, c3z, pnum.
  assert (0 <= j * ax_n ax <= (ax_n ay - 1) * ax_n ax) by nia. assert (0 <= k * (ax_n ax * ax_n ay) <= (ax_n az - 1) * (ax_n ax * ax_n ay)) by nia.
  assert (R0 : 0 <= i + j * ax_n ax + k * ax_n ax * ax_n ay < ax_n ax * ax_n ay * ax_n az) by nia.
  rewrite Z2Nat.id by lia.
  assert (D : (i + j * ax_n ax + k * ax_n ax * ax_n ay) / ax_n ax = j + k * ax_n ay).
  { replace (i + j * ax_n ax + k * ax_n ax * ax_n ay) with (i + (j + k * ax_n ay) * ax_n ax) by ring. rewrite Z.div_add by lia. rewrite Z.div_small by lia. lia. }
  assert (M : (i + j * ax_n ax + k * ax_n ax * ax_n ay) mod ax_n ax = i).
  { replace (i + j * ax_n ax + k * ax_n ax * ax_n ay) with (i + (j + k * ax_n ay) * ax_n ax) by ring. rewrite Z.mod_add by lia. apply Z.mod_small; lia. }
  split; [apply Z2Nat.inj_lt; lia|]. split; auto. rewrite M, D. f_equal. f_equal.
  - rewrite Z.mod_add by lia. symmetry. apply Z.mod_small; lia.
  - f_equal. rewrite Z.div_add by lia. rewrite Z.div_small by lia. lia.
Qed.
Lemma unit3 b : (b < 26)%nat -> unit_offset [ax; ay; az] (nth b bounds3 []).
Proof. intro H. unfold unit_offset. do 26 (destruct b as [|b]; [repeat constructor; cbn; discriminate|]). lia. Qed.
Lemma nbr3_spec p b q : (p < npatch3)%nat -> (b < 26)%nat ->
  nbr3 ax ay az p b = Some q <-> (q < npatch3)%nat /\ wrap_all [ax; ay; az] (add [c3x p; c3y p; c3z p] (nth b bounds3 [])) = Some [c3x q; c3y q; c3z q].
Proof.
  intros Hp Hb. destruct (rect3_patch_set ax ay az) as [PS FG]. unfold nbr3. fold (c3x p) (c3y p) (c3z p).
  destruct (neighbor_full _ _ _ _ (nth b bounds3 []) PS FG (unit3 b Hb) (in_rect3 p Hp)) as [NK _]. revert NK. unfold neighbor.
  destruct (wrap_all [ax; ay; az] (add [c3x p; c3y p; c3z p] (nth b bounds3 []))) as [c'|] eqn:W; [|intros _; split; [discriminate|intros [_ E]; discriminate]].
  destruct (lookup c' (rect3 (ax_n ax) (ax_n ay) (ax_n az))) as [ix|] eqn:L.
  - intros _. apply lookup_in in L. apply rect3_num in L. destruct L as (L1 & L2 & L3). split.
    + intro E. inversion E; subst q. split; auto. congruence.
    + intros [Hq E]. f_equal. inversion E as [E']. rewrite L2 in E'. inversion E' as [[E1 E2 E2']]. destruct (coords3 _ L1) as (_ & _ & _ & E3). destruct (coords3 _ Hq) as (_ & _ & _ & E4).
      unfold pnum in *. rewrite E1, E2, E2' in E3. lia.
  - destruct (_ =? _); [congruence|]. intros _. split; [discriminate|]. intros [Hq E]. inversion E; subst c'. exfalso.
    rewrite lookup_none in L. apply (L (pnum q)). apply in_rect3; auto.
Qed.
Lemma nbr3_lt p b q : (p < npatch3)%nat -> (b < 26)%nat -> nbr3 ax ay az p b = Some q -> (q < npatch3)%nat.
Proof. intros Hp Hb E. apply nbr3_spec in E; tauto. Qed.
Lemma sym3 : nbr_symmetric npatch3 26 opp3 (nbr3 ax ay az).
Proof.
  intros p b q Hp Hb E. pose proof (nbr3_lt p b q Hp Hb E) as Hq. destruct (opposite3_ok b Hb) as (O2 & O1 & O3).
  apply nbr3_spec in E; auto. destruct E as [_ W]. split; auto. split; [exact O1|]. split; [exact O3|]. apply nbr3_spec; [auto|exact O1|]. split; auto.
  unfold opp3. rewrite O2. apply (wrap_all_back [ax; ay; az]); auto; [|apply unit3; auto]. destruct (coords3 p Hp) as (? & ? & ? & _). repeat constructor; auto; lia.
Qed.
Variable A : Type.
Local Notation prow := (prow A).
Local Notation geo := (geo3 ax ay az mx my mz th dx dy dz).
Definition near3 (p : nat) (r : prow) : Prop := near mx dx (c3x p) (px A r) /\ near my dy (c3y p) (py A r) /\ near mz dz (c3z p) (pz A r).
Definition in_cells3 (p : nat) (r : prow) : Prop := in_cells' mx dx (c3x p) (px A r) /\ in_cells' my dy (c3y p) (py A r) /\ in_cells' mz dz (c3z p) (pz A r).
Definition in_layer3 (p : nat) (r : prow) : Prop := in_layer ax mx th dx (c3x p) (px A r) \/ in_layer ay my th dy (c3y p) (py A r) \/ in_layer az mz th dz (c3z p) (pz A r).
Lemma arrival3 p b q r : (p < npatch3)%nat -> (b < 26)%nat -> nbr3 ax ay az p b = Some q -> cl3 A (geo p) r = Some b -> near3 p r ->
  in_cells3 q (sh3 A (geo q) r) /\
  (forall c, cl3 A (geo q) (sh3 A (geo q) r) = Some c -> nbr3 ax ay az q c = None /\ in_layer3 q (sh3 A (geo q) r)).
Proof.
  intros Hp Hb E C (Nrx & Nry & Nrz). pose proof (nbr3_lt p b q Hp Hb E) as Hq. apply nbr3_spec in E; auto. destruct E as [_ W].
  unfold geo3 in *. fold (c3x p) (c3y p) (c3z p) in *. fold (c3x q) (c3y q) (c3z q) in *. cbn [cl3 sh3 px py pz] in *.
  set (gxp := ax_geo ax mx th dx (c3x p)) in *. set (gyp := ax_geo ay my th dy (c3y p)) in *. set (gzp := ax_geo az mz th dz (c3z p)) in *.
  set (gxq := ax_geo ax mx th dx (c3x q)) in *. set (gyq := ax_geo ay my th dy (c3y q)) in *. set (gzq := ax_geo az mz th dz (c3z q)) in *.
  pose proof (classify3_dirs gxp gyp gzp (px A r) (py A r) (pz A r)) as Cd. rewrite C in Cd. destruct Cd as [_ Cd]. rewrite Cd in W.
  cbn [wrap_all add] in W.
  destruct (wrap ax _) as [k1|] eqn:W1 in W; [|discriminate]. destruct (wrap ay _) as [k2|] eqn:W2 in W; [|discriminate].
  destruct (wrap az _) as [k3|] eqn:W3 in W; [|discriminate]. inversion W; subst k1 k2 k3; clear W.
  pose proof (coords3 p Hp) as (Hx & Hy & Hz & _).
  pose proof (Forall_inv Pxyz) as P1. pose proof (Forall_inv (Forall_inv_tail Pxyz)) as P2. pose proof (Forall_inv (Forall_inv_tail (Forall_inv_tail Pxyz))) as P3.
  pose proof (axis_arrival ax mx th dx (c3x p) (px A r) (c3x q) P1 Hx Mx Th Dx Nrx W1) as [X1 X2].
  pose proof (axis_arrival ay my th dy (c3y p) (py A r) (c3y q) P2 Hy My Th Dy Nry W2) as [Y1 Y2].
  pose proof (axis_arrival az mz th dz (c3z p) (pz A r) (c3z q) P3 Hz Mz Th Dz Nrz W3) as [Z1 Z2].
  fold gxq in X1, X2. fold gyq in Y1, Y2. fold gzq in Z1, Z2.
  split; [split; [assumption|split; assumption]|]. intros c Cc. 
  pose proof (classify3_dirs gxq gyq gzq (handle_periodic gxq (px A r)) (handle_periodic gyq (py A r)) (handle_periodic gzq (pz A r))) as Cd'.
  rewrite Cc in Cd'. destruct Cd' as [Hc Cd'].
  assert (WN : wrap_all [ax; ay; az] (add [c3x q; c3y q; c3z q] (nth c bounds3 [])) = None /\
     in_layer3 q (mkRow A (handle_periodic gxq (px A r)) (handle_periodic gyq (py A r)) (handle_periodic gzq (pz A r)) (other A r))).
  { unfold in_layer3. cbn [px py pz]. rewrite Cd'. cbn [add wrap_all].
    destruct (Z.eq_dec (dir1 gxq (handle_periodic gxq (px A r))) 0) as [E1|E1];
    destruct (Z.eq_dec (dir1 gyq (handle_periodic gyq (py A r))) 0) as [E2|E2];
    destruct (Z.eq_dec (dir1 gzq (handle_periodic gzq (pz A r))) 0) as [E3|E3].
    1: { exfalso. rewrite E1, E2, E3 in Cd'. revert Cd'. now apply bounds3_nonzero. }
    1: { destruct (Z2 E3) as [F1 F2]. rewrite F1. split; [repeat match goal with |- context [match wrap ?a ?e with _ => _ end] => destruct (wrap a e) end; reflexivity|auto]. }
    1,2: destruct (Y2 E2) as [F1 F2]; rewrite F1; split; [repeat match goal with |- context [match wrap ?a ?e with _ => _ end] => destruct (wrap a e) end; reflexivity|auto].
    all: destruct (X2 E1) as [F1 F2]; rewrite F1; split; [reflexivity|auto]. }
  destruct WN as [WN IL]. split; [|exact IL]. destruct (nbr3 ax ay az q c) as [q'|] eqn:E; auto. apply nbr3_spec in E; auto. destruct E as [_ E]. congruence.
Qed.
End D3.

(** *** process assignment *)
Lemma remote_of_ok n nb opp nbr rank : nbr_symmetric n nb opp nbr -> remote_ok n nb opp nbr (remote_of rank nbr).
Proof.
  intros Sym p b Hp Hb. unfold remote_of. split.
  - destruct (nbr p b); [discriminate|discriminate].
  - intros q E. destruct (Sym p b q Hp Hb E) as (_ & _ & _ & E'). rewrite E, E', (Nat.eqb_sym (rank q)). reflexivity.
Qed.
Lemma inside_axis a m th dx k x : 1 <= ax_n a -> 0 <= th -> (0 < dx)%Q -> out1 (ax_geo a m th dx k) x = false ->
  in_cells' m dx k x /\ ~ in_layer a m th dx k x.
Proof.
  intros Hn Hth D O. destruct x as [v|]; [|split; [exact I|intros []]].
  unfold out1 in O. apply orb_false_iff in O. destruct O as [B1 B2]. apply below_false in B1. apply above_false in B2.
  pose proof (geo_lo a m th dx k Hn) as GL. pose proof (geo_hi a m th dx k Hn) as GH.
  pose proof (layer_nonneg _ dx (lo_layer_nonneg a th k Hth) D) as LN. pose proof (layer_nonneg _ dx (hi_layer_nonneg a th k Hth) D) as HN.
  split; [split; lra|]. intros [(-> & P & L)|(-> & P & L)].
  - unfold lo_layer in GL. rewrite P in GL. cbn [bc_eqb andb Z.eqb] in GL. lra.
  - unfold hi_layer in GH. rewrite P, Z.eqb_refl in GH. cbn [bc_eqb andb] in GH. replace (ax_n a - 1 + 1) with (ax_n a) in GH by lia. lra.
Qed.
