(** Patch layout: neighbour tables (C12), owner tables (C41), absorbing layers (C43), tiling (C45). *)
From Verif Require Import Base M_Layout S_Layout P_Layout.
From Coq Require Import QArith.
Local Open Scope list_scope.
Local Open Scope Z_scope.

(** ** C12 *)
(** the opposite-side tables of the C code are the reversal of directions, and an involution; the tables list every direction *)
Theorem C12_opposite_tables :
  (forall i, (i < 8)%nat -> nth (nth i opposite2 0%nat) bounds2 [] = neg (nth i bounds2 []) /\ nth (nth i opposite2 0%nat) opposite2 0%nat = i) /\
  (forall i, (i < 26)%nat -> nth (nth i opposite3 0%nat) bounds3 [] = neg (nth i bounds3 []) /\ nth (nth i opposite3 0%nat) opposite3 0%nat = i) /\
  (forall dx dy, -1 <= dx <= 1 -> -1 <= dy <= 1 -> ~ (dx = 0 /\ dy = 0) -> In [dx; dy] bounds2) /\
  (forall dx dy dz, -1 <= dx <= 1 -> -1 <= dy <= 1 -> -1 <= dz <= 1 -> ~ (dx = 0 /\ dy = 0 /\ dz = 0) -> In [dx; dy; dz] bounds3).
Proof.
  split; [intros i H; apply opposite2_ok in H; tauto|]. split; [intros i H; apply opposite3_ok in H; tauto|].
  split; [intros dx dy; intros; apply bounds2_all; eauto 10|intros dx dy dz; intros; apply bounds3_all; exists dx, dy, dz; auto 10].
Qed.

(** every layout (any set of patches of any grid, any number of axes) whose axes have the same condition at both ends *)
Theorem C12_symmetric : forall axes m c a off b, patch_set axes m -> paired axes -> unit_offset axes off ->
  In (c, a) m -> neighbor axes m c off = Nb (Some b) ->
  exists c', In (c', b) m /\ neighbor axes m c' (neg off) = Nb (Some a).
Proof. exact neighbor_symmetric. Qed.

(** the layouts the simulation builds are such sets *)
Theorem C12_layouts : forall ax ay az mask,
  patch_set [ax; ay] (rect2 (ax_n ax) (ax_n ay)) /\ full_grid [ax; ay] (rect2 (ax_n ax) (ax_n ay)) /\
  patch_set [ax; ay; az] (rect3 (ax_n ax) (ax_n ay) (ax_n az)) /\ full_grid [ax; ay; az] (rect3 (ax_n ax) (ax_n ay) (ax_n az)) /\
  patch_set [ax; ay] (masked2 (ax_n ax) (ax_n ay) mask).
Proof.
  intros. destruct (rect2_patch_set ax ay). destruct (rect3_patch_set ax ay az). repeat (split; auto). all: apply masked2_patch_set.
Qed.

(** rectangular domains, any boundary conditions: no lookup error; a side has no neighbour exactly when it is an open boundary *)
Theorem C12_missing_iff_open : forall axes m c a off, patch_set axes m -> full_grid axes m -> unit_offset axes off -> In (c, a) m ->
  (neighbor axes m c off <> KeyErr) /\ (neighbor axes m c off = Nb None <-> leaves_open axes c off).
Proof. exact neighbor_full. Qed.

(** masked domains (open boundaries): a side has no neighbour exactly when it leaves the grid or the mask *)
Theorem C12_masked_missing : forall npx npy mask i j a dx dy,
  let axes := [mkAxis npx Pml Pml; mkAxis npy Pml Pml] in let m := masked2 npx npy mask in
  In ([i; j], a) m -> -1 <= dx <= 1 -> -1 <= dy <= 1 ->
  neighbor axes m [i; j] [dx; dy] <> KeyErr /\
  (neighbor axes m [i; j] [dx; dy] = Nb None <->
     ~ (0 <= i + dx < npx /\ 0 <= j + dy < npy /\ mask (i + dx) (j + dy) = true)).
Proof. exact masked_neighbor. Qed.

(** one axis periodic at one end and open at the other, which the configuration accepts: the relation is one-sided *)
Theorem C12_mixed_conditions_refuted :
  let axes := [mkAxis 3 Periodic Pml; mkAxis 1 Pml Pml] in let m := rect2 3 1 in
  neighbor axes m [0; 0] [-1; 0] = Nb (Some 2) /\ In ([2; 0], 2) m /\ neighbor axes m [2; 0] [1; 0] = Nb None.
Proof. cbv. intuition. Qed.

Example C12_example : let axes := [mkAxis 3 Periodic Periodic; mkAxis 2 Pml Pml] in let m := rect2 3 2 in
  neighbor axes m [0; 0] [-1; 1] = Nb (Some 5) /\ neighbor axes m [2; 1] [1; -1] = Nb (Some 0) /\ neighbor axes m [2; 1] [0; 1] = Nb None.
Proof. cbv. auto. Qed.
Example C12_single_patch_example : neighbor [mkAxis 1 Periodic Periodic; mkAxis 1 Periodic Periodic] (rect2 1 1) [0; 0] [1; 1] = Nb (Some 0).
Proof. reflexivity. Qed.
Example C12_masked_example : let mask := fun i j => negb ((i =? 1) && (j =? 0)) in let axes := [mkAxis 2 Pml Pml; mkAxis 2 Pml Pml] in
  masked2 2 2 mask = [([0; 0], 0); ([0; 1], 1); ([1; 1], 2)] /\
  neighbor axes (masked2 2 2 mask) [0; 0] [1; 0] = Nb None /\ neighbor axes (masked2 2 2 mask) [0; 0] [1; 1] = Nb (Some 2).
Proof. cbv. auto. Qed.

(** ** C41 *)
(** 2D. Start-up and rebalancing compute the tables from all patches (empty map); window moves compute them from the process' own
    patches with a map of every owner. Any mixture of the two that knows the owner of the neighbour gives the right tables. *)
Theorem C41_tables_2d : forall all local r given pmap p q, holds_own all local r -> In p local -> In q all ->
  (forall g, In g given -> In g all) ->
  (forall i k, In (i, k) pmap -> exists g, In g all /\ p_index g = i /\ p_rank g = k) ->
  (In q given \/ exists k, In (p_index q, k) pmap) ->
  side_handled all local r (p_index q) (neighbor_rank_2d given pmap p (Some (p_index q))) (neighbor_ipatch local (Some (p_index q))).
Proof. exact tables_2d. Qed.
(** 3D at start-up and after rebalancing: computed from all patches in index order *)
Theorem C41_tables_3d : forall all local r p q, holds_own all local r -> In p local -> In q all ->
  (forall k g, nth_error all k = Some g -> p_index g = Z.of_nat k) ->
  side_handled all local r (p_index q) (neighbor_rank_3d all [] p (Some (p_index q))) (neighbor_ipatch local (Some (p_index q))).
Proof. exact tables_3d. Qed.
(** a side without neighbour is in neither table *)
Theorem C41_absent_side : forall given pmap local p,
  neighbor_rank_2d given pmap p None = Rank None /\ neighbor_rank_3d given pmap p None = Rank None /\ neighbor_ipatch local None = None.
Proof. auto. Qed.
(** 3D window move on two processes: the 3D tables are computed from the local list, by position, ignoring the owner map *)
Theorem C41_3d_window_refuted :
  let all := [mkPatch 0 0; mkPatch 1 0; mkPatch 2 1; mkPatch 3 1] in
  let pmap := [(0, 0); (1, 0); (2, 1); (3, 1)] in
  let local := [mkPatch 2 1; mkPatch 3 1] in
  holds_own all local 1 /\
  neighbor_rank_3d local pmap (mkPatch 2 1) (Some 1) = Rank None /\ neighbor_ipatch local (Some 1) = None /\
  neighbor_rank_3d local pmap (mkPatch 2 1) (Some 3) = RankErr /\
  ~ side_handled all local 1 1 (neighbor_rank_3d local pmap (mkPatch 2 1) (Some 1)) (neighbor_ipatch local (Some 1)).
Proof.
  split; [|split; [reflexivity|split; [reflexivity|split; [reflexivity|]]]].
  - split; [repeat constructor; cbn; intuition discriminate|]. intro q. cbn. split.
    + intros [<-|[<-|[]]]; cbn; auto 6.
    + intros [[<-|[<-|[<-|[<-|[]]]]] H]; cbn in H; try discriminate; auto.
  - intros (q & Hq & E & [(H & _ & k & Hk & _)|(_ & H & _)]); cbn in *; discriminate.
Qed.
Example C41_example : let all := [mkPatch 0 0; mkPatch 1 1; mkPatch 2 0] in let local := [mkPatch 2 0; mkPatch 0 0] in
  holds_own all local 0 /\ neighbor_rank_2d local [(0, 0); (1, 1); (2, 0)] (mkPatch 0 0) (Some 1) = Rank (Some 1) /\ neighbor_ipatch local (Some 1) = None
  /\ neighbor_rank_3d all [] (mkPatch 0 0) (Some 2) = Rank None /\ neighbor_ipatch local (Some 2) = Some 0%nat.
Proof.
  split; [|cbv; auto]. split; [repeat constructor; cbn; intuition discriminate|]. intro q. cbn. split.
  - intros [<-|[<-|[]]]; cbn; auto 6.
  - intros [[<-|[<-|[<-|[]]]] H]; cbn in H; try discriminate; auto.
Qed.

(** ** C43 *)
Theorem C43_layers_2d : forall ax ay nx ny th i j a r m s, m = rect2 (ax_n ax) (ax_n ay) -> In ([i; j], a) m -> face2 s ->
  init_pml2 ax ay nx ny th i j = Some r ->
  (In s r <-> neighbor [ax; ay] m [i; j] (side_offset2 s) = Nb None).
Proof. exact pml2_faces. Qed.
Theorem C43_layers_3d : forall ax ay az nx ny th i j k a r m s, m = rect3 (ax_n ax) (ax_n ay) (ax_n az) -> In ([i; j; k], a) m ->
  init_pml3 ax ay az nx ny th i j k = Some r ->
  (In s r <-> neighbor [ax; ay; az] m [i; j; k] (side_offset3 s) = Nb None).
Proof. exact pml3_faces. Qed.
Theorem C43_layers_masked : forall nb nx ny th r s, face2 s -> init_pml_mask nb nx ny th = Some r ->
  (In s r <-> nb (side_offset2 s) = Nb None).
Proof. exact pml_mask_faces. Qed.
(** set-up does not fail when each patch is at least as large as the layer and no axis with two open ends has a single patch *)
Theorem C43_setup_2d : forall ax ay nx ny th i j a, In ([i; j], a) (rect2 (ax_n ax) (ax_n ay)) ->
  (2 <= ax_n ax \/ ax_lo ax = Periodic \/ ax_hi ax = Periodic) -> (2 <= ax_n ay \/ ax_lo ay = Periodic \/ ax_hi ay = Periodic) ->
  th <= nx -> th <= ny -> exists r, init_pml2 ax ay nx ny th i j = Some r.
Proof. exact pml2_succeeds. Qed.
Theorem C43_setup_3d : forall ax ay az nx ny th i j k a, In ([i; j; k], a) (rect3 (ax_n ax) (ax_n ay) (ax_n az)) ->
  (2 <= ax_n ax \/ ax_lo ax = Periodic \/ ax_hi ax = Periodic) -> (2 <= ax_n ay \/ ax_lo ay = Periodic \/ ax_hi ay = Periodic) ->
  (2 <= ax_n az \/ ax_lo az = Periodic \/ ax_hi az = Periodic) ->
  th <= nx -> th <= ny -> exists r, init_pml3 ax ay az nx ny th i j k = Some r.
Proof. exact pml3_succeeds. Qed.
Example C43_example :
  init_pml2 (mkAxis 3 Pml Pml) (mkAxis 2 Periodic Periodic) 16 16 6 0 1 = Some [PXmin] /\
  init_pml2 (mkAxis 3 Pml Pml) (mkAxis 2 Pml Pml) 16 16 6 2 1 = Some [PXmax; PYmax] /\
  init_pml2 (mkAxis 1 Pml Pml) (mkAxis 2 Pml Pml) 16 16 6 0 1 = None /\
  init_pml3 (mkAxis 2 Pml Pml) (mkAxis 2 Pml Pml) (mkAxis 2 Pml Pml) 8 8 6 0 1 1 = Some [PXmin; PYmax; PZmax] /\
  init_pml_mask (neighbor [mkAxis 2 Pml Pml; mkAxis 2 Pml Pml] (masked2 2 2 (fun i j => negb ((i =? 1) && (j =? 0)))) [1; 1]) 8 8 6 = None /\
  init_pml_mask (neighbor [mkAxis 3 Pml Pml; mkAxis 3 Pml Pml] (masked2 3 3 (fun i j => negb ((i =? 2) && (j =? 2)))) [1; 2]) 8 8 6 = Some [PXmax; PYmax].
Proof. cbv. intuition. Qed.

(** ** C45 *)
Theorem C45_axis_is_global : forall n np i l dx, 1 <= np -> n mod np = 0 ->
  (patch_axis n np i l dx == inject_Z (i * cells_per_patch n np + l) * dx)%Q.
Proof. exact patch_axis_global. Qed.
Theorem C45_cell_in_one_patch : forall n np g, 1 <= np -> n mod np = 0 -> 0 <= g < n ->
  exists i l, (0 <= i < np /\ 0 <= l < cells_per_patch n np /\ g = i * cells_per_patch n np + l) /\
  forall i' l', 0 <= l' < cells_per_patch n np -> g = i' * cells_per_patch n np + l' -> i' = i /\ l' = l.
Proof. exact cell_unique. Qed.
Theorem C45_patches_touch : forall n np i dx, 1 <= np -> n mod np = 0 ->
  (patch_xmax n np i 0 dx + dx == patch_xmin n np (i + 1) 0 dx)%Q.
Proof. exact patches_touch. Qed.
(** indices number the grid positions without gaps or repetitions *)
Theorem C45_index_bijection_2d : forall npx npy, 0 <= npx -> 0 <= npy ->
  (forall ix, (exists c, In (c, ix) (rect2 npx npy)) <-> 0 <= ix < npx * npy) /\
  (forall i j, 0 <= i < npx -> 0 <= j < npy -> exists ix, In ([i; j], ix) (rect2 npx npy)) /\
  (forall c c' ix, In (c, ix) (rect2 npx npy) -> In (c', ix) (rect2 npx npy) -> c = c') /\
  (forall c ix ix', In (c, ix) (rect2 npx npy) -> In (c, ix') (rect2 npx npy) -> ix = ix').
Proof.
  intros npx npy Hx Hy. split; [intro ix; rewrite index2_range; tauto|]. split; [intros i j Hi Hj; exists (i + j * npx); apply rect2_in; exists i, j; auto|].
  split; intros.
  - apply (nodup_snd (rect2 npx npy) c c' ix); auto. apply (rect2_patch_set (mkAxis npx Pml Pml) (mkAxis npy Pml Pml)).
  - apply rect2_in in H, H0. destruct H as (i & j & -> & -> & _), H0 as (i' & j' & E & -> & _). inversion E; subst; auto.
Qed.
Theorem C45_index_bijection_3d : forall npx npy npz, 0 <= npx -> 0 <= npy -> 0 <= npz ->
  (forall ix, (exists c, In (c, ix) (rect3 npx npy npz)) <-> 0 <= ix < npx * npy * npz) /\
  (forall i j k, 0 <= i < npx -> 0 <= j < npy -> 0 <= k < npz -> exists ix, In ([i; j; k], ix) (rect3 npx npy npz)) /\
  (forall c c' ix, In (c, ix) (rect3 npx npy npz) -> In (c', ix) (rect3 npx npy npz) -> c = c') /\
  (forall c ix ix', In (c, ix) (rect3 npx npy npz) -> In (c, ix') (rect3 npx npy npz) -> ix = ix').
Proof.
  intros npx npy npz Hx Hy Hz. split; [intro ix; now apply index3_range|]. split; [intros i j k Hi Hj Hk; exists (i + j * npx + k * npx * npy); apply rect3_in; exists i, j, k; auto 6|].
  split; intros.
  - apply (nodup_snd (rect3 npx npy npz) c c' ix); auto. apply (rect3_patch_set (mkAxis npx Pml Pml) (mkAxis npy Pml Pml) (mkAxis npz Pml Pml)).
  - apply rect3_in in H, H0. destruct H as (i & j & k & -> & -> & _), H0 as (i' & j' & k' & E & -> & _). inversion E; subst; auto.
Qed.
Example C45_example : cells_per_patch 12 3 = 4 /\ (patch_axis 12 3 2 1 (1#2) == 9 # 2)%Q /\ map snd (rect3 2 1 2) = [0; 1; 2; 3].
Proof. cbv. auto. Qed.

Print Assumptions C12_symmetric. Print Assumptions C12_missing_iff_open. Print Assumptions C12_masked_missing.
Print Assumptions C41_tables_2d. Print Assumptions C41_tables_3d. Print Assumptions C43_layers_2d. Print Assumptions C43_layers_3d.
Print Assumptions C45_axis_is_global. Print Assumptions C45_index_bijection_3d.
