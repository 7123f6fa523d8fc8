(** Theorems about automatic patch counts (C19, C55). *)
From Verif Require Import Base M_AutoPatch S_AutoPatch P_AutoPatch.
Open Scope Z_scope.

(** Whatever the grid, guard width, absorber and request: chosen counts split every axis exactly.  If any
    counts fit the request, the chosen ones do, and nothing that fits is as good in both patch number and
    squareness without being equal in both.  If nothing fits, the coarsest split is returned. *)
Theorem C19_patches_2d : forall nx ny guard thick least x y : Z,
  0 < nx -> 0 < ny -> 0 < guard -> 0 < thick ->
  auto_patch_2d nx ny guard thick least = Returns (x, y) ->
  splits nx x /\ splits ny y /\
  (forall x' y', fits2 nx ny guard thick least x' y' ->
     fits2 nx ny guard thick least x y /\
     (x' * y' <= x * y -> edge_diff2 nx ny x' y' <= edge_diff2 nx ny x y ->
      x' * y' = x * y /\ edge_diff2 nx ny x' y' = edge_diff2 nx ny x y)) /\
  ((forall x' y', ~ fits2 nx ny guard thick least x' y') ->
     forall x' y', splits nx x' -> splits ny y' -> x <= x' /\ y <= y').
Proof. intros nx ny guard thick least x y Hx Hy Hg Ht. exact (auto_patch_2d_spec nx ny guard thick least Hx Hy Hg Ht x y). Qed.
Print Assumptions C19_patches_2d.

Theorem C19_patches_3d : forall nx ny nz guard thick least x y z : Z,
  0 < nx -> 0 < ny -> 0 < nz -> 0 < guard -> 0 < thick ->
  auto_patch_3d nx ny nz guard thick least = Returns (x, y, z) ->
  splits nx x /\ splits ny y /\ splits nz z /\
  (forall x' y' z', fits3 nx ny nz guard thick least x' y' z' ->
     fits3 nx ny nz guard thick least x y z /\
     (x' * y' * z' <= x * y * z -> edge_diff3 nx ny nz x' y' z' <= edge_diff3 nx ny nz x y z ->
      x' * y' * z' = x * y * z /\ edge_diff3 nx ny nz x' y' z' = edge_diff3 nx ny nz x y z)) /\
  ((forall x' y' z', ~ fits3 nx ny nz guard thick least x' y' z') ->
     forall x' y' z', splits nx x' -> splits ny y' -> splits nz z' -> x <= x' /\ y <= y' /\ z <= z').
Proof. intros nx ny nz guard thick least x y z Hx Hy Hz Hg Ht. exact (auto_patch_3d_spec nx ny nz guard thick least Hx Hy Hz Hg Ht x y z). Qed.
Print Assumptions C19_patches_3d.

(** Counts are returned exactly when every axis can be split at all. *)
Theorem C19_defined_2d : forall nx ny guard thick least : Z,
  0 < nx -> 0 < ny -> 0 < guard -> 0 < thick ->
  (exists x y, splits nx x /\ splits ny y) <-> (exists x y, auto_patch_2d nx ny guard thick least = Returns (x, y)).
Proof. intros nx ny guard thick least Hx Hy Hg Ht. exact (auto_patch_2d_defined nx ny guard thick least Hx Hy Hg Ht). Qed.
Print Assumptions C19_defined_2d.
Theorem C19_defined_3d : forall nx ny nz guard thick least : Z,
  0 < nx -> 0 < ny -> 0 < nz -> 0 < guard -> 0 < thick ->
  (exists x y z, splits nx x /\ splits ny y /\ splits nz z) <->
  (exists x y z, auto_patch_3d nx ny nz guard thick least = Returns (x, y, z)).
Proof. intros nx ny nz guard thick least Hx Hy Hz Hg Ht. exact (auto_patch_3d_defined nx ny nz guard thick least Hx Hy Hz Hg Ht). Qed.
Print Assumptions C19_defined_3d.

(** 128 x 96 cells, guard 3, absorber 6, at least 16 patches: 4 x 4 patches of 32 x 24 cells *)
Example C19_example : auto_patch_2d 128 96 3 6 16 = Returns (4, 4) /\ fits2 128 96 3 6 16 4 4 /\
  auto_patch_3d 32 32 32 3 6 8 = Returns (2, 2, 2) /\ auto_patch_2d 128 96 3 6 17 = Returns (8, 3).
Proof.
  split; [reflexivity|]. split; [|split; reflexivity]. unfold fits2, splits, wide.
  split; [split; [lia|exists 32; reflexivity]|]. split; [split; [lia|exists 24; reflexivity]|]. split; [lia|]. left. cbn. lia.
Qed.

(** The stronger statements fail. *)
Definition patches_always_wide : Prop := forall nx ny guard thick least x y : Z,
  0 < nx -> 0 < ny -> 0 < guard -> 0 < thick -> least <= x * y ->
  auto_patch_2d nx ny guard thick least = Returns (x, y) ->
  wide nx guard thick x /\ wide ny guard thick y.
(** 100 x 8 cells, guard 3, absorber 6: ten columns by two rows, the rows 4 cells wide, thinner than the absorber
    and than twice the guard width (the test combines the axes with "or") *)
Theorem C55_thin_patches_refuted : ~ patches_always_wide.
Proof.
  intro H. specialize (H 100 8 3 6 20 10 2). destruct H as [_ [H _]]; try lia. vm_compute. reflexivity.
Qed.
Print Assumptions C55_thin_patches_refuted.

Definition always_defined : Prop := forall nx ny guard thick least : Z,
  0 < nx -> 0 < ny -> 0 < guard -> 0 < thick -> exists x y, auto_patch_2d nx ny guard thick least = Returns (x, y).
(** a prime number of cells along an axis ends in an index error *)
Theorem C55_prime_size_refuted : ~ always_defined.
Proof.
  intro H. destruct (H 101 100 3 6 1) as [x [y E]]; try lia. revert E. vm_compute. discriminate.
Qed.
Print Assumptions C55_prime_size_refuted.
