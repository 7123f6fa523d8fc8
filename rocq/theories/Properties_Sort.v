(** C01-C03: the per-cell particle sort.  See S_Sort2D for the vocabulary. *)
From Verif Require Import Base M_Sort2D S_Sort2D P_Sort2D.

(** Hypotheses shared by the theorems, all guaranteed by the allocation code
    (particle_sort.py:91-172, particles.py:118-139): a non-empty grid, equally long arrays, scratch
    buffers at least as long as the particle arrays, x and y among the sorted attributes. *)
Definition sortable {V} (kx ky nx ny : nat) (buf : list V) (dbuf : list bool) (s : store V) : Prop :=
  0 < nx /\ 0 < ny /\ rectangular s /\ length (dead s) <= length buf /\
  length (dead s) <= length dbuf /\ kx < length (cols s) /\ ky < length (cols s).

(** C01: sorting loses, duplicates and mixes up nothing: the slots afterwards are a permutation of
    the slots before, each with all of its attributes and its dead flag, whatever the content of
    the scratch buffers. *)
Theorem C01_sort_permutes_whole_particles :
  forall V (d : V) fx fy kx ky nx ny reverse buf dbuf (s : store V),
  sortable kx ky nx ny buf dbuf s ->
  let r := sort_patch d fx fy kx ky nx ny reverse buf dbuf s in
  Permutation (rows d (s_store r)) (rows d s) /\ rectangular (s_store r) /\
  length (cols (s_store r)) = length (cols s).
Proof.
  intros V d fx fy kx ky nx ny reverse buf dbuf s (H1 & H2 & H3 & H4 & H5 & H6 & H7).
  exact (sort_permutes_rows d fx fy kx ky nx ny reverse buf dbuf s H1 H2 H3 H4 H5 H6 H7).
Qed.

(** C02: after the sort, an alive particle is in the published slice of bucket [b] iff [b] is the
    bucket of its cell ... *)
Theorem C02_slices_are_the_buckets :
  forall V (d : V) fx fy kx ky nx ny reverse buf dbuf (s : store V),
  sortable kx ky nx ny buf dbuf s ->
  let r := sort_patch d fx fy kx ky nx ny reverse buf dbuf s in
  forall i b, alive_at (s_store r) i -> b < nx * ny ->
  (nth b (s_min r) 0 <= i < nth b (s_max r) 0 <->
   home nx ny reverse (cell_x d fx kx (s_store r) i) (cell_y d fy ky (s_store r) i) b).
Proof.
  intros V d fx fy kx ky nx ny reverse buf dbuf s (H1 & H2 & H3 & H4 & H5 & H6 & H7).
  exact (sort_slices d fx fy kx ky nx ny reverse buf dbuf s H1 H2 H3 H4 H5 H6 H7).
Qed.

(** ... and the slices tile the particle arrays in bucket order. *)
Theorem C02_slices_tile_the_arrays :
  forall V (d : V) fx fy kx ky nx ny reverse buf dbuf (s : store V),
  sortable kx ky nx ny buf dbuf s ->
  let r := sort_patch d fx fy kx ky nx ny reverse buf dbuf s in
  length (s_min r) = nx * ny /\ length (s_max r) = nx * ny /\
  nth 0 (s_min r) 0 = 0 /\
  (forall b, S b < nx * ny -> nth b (s_max r) 0 = nth (S b) (s_min r) 0) /\
  nth (nx * ny - 1) (s_max r) 0 = length (dead s) /\
  (forall b, b < nx * ny -> nth b (s_min r) 0 <= nth b (s_max r) 0).
Proof.
  intros V d fx fy kx ky nx ny reverse buf dbuf s (H1 & H2 & H3 & H4 & H5 & H6 & H7).
  exact (sort_slices_tile d fx fy kx ky nx ny reverse buf dbuf s H1 H2 H3 H4 H5 H6 H7).
Qed.

(** C03: a particle that already is in the slice of its bucket is not moved; *)
Theorem C03_placed_particles_stay :
  forall V (d : V) fx fy kx ky nx ny reverse buf dbuf (s : store V),
  sortable kx ky nx ny buf dbuf s ->
  let r := sort_patch d fx fy kx ky nx ny reverse buf dbuf s in
  forall i b, alive_at s i -> b < nx * ny ->
  home nx ny reverse (cell_x d fx kx s i) (cell_y d fy ky s i) b ->
  nth b (s_min r) 0 <= i < nth b (s_max r) 0 ->
  row d (s_store r) i = row d s i.
Proof.
  intros V d fx fy kx ky nx ny reverse buf dbuf s (H1 & H2 & H3 & H4 & H5 & H6 & H7).
  exact (sort_keeps_placed d fx fy kx ky nx ny reverse buf dbuf s H1 H2 H3 H4 H5).
Qed.

(** the returned count bounds the number of slots whose content changed, and zero means that
    nothing was touched; *)
Theorem C03_returned_count :
  forall V (d : V) fx fy kx ky nx ny reverse buf dbuf (s : store V),
  sortable kx ky nx ny buf dbuf s ->
  let r := sort_patch d fx fy kx ky nx ny reverse buf dbuf s in
  (forall l, NoDup l ->
     (forall i, In i l -> i < length (dead s) /\ row d (s_store r) i <> row d s i) ->
     length l <= s_nbuf r) /\
  s_nbuf r <= length (dead s) /\ (s_nbuf r = 0 -> s_store r = s).
Proof.
  intros V d fx fy kx ky nx ny reverse buf dbuf s (H1 & H2 & H3 & H4 & H5 & H6 & H7).
  exact (sort_count_moved d fx fy kx ky nx ny reverse buf dbuf s H1 H2 H3 H4 H5 H6 H7).
Qed.

(** particles already in bucket order are left alone (dead particles may be anywhere); *)
Theorem C03_sorted_input_untouched :
  forall V (d : V) fx fy kx ky nx ny reverse buf dbuf (s : store V),
  sortable kx ky nx ny buf dbuf s ->
  (forall i j bi bj, i < j -> alive_at s i -> alive_at s j ->
     home nx ny reverse (cell_x d fx kx s i) (cell_y d fy ky s i) bi ->
     home nx ny reverse (cell_x d fx kx s j) (cell_y d fy ky s j) bj -> bi <= bj) ->
  let r := sort_patch d fx fy kx ky nx ny reverse buf dbuf s in
  s_nbuf r = 0 /\ s_store r = s.
Proof.
  intros V d fx fy kx ky nx ny reverse buf dbuf s (H1 & H2 & H3 & H4 & H5 & H6 & H7).
  exact (sort_noop d fx fy kx ky nx ny reverse buf dbuf s H1 H2 H3 H4 H5 H6 H7).
Qed.

(** in particular sorting again moves nothing. *)
Theorem C03_sort_idempotent :
  forall V (d : V) fx fy kx ky nx ny reverse buf dbuf buf2 dbuf2 (s : store V),
  sortable kx ky nx ny buf dbuf s ->
  length (dead s) <= length buf2 -> length (dead s) <= length dbuf2 ->
  let r := sort_patch d fx fy kx ky nx ny reverse buf dbuf s in
  let r2 := sort_patch d fx fy kx ky nx ny reverse buf2 dbuf2 (s_store r) in
  s_nbuf r2 = 0 /\ s_store r2 = s_store r.
Proof.
  intros V d fx fy kx ky nx ny reverse buf dbuf buf2 dbuf2 s (H1 & H2 & H3 & H4 & H5 & H6 & H7) H8 H9.
  exact (sort_idempotent d fx fy kx ky nx ny reverse buf dbuf buf2 dbuf2 s H1 H2 H3 H4 H5 H8 H9 H6 H7).
Qed.

(** Non-vacuity: a 2x2 grid, six slots, one dead, one out of the grid; the attribute values are the
    cells themselves plus a tag column. *)
Definition ex_store : store Z :=
  mkStore [[1;0;1;0;0;7]; [1;0;0;0;1;0]; [10;11;12;13;14;15]]%Z [false;false;true;false;false;false].
Example ex_sortable : sortable 0 1 2 2 (repeat 99%Z 6) (repeat true 6) ex_store.
Proof.
  unfold sortable, ex_store; cbn. repeat split; try lia.
  intros c [<-|[<-|[<-|[]]]]; reflexivity.
Qed.
Example ex_sorted :
  let r := sort_patch 0%Z (fun x => x) (fun y => y) 0 1 2 2 false (repeat 99%Z 6) (repeat true 6) ex_store in
  s_nbuf r = 3 /\ nth 2 (cols (s_store r)) [] = [13;11;12;14;10;15]%Z /\
  dead (s_store r) = [false;false;true;false;false;false] /\
  s_min r = [0;3;4;4] /\ s_max r = [3;4;4;6].
Proof. vm_compute. repeat split; reflexivity. Qed.

Print Assumptions C01_sort_permutes_whole_particles.
Print Assumptions C02_slices_are_the_buckets.
Print Assumptions C02_slices_tile_the_arrays.
Print Assumptions C03_placed_particles_stay.
Print Assumptions C03_returned_count.
Print Assumptions C03_sorted_input_untouched.
Print Assumptions C03_sort_idempotent.
