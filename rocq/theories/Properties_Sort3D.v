(** C01-C03 for the 3D sort, and the bucket numbering.  See S_Sort2D, S_Sort3D. *)
From Verif Require Import Base M_Sort2D M_Sort3D S_Sort2D S_Sort3D P_Sort2D P_Sort3D P_SortOrder.
From Coq Require Import QArith.
Local Open Scope nat_scope.

Definition sortable3 {V} (kx ky kz nx ny nz : nat) (buf : list V) (dbuf : list bool) (s : store V) : Prop :=
  0 < nx /\ 0 < ny /\ 0 < nz /\ rectangular s /\ length (dead s) <= length buf /\
  length (dead s) <= length dbuf /\ kx < length (cols s) /\ ky < length (cols s) /\ kz < length (cols s).

Theorem C01_sort3d_permutes_whole_particles :
  forall V (d : V) fx fy fz kx ky kz nx ny nz reverse buf dbuf (s : store V),
  sortable3 kx ky kz nx ny nz buf dbuf s ->
  let r := sort_patch3 d fx fy fz kx ky kz nx ny nz reverse buf dbuf s in
  Permutation (rows d (s_store r)) (rows d s) /\ rectangular (s_store r) /\
  length (cols (s_store r)) = length (cols s).
Proof.
  intros V d fx fy fz kx ky kz nx ny nz reverse buf dbuf s (H1 & H2 & H3 & H4 & H5 & H6 & H7 & H8 & H9).
  eapply P_Sort3D.sort_permutes_rows; eassumption.
Qed.
Theorem C02_slices_are_the_buckets_3d :
  forall V (d : V) fx fy fz kx ky kz nx ny nz reverse buf dbuf (s : store V),
  sortable3 kx ky kz nx ny nz buf dbuf s ->
  let r := sort_patch3 d fx fy fz kx ky kz nx ny nz reverse buf dbuf s in
  forall i b, alive_at (s_store r) i -> b < nx * (ny * nz) ->
  (nth b (s_min r) 0 <= i < nth b (s_max r) 0 <->
   home3 nx ny nz reverse (cell_x d fx kx (s_store r) i) (cell_y d fy ky (s_store r) i) (cell_z d fz kz (s_store r) i) b).
Proof.
  intros V d fx fy fz kx ky kz nx ny nz reverse buf dbuf s (H1 & H2 & H3 & H4 & H5 & H6 & H7 & H8 & H9). cbn zeta. intros i b Ha Hb.
  eapply P_Sort3D.sort_slices; eassumption.
Qed.
Theorem C02_slices_tile_the_arrays_3d :
  forall V (d : V) fx fy fz kx ky kz nx ny nz reverse buf dbuf (s : store V),
  sortable3 kx ky kz nx ny nz buf dbuf s ->
  let r := sort_patch3 d fx fy fz kx ky kz nx ny nz reverse buf dbuf s in
  length (s_min r) = nx * (ny * nz) /\ length (s_max r) = nx * (ny * nz) /\
  nth 0 (s_min r) 0 = 0 /\
  (forall b, S b < nx * (ny * nz) -> nth b (s_max r) 0 = nth (S b) (s_min r) 0) /\
  nth (nx * (ny * nz) - 1) (s_max r) 0 = length (dead s) /\
  (forall b, b < nx * (ny * nz) -> nth b (s_min r) 0 <= nth b (s_max r) 0).
Proof.
  intros V d fx fy fz kx ky kz nx ny nz reverse buf dbuf s (H1 & H2 & H3 & H4 & H5 & H6 & H7 & H8 & H9).
  eapply P_Sort3D.sort_slices_tile; eassumption.
Qed.
Theorem C03_placed_particles_stay_3d :
  forall V (d : V) fx fy fz kx ky kz nx ny nz reverse buf dbuf (s : store V),
  sortable3 kx ky kz nx ny nz buf dbuf s ->
  let r := sort_patch3 d fx fy fz kx ky kz nx ny nz reverse buf dbuf s in
  forall i b, alive_at s i -> b < nx * (ny * nz) ->
  home3 nx ny nz reverse (cell_x d fx kx s i) (cell_y d fy ky s i) (cell_z d fz kz s i) b ->
  nth b (s_min r) 0 <= i < nth b (s_max r) 0 ->
  row d (s_store r) i = row d s i.
Proof.
  intros V d fx fy fz kx ky kz nx ny nz reverse buf dbuf s (H1 & H2 & H3 & H4 & H5 & H6 & H7 & H8 & H9). cbn zeta. intros i b Ha Hb Hh Hs.
  eapply P_Sort3D.sort_keeps_placed; eassumption.
Qed.
Theorem C03_returned_count_3d :
  forall V (d : V) fx fy fz kx ky kz nx ny nz reverse buf dbuf (s : store V),
  sortable3 kx ky kz nx ny nz buf dbuf s ->
  let r := sort_patch3 d fx fy fz kx ky kz nx ny nz reverse buf dbuf s in
  (forall l, NoDup l ->
     (forall i, In i l -> i < length (dead s) /\ row d (s_store r) i <> row d s i) ->
     length l <= s_nbuf r) /\
  s_nbuf r <= length (dead s) /\ (s_nbuf r = 0 -> s_store r = s).
Proof.
  intros V d fx fy fz kx ky kz nx ny nz reverse buf dbuf s (H1 & H2 & H3 & H4 & H5 & H6 & H7 & H8 & H9).
  eapply P_Sort3D.sort_count_moved; eassumption.
Qed.
Theorem C03_sorted_input_untouched_3d :
  forall V (d : V) fx fy fz kx ky kz nx ny nz reverse buf dbuf (s : store V),
  sortable3 kx ky kz nx ny nz buf dbuf s ->
  (forall i j bi bj, i < j -> alive_at s i -> alive_at s j ->
     home3 nx ny nz reverse (cell_x d fx kx s i) (cell_y d fy ky s i) (cell_z d fz kz s i) bi ->
     home3 nx ny nz reverse (cell_x d fx kx s j) (cell_y d fy ky s j) (cell_z d fz kz s j) bj -> bi <= bj) ->
  let r := sort_patch3 d fx fy fz kx ky kz nx ny nz reverse buf dbuf s in
  s_nbuf r = 0 /\ s_store r = s.
Proof.
  intros V d fx fy fz kx ky kz nx ny nz reverse buf dbuf s (H1 & H2 & H3 & H4 & H5 & H6 & H7 & H8 & H9) Hs.
  eapply P_Sort3D.sort_noop; eassumption.
Qed.
Theorem C03_sort_idempotent_3d :
  forall V (d : V) fx fy fz kx ky kz nx ny nz reverse buf dbuf buf2 dbuf2 (s : store V),
  sortable3 kx ky kz nx ny nz buf dbuf s ->
  length (dead s) <= length buf2 -> length (dead s) <= length dbuf2 ->
  let r := sort_patch3 d fx fy fz kx ky kz nx ny nz reverse buf dbuf s in
  let r2 := sort_patch3 d fx fy fz kx ky kz nx ny nz reverse buf2 dbuf2 (s_store r) in
  s_nbuf r2 = 0 /\ s_store r2 = s_store r.
Proof.
  intros V d fx fy fz kx ky kz nx ny nz reverse buf dbuf buf2 dbuf2 s (H1 & H2 & H3 & H4 & H5 & H6 & H7 & H8 & H9) H10 H11.
  eapply P_Sort3D.sort_idempotent; eassumption.
Qed.

(** all species sorted with more than one bucket across share one numbering, whatever they contain and were given *)
Theorem C02_shared_numbering : forall ny nz o1 o2 p1 p2, (ny <> 1 \/ nz <> 1) ->
  decide_reverse ny nz o1 p1 = false /\ decide_reverse ny nz o2 p2 = false.
Proof.
  intros ny nz o1 o2 p1 p2 H. unfold decide_reverse. destruct (Nat.eqb_spec ny 1), (Nat.eqb_spec nz 1); cbn; auto. lia.
Qed.
(** with one bucket across and no request by the user, the mirrored numbering is used iff the live particles' weighted
    momentum is towards -x; in particular always when all of them move that way, never when none does *)
Theorem C03_order_by_drift : forall patches,
  decide_reverse 1 1 None patches = true <->
  (0 < qtotal (map fst (lives patches)) /\ qtotal (map (fun p => fst p * snd p) (lives patches)) < 0)%Q.
Proof. exact decide_spec. Qed.
Theorem C03_order_of_stream : forall patches,
  (lives patches <> [] -> Forall (fun p => 0 < fst p /\ snd p < 0)%Q (lives patches) -> decide_reverse 1 1 None patches = true) /\
  (Forall (fun p => 0 <= fst p /\ 0 <= snd p)%Q (lives patches) -> decide_reverse 1 1 None patches = false).
Proof. exact order_follows. Qed.
Example C03_drift_example :
  decide_reverse 1 1 None [[(false, (1, -3)); (true, (1, 9))]; [(false, (1, 1))]]%Q = true /\
  decide_reverse 1 1 None [[(false, (1, -3))]; [(false, (4, 1))]]%Q = false /\
  decide_reverse 4 1 (Some true) [[(false, (1, -3))]]%Q = false.
Proof. vm_compute. auto. Qed.

(** a 2x1x2 grid, five slots, one dead, one outside *)
Definition ex3_store : store Z :=
  mkStore [[1;0;1;0;7]; [0;0;0;0;0]; [1;1;0;0;0]; [10;11;12;13;14]]%Z [false;false;true;false;false].
Example ex3_sortable : sortable3 0 1 2 2 1 2 (repeat 99%Z 5) (repeat true 5) ex3_store.
Proof.
  unfold sortable3, ex3_store; cbn. repeat split; try lia.
  intros c [<-|[<-|[<-|[<-|[]]]]]; reflexivity.
Qed.
Example C01_example_3d :
  let r := sort_patch3 0%Z (fun x => x) (fun y => y) (fun z => z) 0 1 2 2 1 2 false (repeat 99%Z 5) (repeat true 5) ex3_store in
  s_nbuf r = 2 /\ nth 3 (cols (s_store r)) [] = [13;11;12;10;14]%Z /\
  s_min r = [0;1;3;3] /\ s_max r = [1;3;3;5].
Proof. vm_compute. repeat split; reflexivity. Qed.

Print Assumptions C01_sort3d_permutes_whole_particles.
Print Assumptions C02_slices_are_the_buckets_3d.
Print Assumptions C02_slices_tile_the_arrays_3d.
Print Assumptions C03_placed_particles_stay_3d.
Print Assumptions C03_returned_count_3d.
Print Assumptions C03_sorted_input_untouched_3d.
Print Assumptions C03_sort_idempotent_3d.
Print Assumptions C02_shared_numbering.
Print Assumptions C03_order_by_drift.
Print Assumptions C03_order_of_stream.
