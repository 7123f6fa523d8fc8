(** C29-C32: sliced output, slice normalisation, particle output, gathered fields.
    Vocabulary: S_Slices, S_Output. *)
From Verif Require Import Base M_Slices S_Slices P_Slices M_Output S_Output P_Output.

(** C30: a selection that is accepted selects on every axis exactly what Python indexing selects;
    the normalised slice is in range. *)
Theorem C30_accepted_selection_is_python_indexing :
  forall dims spec ss,
  (forall k, k < length dims -> (0 <= nth k dims 0)%Z) ->
  normalize_slice dims spec = Ok (Some ss) ->
  exists us, (spec = UTuple us \/ exists u, spec = USingle u /\ us = [u]) /\
  length us = length dims /\ length ss = length dims /\
  forall k, k < length dims ->
    wf_slice (nth k dims 0%Z) (nth k ss (mkSlice 0 0 0)) /\
    match nth k us UOther with
    | UInt i0 => forall i, selects (nth k ss (mkSlice 0 0 0)) i <-> py_item (nth k dims 0%Z) i0 i
    | USlice a b c => forall i, selects (nth k ss (mkSlice 0 0 0)) i <-> py_selects (nth k dims 0%Z) a b c i
    | _ => False
    end.
Proof. exact normalize_slice_ok. Qed.

(** C30: a selection with one element per axis is rejected exactly when some axis is not an
    int/slice, has an index out of range, a step that is not positive, or selects nothing. *)
Theorem C30_rejected_exactly_when_invalid_or_empty :
  forall dims us,
  (forall k, k < length dims -> (0 <= nth k dims 0)%Z) ->
  length us = length dims ->
  (exists e, normalize_slice dims (UTuple us) = Err e) <->
  exists k, k < length dims /\
    match nth k us UOther with
    | UInt i0 => ~ exists i, py_item (nth k dims 0%Z) i0 i
    | USlice a b c => (exists st, c = Some st /\ (st <= 0)%Z) \/ ~ exists i, py_selects (nth k dims 0%Z) a b c i
    | _ => True
    end.
Proof. exact normalize_slice_err. Qed.

Example ex_C30 : normalize_slice [10; 20; 4]%Z (UTuple [USlice (Some (-7)%Z) None (Some 3%Z); UInt (-1); USlice None (Some 99%Z) None])
  = Ok (Some [mkSlice 3 10 3; mkSlice 19 20 1; mkSlice 0 4 1])%Z.
Proof. reflexivity. Qed.

(** C29: for any number of axes, any patch size per axis and any patches at distinct grid positions
    written in any order, every write is accepted, each output cell gets the value of its global cell
    from the patch that owns it, and cells of absent patches keep the initial content. *)
Theorem C29_sliced_write_places_every_cell :
  forall V dims szs ms ss (ps : list (list Z * (list Z -> V))) out,
  wf_axes dims szs ms ss ->
  (forall p, In p ps -> coords_ok szs (fst p)) -> NoDup (map fst ps) ->
  exists out', write_patches ss szs ms ps out = Some out' /\
  (forall p j, In p ps -> in_shape ss j -> owner szs (gcell ss j) = fst p ->
     out' j = snd p (within szs (gcell ss j))) /\
  (forall j, (in_shape ss j -> ~ In (owner szs (gcell ss j)) (map fst ps)) -> out' j = out j).
Proof. intros V dims szs ms ss ps out Hw. exact (write_patches_spec dims szs ms ss Hw ps out). Qed.

(** C29: the dataset has exactly one cell per selected index. *)
Theorem C29_dataset_shape :
  forall dims szs ms ss, wf_axes dims szs ms ss ->
  length (out_shape ss) = length dims /\
  forall j, in_shape ss j <-> length j = length ss /\
    forall k, k < length ss -> (0 <= nth k j 0 < nth k (out_shape ss) 0)%Z.
Proof. exact out_shape_spec. Qed.

Example ex_C29 : (* 10 cells, patches of 5, [1:9:3] -> cells 1, 4, 7 *)
  wf_axes [10]%Z [5]%Z [9]%Z [mkSlice 1 9 3] /\
  match write_patches [mkSlice 1 9 3] [5]%Z [9]%Z
     [([1]%Z, fun i => (100 + hd 0 i)%Z); ([0]%Z, fun i => hd 0%Z i)] (fun _ => (-1)%Z) with
  | Some o => map (fun j => o [j]) [0; 1; 2; 3]%Z = [1; 4; 102; -1]%Z
  | None => False
  end.
Proof. split; [repeat constructor; cbn; lia|reflexivity]. Qed.

(** C31: for every order in which the assignments of all processes reach the file, all assignments
    are accepted and row [n] of every dataset belongs to the n-th alive particle ... *)
Theorem C31_particle_file_rows :
  forall V (zero : V) attrs (ranks : list (list (ppatch V))) ws,
  (forall p a, In p (concat ranks) -> In a attrs -> length (pp_attr p a) = length (pp_dead p)) ->
  Permutation ws (all_writes attrs ranks) ->
  exists f, apply_ws ws (fresh_file zero ranks) = Some f /\
  forall a, In a attrs -> f a = map (attr_value zero ranks a) (alive_all ranks).
Proof. exact (@save_particles_ok). Qed.

(** ... where the enumeration lists every alive particle exactly once and no dead one. *)
Theorem C31_rows_are_the_alive_particles :
  forall V (ranks : list (list (ppatch V))),
  NoDup (alive_all ranks) /\
  forall r i s, In (r, i, s) (alive_all ranks) <->
    r < length ranks /\ i < length (nth r ranks []) /\
    s < length (pp_dead (nth i (nth r ranks []) (mkPP [] (fun _ => [])))) /\
    nth s (pp_dead (nth i (nth r ranks []) (mkPP [] (fun _ => [])))) true = false.
Proof. exact (@alive_all_spec). Qed.

Definition ex_ranks : list (list (ppatch nat)) :=
  [[mkPP [false; true] (fun a => [a; 9]); mkPP [] (fun _ => [])]; [mkPP [true; false; false] (fun a => [9; a + 20; a + 30])]].
Example ex_C31 :
  match apply_ws (rev (all_writes [1; 2] ex_ranks)) (fresh_file 0 ex_ranks) with
  | Some f => f 1 = [1; 21; 31] /\ f 2 = [2; 22; 32]
  | None => False
  end.
Proof. split; reflexivity. Qed.

(** C32 (2D): with every grid position held by one patch the gathered array has the owner's interior
    value in every cell, whatever rank holds the patch. *)
Theorem C32_gather_2d :
  forall V (zero nan : V) nxp nyp npx npy ng (ranks : list (list (fpatch V))),
  0 < nxp -> 0 < nyp -> 0 < ng ->
  NoDup (map f_pos (concat ranks)) -> NoDup (map f_index (concat ranks)) -> ranks <> [] ->
  (forall i j, i < npx -> j < npy -> In (i, j) (map f_pos (concat ranks))) ->
  exists out, get_fields_2d zero nan nxp nyp npx npy ng None ranks = Done out /\
  forall p x y, In p (concat ranks) -> x < npx * nxp -> y < npy * nyp -> f_pos p = (x / nxp, y / nyp) ->
    out x y = f_data p (x mod nxp) (y mod nyp).
Proof.
  intros V zero nan nxp nyp npx npy ng ranks H1 H2 H3 H4 H5 H6.
  exact (get_fields_2d_ok zero nan nxp nyp npx npy ng ranks H1 H2 H3 H4 H5 H6).
Qed.

(** C32 (2D, masked domain): cells outside of the mask read NaN, the others their owner's value. *)
Theorem C32_gather_2d_masked :
  forall V (zero nan : V) nxp nyp npx npy ng (ranks : list (list (fpatch V))) (m : nat -> nat -> bool),
  0 < nxp -> 0 < nyp -> 0 < ng ->
  NoDup (map f_pos (concat ranks)) -> NoDup (map f_index (concat ranks)) -> ranks <> [] ->
  (forall x y, x < npx * nxp -> y < npy * nyp -> (m x y = true <-> In (x / nxp, y / nyp) (map f_pos (concat ranks)))) ->
  exists out, get_fields_2d zero nan nxp nyp npx npy ng (Some m) ranks = Done out /\
  (forall p x y, In p (concat ranks) -> x < npx * nxp -> y < npy * nyp -> f_pos p = (x / nxp, y / nyp) ->
    out x y = f_data p (x mod nxp) (y mod nyp)) /\
  (forall x y, x < npx * nxp -> y < npy * nyp -> ~ In (x / nxp, y / nyp) (map f_pos (concat ranks)) -> out x y = nan).
Proof.
  intros V zero nan nxp nyp npx npy ng ranks m H1 H2 H3 H4 H5 H6.
  exact (get_fields_2d_masked zero nan nxp nyp npx npy ng ranks H1 H2 H3 H4 H5 H6 m).
Qed.

(** C32 (3D): the plane nearest to the requested position is returned for every patch that is held
    by the root and whose node range contains the position.  Missing with respect to the full
    property: patches held by other processes and positions between two patches, refuted below. *)
Theorem C32_gather_3d_partial :
  forall V (zero : V) nxp nyp nzp npx npy npz ng z2 (ranks : list (list (gpatch V))),
  0 < nxp -> 0 < nyp -> 0 < nzp ->
  NoDup (map g_pos (concat ranks)) -> NoDup (map g_index (concat ranks)) -> ranks <> [] ->
  (forall p, In p (concat ranks) -> fst (fst (g_pos p)) < npx /\ snd (fst (g_pos p)) < npy /\ snd (g_pos p) < npz) ->
  exists out, get_fields_3d zero nxp nyp nzp npx npy npz ng z2 ranks = Done out /\
  forall p x y, In p (hd [] ranks) -> fst (g_pos p) = (x / nxp, y / nyp) ->
    2 * (snd (g_pos p) * nzp + g_lo p) <= z2 <= 2 * (snd (g_pos p) * nzp + nzp - 1 - g_hi p) ->
    out x y = g_data p (x mod nxp) (y mod nyp) ((z2 + 1) / 2 - snd (g_pos p) * nzp).
Proof. exact (@gather_3d_partial). Qed.

(** C32 (3D) refuted: the same patch content gives another result when a patch is held by another
    process (the sender adds the guard width to the plane number).  One patch of 1x1x2 cells with
    value 10*k at plane k, guard width 1. *)
Theorem C32_gather_3d_depends_on_rank_refuted :
  exists (p q : gpatch nat) o1 o2,
    get_fields_3d 0 1 1 4 2 1 1 1 0 [[p; q]] = Done o1 /\
    get_fields_3d 0 1 1 4 2 1 1 1 0 [[p]; [q]] = Done o2 /\ o1 1 0 = 0 /\ o2 1 0 = 10.
Proof. exact gather_3d_rank_witness. Qed.

(** C32 (3D) refuted: a position inside of the domain, half way between the last node of one patch
    and the first node of the next, matches no patch and yields zeros. *)
Theorem C32_gather_3d_gap_refuted :
  exists (ps : list (gpatch nat)) o,
    (forall x y z p, In p ps -> g_data p x y z <> 0) /\
    (forall k, k < 2 -> In (0, 0, k) (map g_pos ps)) /\
    get_fields_3d 0 1 1 4 1 1 2 1 7 [ps] = Done o /\ o 0 0 = 0.
Proof. exact gather_3d_gap_witness. Qed.

Definition exg (k : nat) : gpatch nat := mkGP k (k, 0, 0) 0 0 (fun _ _ z => 10 * z).
Example ex_C32 :
  match get_fields_3d 0 1 1 4 2 1 1 1 4 [[exg 0]; [exg 1]] with Done o => o 0 0 = 20 | _ => False end.
Proof. reflexivity. Qed.
Definition exf (k : nat) : fpatch nat := mkFP (7 + k) (k, 0) (fun x y => 100 * k + 10 * x + y).
Example ex_C32_2d :
  match get_fields_2d 0 999 2 2 2 1 2 None [[exf 1]; [exf 0]] with Done o => map (fun x => o x 1) [0;1;2;3] = [1; 11; 101; 111] | _ => False end.
Proof. reflexivity. Qed.

Print Assumptions C29_sliced_write_places_every_cell.
Print Assumptions C29_dataset_shape.
Print Assumptions C30_accepted_selection_is_python_indexing.
Print Assumptions C30_rejected_exactly_when_invalid_or_empty.
Print Assumptions C31_particle_file_rows.
Print Assumptions C31_rows_are_the_alive_particles.
Print Assumptions C32_gather_2d.
Print Assumptions C32_gather_2d_masked.
Print Assumptions C32_gather_3d_partial.
Print Assumptions C32_gather_3d_depends_on_rank_refuted.
Print Assumptions C32_gather_3d_gap_refuted.
