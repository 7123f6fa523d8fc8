(** Model of the slice handling of the HDF5 output (src/lambdapic/callback/hdf5.py:14-275).
    Cells of an n-dimensional array are index vectors [list Z]; arrays are functions from them.
    Simplification: [math.ceil(a/b)]/[math.floor(a/b)] are exact (the code divides in double
    precision, exact below 2^53). *)
From Verif Require Import Base.
Local Open Scope Z_scope.

(** One element of a user selection, [np.s_[...]]. *)
Inductive usel :=
| UInt (i : Z)
| USlice (start stop step : option Z)
| UEllipsis
| UNewaxis
| UOther.
(** The [slice=] argument: absent, a bare element, a tuple. *)
Inductive uspec := UAbsent | USingle (u : usel) | UTuple (us : list usel).

Inductive serr := EEllipsis | ENewaxis | ELength | EIndex | EStep | EEmpty | EType.
Inductive res (A : Type) := Ok (a : A) | Err (e : serr).
Arguments Ok {A}. Arguments Err {A}.

(** A normalised [slice(start, stop, step)]. *)
Record nslice := mkSlice { n_start : Z; n_stop : Z; n_step : Z }.

Definition is_ell (u : usel) := match u with UEllipsis => true | _ => false end.
Definition is_new (u : usel) := match u with UNewaxis => true | _ => false end.
Definition dflt (v : option Z) (x : Z) : Z := match v with Some y => y | None => x end.

(** hdf5.py:57-96, one element for an axis of [dim] cells. *)
Definition normalize1 (dim : Z) (u : usel) : res nslice :=
  match u with
  | UInt s =>
      let s := if s <? 0 then dim + s else s in
      if (s <? 0) || (dim <=? s) then Err EIndex else Ok (mkSlice s (s + 1) 1)
  | USlice a b c =>
      let start := dflt a 0 in
      let stop := dflt b dim in
      let step := dflt c 1 in
      if step <=? 0 then Err EStep else
      let start := if start <? 0 then dim + start else start in
      let stop := if stop <? 0 then dim + stop else stop in
      let start := Z.max 0 (Z.min start dim) in
      let stop := Z.max 0 (Z.min stop dim) in
      if stop <=? start then Err EEmpty else Ok (mkSlice start stop step)
  | _ => Err EType
  end.

(** the [for i, s in enumerate(user_slice)] loop *)
Fixpoint normalize_loop (dims : list Z) (us : list usel) : res (list nslice) :=
  match dims, us with
  | dim :: ds, u :: us' =>
      match normalize1 dim u with
      | Err e => Err e
      | Ok s => match normalize_loop ds us' with Err e => Err e | Ok ss => Ok (s :: ss) end
      end
  | _, _ => Ok []
  end.

(** hdf5.py:33-99; [None] is the "no slice" answer. *)
Definition normalize_slice (dims : list Z) (spec : uspec) : res (option (list nslice)) :=
  match spec with
  | UAbsent => Ok None
  | _ =>
      let us := match spec with USingle u => [u] | UTuple us => us | UAbsent => [] end in
      if existsb is_ell us then Err EEllipsis
      else if existsb is_new us then Err ENewaxis
      else if negb (Nat.eqb (length us) (length dims)) then Err ELength
      else match normalize_loop dims us with Ok l => Ok (Some l) | Err e => Err e end
  end.

Definition ceil_div (a b : Z) : Z := - ((- a) / b).

(** hdf5.py:102-133: (local slice start, local slice stop, output start, number). *)
Definition compute_patch_slice (s : nslice) (offset size : Z) : option (Z * Z * Z * Z) :=
  let start := n_start s in let stop := n_stop s in let step := n_step s in
  let first := start + ceil_div (Z.max 0 (offset - start)) step * step in
  let last_global := Z.min stop (offset + size) - 1 in
  let last_selected := start + ((last_global - start) / step) * step in
  if last_selected <? first then None
  else
    let local_first := first - offset in
    let output_start := (first - start) / step in
    let num := (last_selected - first) / step + 1 in
    Some (local_first, local_first + num * step, output_start, num).

(** [len(range(start, stop, step))] for a positive step. *)
Definition range_len (start stop step : Z) : Z := Z.max 0 (ceil_div (stop - start) step).

(** Extent of [data[slice(lo, hi, step)]] on an axis of [m] stored cells, for lo >= 0. *)
Definition np_extent (m lo hi step : Z) : Z := range_len (Z.min lo m) (Z.min hi m) step.

Section Write.
Context {V : Type}.
Notation arr := (list Z -> V).

(** the list comprehension [slices_info], and the [any(si is None)] test (hdf5.py:214-220) *)
Fixpoint slices_info (ss : list nslice) (psizes coords : list Z) : option (list (Z * Z * Z * Z)) :=
  match ss, psizes, coords with
  | s :: ss', sz :: szs, c :: cs =>
      match compute_patch_slice s (c * sz) sz, slices_info ss' szs cs with
      | Some i, Some l => Some (i :: l)
      | _, _ => None
      end
  | _, _, _ => Some []
  end.

Fixpoint in_box (l : list (Z * Z * Z * Z)) (j : list Z) : bool :=
  match l, j with
  | (_, _, o, n) :: l', x :: j' => (o <=? x) && (x <? o + n) && in_box l' j'
  | [], [] => true
  | _, _ => false
  end.

(** source cell of output cell [j] in the patch's local array *)
Fixpoint local_index (ss : list nslice) (l : list (Z * Z * Z * Z)) (j : list Z) : list Z :=
  match ss, l, j with
  | s :: ss', (lf, _, o, _) :: l', x :: j' => lf + (x - o) * n_step s :: local_index ss' l' j'
  | _, _, _ => []
  end.

(** do the extents of [data[local_slices]] equal those of [dset[out_idx]]? (h5py raises if not) *)
Fixpoint extents_ok (ss : list nslice) (msizes : list Z) (l : list (Z * Z * Z * Z)) : bool :=
  match ss, msizes, l with
  | s :: ss', m :: ms, (lf, ls, _, n) :: l' =>
      (0 <=? lf) && (np_extent m lf ls (n_step s) =? n) && extents_ok ss' ms l'
  | _, _, _ => true
  end.

(** hdf5.py:211-229 / 244-262: one patch at grid position [coords] whose stored array has
    [msizes] cells per axis (interior plus guards).  [None]: h5py rejects the assignment. *)
Definition write_patch (ss : list nslice) (psizes msizes : list Z) (p : list Z * arr) (out : arr)
  : option arr :=
  let '(coords, data) := p in
  match slices_info ss psizes coords with
  | None => Some out
  | Some l =>
      if extents_ok ss msizes l
      then Some (fun j => if in_box l j then data (local_index ss l j) else out j)
      else None
  end.

(** All patches of all processes in the order in which their writes reach the file. *)
Fixpoint write_patches (ss : list nslice) (psizes msizes : list Z) (ps : list (list Z * arr)) (out : arr)
  : option arr :=
  match ps with
  | [] => Some out
  | p :: ps' => match write_patch ss psizes msizes p out with
                | Some out' => write_patches ss psizes msizes ps' out'
                | None => None
                end
  end.

(** hdf5.py:193-200: dataset shape. *)
Definition out_shape (ss : list nslice) : list Z :=
  map (fun s => range_len (n_start s) (n_stop s) (n_step s)) ss.
End Write.
