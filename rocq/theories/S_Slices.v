(** Specification of Python indexing with a positive step (language reference, "slicings"). *)
From Verif Require Import Base M_Slices.
Local Open Scope Z_scope.

(** [i] is selected by [a[start:stop:step]] on a sequence of [len] items: bounds default to the
    ends, negative ones count from the end, everything is cut to the sequence. *)
Definition py_bound (len : Z) (v : option Z) (default : Z) : Z :=
  match v with
  | None => default
  | Some x => if x <? 0 then Z.max 0 (x + len) else Z.min x len
  end.
Definition py_selects (len : Z) (start stop step : option Z) (i : Z) : Prop :=
  let lo := py_bound len start 0 in
  let hi := py_bound len stop len in
  let st := match step with Some s => s | None => 1 end in
  exists k, 0 <= k /\ i = lo + k * st /\ i < hi.
(** [a[i0]]: the selected item, if the index is valid. *)
Definition py_item (len i0 i : Z) : Prop :=
  (0 <= i0 < len /\ i = i0) \/ (- len <= i0 < 0 /\ i = len + i0).

(** what a normalised slice selects *)
Definition selects (s : nslice) (i : Z) : Prop :=
  exists k, 0 <= k /\ i = n_start s + k * n_step s /\ i < n_stop s.

Definition wf_slice (dim : Z) (s : nslice) : Prop :=
  0 <= n_start s /\ n_start s < n_stop s /\ n_stop s <= dim /\ 0 < n_step s.

(** output position -> global cell *)
Fixpoint gcell (ss : list nslice) (j : list Z) : list Z :=
  match ss, j with
  | s :: ss', x :: j' => n_start s + x * n_step s :: gcell ss' j'
  | _, _ => []
  end.
(** global cell -> patch coordinates, position in the patch *)
Fixpoint owner (psizes g : list Z) : list Z :=
  match psizes, g with sz :: szs, x :: g' => x / sz :: owner szs g' | _, _ => [] end.
Fixpoint within (psizes g : list Z) : list Z :=
  match psizes, g with sz :: szs, x :: g' => x mod sz :: within szs g' | _, _ => [] end.

Inductive wf_axes : list Z -> list Z -> list Z -> list nslice -> Prop :=
| wf_nil : wf_axes [] [] [] []
| wf_cons dim sz m s dims szs ms ss :
    wf_slice dim s -> 0 < sz -> sz <= m -> wf_axes dims szs ms ss ->
    wf_axes (dim :: dims) (sz :: szs) (m :: ms) (s :: ss).

(** [j] is a cell of the output dataset *)
Inductive in_shape : list nslice -> list Z -> Prop :=
| sh_nil : in_shape [] []
| sh_cons s ss x j : 0 <= x -> n_start s + x * n_step s < n_stop s -> in_shape ss j -> in_shape (s :: ss) (x :: j).

Definition coords_ok (psizes coords : list Z) : Prop :=
  length coords = length psizes /\ Forall (fun c => 0 <= c) coords.

