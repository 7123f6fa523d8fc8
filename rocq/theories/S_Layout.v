(** Specification vocabulary for the patch layout. *)
From Verif Require Import Base M_Layout.
From Coq Require Import QArith.
Local Open Scope list_scope.
Local Open Scope Z_scope.

(** c is a grid position of the patch grid *)
Definition in_grid (axes : list axis) (c : list Z) : Prop := Forall2 (fun a i => 0 <= i < ax_n a) axes c.
(** a set of patches: distinct positions inside the grid, distinct indices *)
Definition patch_set (axes : list axis) (m : list (list Z * Z)) : Prop :=
  NoDup (map fst m) /\ NoDup (map snd m) /\ forall c ix, In (c, ix) m -> in_grid axes c.
Definition full_grid (axes : list axis) (m : list (list Z * Z)) : Prop := forall c, in_grid axes c -> exists ix, In (c, ix) m.
(** offset to one of the adjacent patches *)
Definition unit_offset (axes : list axis) (off : list Z) : Prop := Forall2 (fun _ d => -1 <= d <= 1) axes off.
(** both sides of each axis have the same kind of boundary *)
Definition paired (axes : list axis) : Prop := Forall (fun a => ax_lo a = ax_hi a) axes.
(** the direction leaves the domain through an open side of some axis *)
Definition leaves_open (axes : list axis) (c off : list Z) : Prop :=
  exists k a i d, nth_error axes k = Some a /\ nth_error c k = Some i /\ nth_error off k = Some d /\
    ((i + d < 0 /\ ax_lo a = Pml) \/ (ax_n a <= i + d /\ ax_hi a = Pml)).

(** what the two exchanges must know about a side whose neighbour has index n, for a process [r] holding [local] out of [all] patches *)
Definition side_handled (all local : list patch) (r n : Z) (rk : rres) (ip : option nat) : Prop :=
  exists q, In q all /\ p_index q = n /\
    ((p_rank q = r /\ rk = Rank None /\ exists k, ip = Some k /\ nth_error local k = Some q) \/
     (p_rank q <> r /\ rk = Rank (Some (p_rank q)) /\ ip = None)).
(** process r holds exactly its patches, in any order *)
Definition holds_own (all local : list patch) (r : Z) : Prop :=
  NoDup (map p_index all) /\ forall q, In q local <-> In q all /\ p_rank q = r.

Definition side_offset2 (s : pml_side) : list Z :=
  match s with PXmin => [-1; 0] | PXmax => [1; 0] | PYmin => [0; -1] | PYmax => [0; 1] | _ => [0; 0] end.
Definition side_offset3 (s : pml_side) : list Z :=
  match s with PXmin => [-1; 0; 0] | PXmax => [1; 0; 0] | PYmin => [0; -1; 0] | PYmax => [0; 1; 0] | PZmin => [0; 0; -1] | PZmax => [0; 0; 1] end.
