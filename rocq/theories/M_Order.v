(** Model of the bucket numbering shared by colliding species: the sorters (src/lambdapic/core/sort/particle_sort.py:52-89, 197-199,
    the decision itself is M_Sort3D.decide_reverse), their construction (simulation/simulation.py:691-698, 1369-1376) and the check
    of the collision module (core/collision/collision.py:100-137). *)
From Verif Require Import Base M_Sort3D.
From Coq Require Import QArith.
Local Open Scope nat_scope.
Local Open Scope list_scope.

(** one species in the patches of a process: (dead, (weight, ux)) *)
Definition contents := list (list (bool * (Q * Q))).
Record sorter := mkSorter { so_ny : nat; so_nz : nat; so_override : option bool; so_reverse : bool; so_decided : bool }.
(** particle_sort.py:52-54; [nz] is 1 in 2D *)
Definition new_sorter (ny nz : nat) (override : option bool) : sorter := mkSorter ny nz override false false.
(** simulation.py:691-698, 1369-1376: buckets of one cell if collision groups are registered, else one bucket across *)
Definition simulation_sorter (groups : bool) (ny nz : nat) : sorter := if groups then new_sorter ny nz None else new_sorter 1 1 None.
(** particle_sort.py:197-199: the first call decides *)
Definition call_sorter (ps : contents) (s : sorter) : sorter :=
  if so_decided s then s else mkSorter (so_ny s) (so_nz s) (so_override s) (decide_reverse (so_ny s) (so_nz s) (so_override s) ps) true.
Definition call_many (pss : list contents) (s : sorter) : sorter := fold_left (fun s ps => call_sorter ps s) pss s.
(** collision.py:118-128: the sorters of all species of all groups; false: ValueError *)
Definition check (ss : list sorter) : bool :=
  match map so_reverse (filter so_decided ss) with [] => true | b :: bs => forallb (Bool.eqb b) bs end.
