(** Vocabulary for the space-filling curve: positions are lists of coordinates. *)
From Verif Require Import Base.
Local Open Scope list_scope.
Local Open Scope Z_scope.

(** a visit of all cells of a rectangle (box), each once *)
Definition visits2 (width height : Z) (l : list (list Z)) : Prop :=
  NoDup l /\ forall q, In q l <-> exists x y, q = [x; y] /\ 0 <= x < width /\ 0 <= y < height.
Definition visits3 (width height depth : Z) (l : list (list Z)) : Prop :=
  NoDup l /\ forall q, In q l <-> exists x y z, q = [x; y; z] /\ 0 <= x < width /\ 0 <= y < height /\ 0 <= z < depth.

(** cells that share a side: one coordinate differs, by one *)
Definition side_by_side (p q : list Z) : Prop :=
  exists a x y b, p = a ++ x :: b /\ q = a ++ y :: b /\ Z.abs (x - y) = 1.
(** every two consecutive cells share a side *)
Definition unbroken (l : list (list Z)) : Prop :=
  forall k p q, nth_error l k = Some p -> nth_error l (S k) = Some q -> side_by_side p q.
