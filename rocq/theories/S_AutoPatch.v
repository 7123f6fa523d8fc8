(** Vocabulary for the automatic patch count theorems. *)
From Verif Require Import Base.
Open Scope Z_scope.

(** A usable count along an axis of [n] cells: a divisor other than 1 and the axis itself. *)
Definition splits (n np : Z) : Prop := 1 < np < n /\ (np | n).
(** The patches along this axis are at least as wide as the absorbing layer and twice the guard width. *)
Definition wide (n guard thick np : Z) : Prop := thick <= n / np /\ 2 * guard <= n / np.
(** Largest difference between the edges of a patch *)
Definition edge_diff2 (nx ny x y : Z) : Z := Z.abs (nx / x - ny / y).
Definition edge_diff3 (nx ny nz x y z : Z) : Z :=
  Z.max (Z.max (Z.abs (nx / x - ny / y)) (Z.abs (ny / y - nz / z))) (Z.abs (nz / z - nx / x)).

(** Counts the selection accepts: every axis is split, there are at least [least] patches, and at least one
    axis is wide. *)
Definition fits2 (nx ny guard thick least x y : Z) : Prop :=
  splits nx x /\ splits ny y /\ least <= x * y /\ (wide nx guard thick x \/ wide ny guard thick y).
Definition fits3 (nx ny nz guard thick least x y z : Z) : Prop :=
  splits nx x /\ splits ny y /\ splits nz z /\ least <= x * y * z /\
  (wide nx guard thick x \/ wide ny guard thick y \/ wide nz guard thick z).
