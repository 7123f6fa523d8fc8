(** Vocabulary for how fast a run carries information across the grid. *)
From Coq Require Import QArith Qround Qcanon Permutation.
From Verif Require Import Base M_Layout M_PartSync S_PartSync M_FieldSync M_Step S_Step S_Gauss.
Local Open Scope list_scope.
Local Open Scope Z_scope.

(** A set of cells of the domain. *)
Definition region := Z -> Z -> bool.
Section Region.
Variable D : domain2.
(** -d .. d *)
Definition span (d : nat) : list Z := map (fun k => Z.of_nat k - Z.of_nat d) (seq 0 (2 * d + 1)).
(** All cells of the domain at most d cells away along x and y (counting periodically) belong to the region. *)
Definition deep (d : nat) (P : region) : region := fun a b =>
  forallb (fun i => forallb (fun j => P ((a + i) mod cells_x D) ((b + j) mod cells_y D)) (span d)) (span d).
(** The grid point nearest to a particle belongs to the region. *)
Definition inside (P : region) (r : prow body) : bool :=
  match px _ r, py _ r with
  | Some x, Some y => P (Qfloor (x / d_dx D + (1#2)) mod cells_x D) (Qfloor (y / d_dy D + (1#2)) mod cells_y D)
  | _, _ => false
  end.
(** The same particles in the region. *)
Definition same_inside (P : region) (st st' : list (list prt)) : Prop :=
  Permutation (map canon (filter (inside P) (particles st))) (map canon (filter (inside P) (particles st'))).
End Region.
(** Two states, each with its own cut into patches, agree in a region: on E, B, current and charge densities, and particles. *)
Definition agree (D D' : domain2) (P : region) (s s' : state2) : Prop :=
  (forall f a b, 0 <= a < cells_x D -> 0 <= b < cells_y D -> P a b = true ->
    ((f < 3)%nat -> on_domain D (t_E s) f [a; b] = on_domain D' (t_E s') f [a; b] /\ on_domain D (t_B s) f [a; b] = on_domain D' (t_B s') f [a; b]) /\
    ((f < 4)%nat -> on_domain D (t_J s) f [a; b] = on_domain D' (t_J s') f [a; b])) /\
  Forall2 (same_inside D P) (t_parts s) (t_parts s').
