(** Vocabulary for how fast a run carries information across the grid in three dimensions (as S_Causal in two). *)
From Coq Require Import QArith Qround Qcanon Permutation.
From Verif Require Import Base M_Layout M_PartSync S_PartSync M_FieldSync M_Step S_Step S_Causal M_Step3D S_Step3D S_Gauss3D.
Local Open Scope list_scope.
Local Open Scope Z_scope.

(** A set of cells of the domain. *)
Definition region3 := Z -> Z -> Z -> bool.
Section Region.
Variable D : domain3.
(** All cells of the domain at most d cells away along x, y and z (counting periodically) belong to the region. *)
Definition deep3 (d : nat) (P : region3) : region3 := fun a b c =>
  forallb (fun i => forallb (fun j => forallb (fun k => P ((a + i) mod cells3_x D) ((b + j) mod cells3_y D) ((c + k) mod cells3_z D)) (span d)) (span d)) (span d).
(** The grid point nearest to a particle belongs to the region. *)
Definition inside3 (P : region3) (r : prow body) : bool :=
  match px _ r, py _ r, pz _ r with
  | Some x, Some y, Some z => P (Qfloor (x / e_dx D + (1#2)) mod cells3_x D) (Qfloor (y / e_dy D + (1#2)) mod cells3_y D) (Qfloor (z / e_dz D + (1#2)) mod cells3_z D)
  | _, _, _ => false
  end.
(** The same particles in the region. *)
Definition same_inside3 (P : region3) (st st' : list (list prt)) : Prop :=
  Permutation (map canon (filter (inside3 P) (particles st))) (map canon (filter (inside3 P) (particles st'))).
End Region.
(** Two states, each with its own cut into patches, agree in a region: on E, B, current and charge densities, and particles. *)
Definition agree3 (D D' : domain3) (P : region3) (s s' : state2) : Prop :=
  (forall f a b c, 0 <= a < cells3_x D -> 0 <= b < cells3_y D -> 0 <= c < cells3_z D -> P a b c = true ->
    ((f < 3)%nat -> on_domain3 D (t_E s) f [a; b; c] = on_domain3 D' (t_E s') f [a; b; c] /\ on_domain3 D (t_B s) f [a; b; c] = on_domain3 D' (t_B s') f [a; b; c]) /\
    ((f < 4)%nat -> on_domain3 D (t_J s) f [a; b; c] = on_domain3 D' (t_J s') f [a; b; c])) /\
  Forall2 (same_inside3 D P) (t_parts s) (t_parts s').
