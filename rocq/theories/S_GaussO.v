(** Vocabulary for Gauss' law over whole runs with open sides. *)
From Coq Require Import QArith Qround Qcanon Permutation.
From Verif Require Import Base M_Layout M_PartSync S_PartSync M_FieldSync S_FieldSync M_Maxwell S_Maxwell M_Cpml M_Deposit S_Deposit M_Push M_Step S_Step M_StepO S_StepO S_Gauss.
Local Open Scope list_scope.
Local Open Scope Z_scope.

(** Share of grid point [i] for a particle at [X] along an axis of [n] points: the quadratic spline, summed over all copies if
    the axis is periodic. *)
Definition spread (a : axis) (n i : Z) (X : Q) : Q := if bc_eqb (ax_lo a) Pml then spline (inject_Z i - X) else periodic_share n i X.
(** Charge density at cell (i, j) of one particle of charge q, spread around the place it reaches with its velocity after
    [h] time steps; of several species. *)
Definition charge_of_o (D : domain2) (q h : Q) (i j : Z) (r : prow body) : Q :=
  let b := other _ r in
  let X := ((val (px _ r) + h * (b_ux b * LIGHT_SPEED * b_ig b) * d_dt D) / d_dx D)%Q in
  let Y := ((val (py _ r) + h * (b_uy b * LIGHT_SPEED * b_ig b) * d_dt D) / d_dy D)%Q in
  (q * b_w b / (d_dx D * d_dy D) * spread (d_ax D) (cells_x D) i X * spread (d_ay D) (cells_y D) j Y)%Q.
Definition charge_rows (D : domain2) (sps : list species) (rows : list (list (prow body))) (i j : Z) : Qc :=
  Q2Qc (qsum (fun ss => qsum (charge_of_o D (sp_q (fst ss)) (1#2) i j) (snd ss)) (combine sps rows)).
(** Charge density of all particles half a time step ahead. *)
Definition charge_o (D : domain2) (sps : list species) (pss : list (list (list prt))) (i j : Z) : Qc := charge_rows D sps (map particles pss) i j.

(** Cell (i, j), (i-1, j) and (i, j-1) lie outside the layers of th cells. *)
Definition beside_layers (th : Z) (D : domain2) (i j : Z) : Prop :=
  (ax_lo (d_ax D) = Pml -> th < i < cells_x D - th) /\ (ax_lo (d_ay D) = Pml -> th < j < cells_y D - th).
(** Cell (i, j) is separated from the layers by two cells. *)
Definition off_layers (th : Z) (D : domain2) (i j : Z) : Prop :=
  (ax_lo (d_ax D) = Pml -> th + 2 <= i < cells_x D - th - 2) /\ (ax_lo (d_ay D) = Pml -> th + 2 <= j < cells_y D - th - 2).
(** A particle inside a layer of th cells. *)
Definition in_layers (th : Z) (D : domain2) (r : prow body) : Prop :=
  exists x y, px _ r = Some x /\ py _ r = Some y /\
    ~ (clear_of_layers (d_ax D) th (cells_x D) (d_dx D) x /\ clear_of_layers (d_ay D) th (cells_y D) (d_dy D) y).

(** As S_Gauss.defect: the violation of Gauss' law between two steps, counting in the half update that is still to come. *)
Definition defect_o (eps : Qc) (D : domain2) (sps : list species) (s : stateo) (i j : Z) : Qc :=
  (gauss eps D (o_E s) (charge_o D sps (o_parts s)) i j
   - half D / eps * divE2 (qc_arith eps) (on_domain D (o_J s)) (Q2Qc (d_dx D)) (Q2Qc (d_dy D)) i j)%Qc.
(** The particles that leave between s and s' ([gone], species by species): each is in a layer when it is taken out, and
    the others are still there. *)
Definition absorbed (th : Z) (D : domain2) (s s' : stateo) (gone : list (list (prow body))) : Prop :=
  length gone = length (o_parts s) /\ Forall (Forall (in_layers th D)) gone /\
  forall n, Permutation (map tag (particles (nth n (o_parts s) []))) (map tag (particles (nth n (o_parts s') [])) ++ map tag (nth n gone [])).
