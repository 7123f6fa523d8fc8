(** Vocabulary for Gauss' law over whole runs. *)
From Coq Require Import QArith Qround Qcanon.
From Verif Require Import Base M_Layout M_PartSync S_PartSync M_FieldSync S_FieldSync M_Maxwell S_Maxwell M_Deposit S_Deposit M_Push M_Step S_Step.
Local Open Scope list_scope.
Local Open Scope Z_scope.

(** Cells of the whole domain along x and y. *)
Definition cells_x (D : domain2) : Z := ax_n (d_ax D) * d_nx D.
Definition cells_y (D : domain2) : Z := ax_n (d_ay D) * d_ny D.
(** Where component [f] at cell (i, j) of the whole domain is stored (i and j count periodically): patch (i/nx, j/ny), cell
    (i mod nx, j mod ny) of it. *)
Definition stored (D : domain2) (f : nat) (i j : Z) : addr :=
  let I := i mod cells_x D in let J := j mod cells_y D in
  cell [d_nx D; d_ny D] (d_ng D) f (Z.to_nat (J / d_ny D * ax_n (d_ax D) + I / d_nx D)) [I mod d_nx D; J mod d_ny D].
(** the field of the whole domain that the patches hold *)
Definition on_domain (D : domain2) (m : addr -> Qc) (f : nat) (c : list Z) : Qc :=
  match c with [i; j] => m (stored D f i j) | _ => Q2Qc 0 end.

(** Share of grid point [a] on a periodic axis of [n] points for a particle at [X]: the quadratic spline over all copies. *)
Definition periodic_share (n a : Z) (X : Q) : Q := share n (a mod n) X (Qfloor X - 2) 6.
(** Charge density at cell (i, j) of one particle of charge q, spread around the place it reaches with its velocity after
    [h] time steps. *)
Definition charge_of (D : domain2) (q h : Q) (i j : Z) (r : prow body) : Q :=
  let b := other _ r in
  let X := ((val (px _ r) + h * (b_ux b * LIGHT_SPEED * b_ig b) * d_dt D) / d_dx D)%Q in
  let Y := ((val (py _ r) + h * (b_uy b * LIGHT_SPEED * b_ig b) * d_dt D) / d_dy D)%Q in
  (q * b_w b / (d_dx D * d_dy D) * periodic_share (cells_x D) i X * periodic_share (cells_y D) j Y)%Q.
(** Charge density of all particles of all species half a time step ahead. *)
Definition charge (D : domain2) (sps : list species) (pss : list (list (list prt))) (i j : Z) : Qc :=
  Q2Qc (qsum (fun ss => qsum (charge_of D (sp_q (fst ss)) (1#2) i j) (particles (snd ss))) (combine sps pss)).

Section Defect.
Variable eps : Qc.
Variable D : domain2.
Local Notation A := (qc_arith eps).
Local Notation dx := (Q2Qc (d_dx D)). Local Notation dy := (Q2Qc (d_dy D)).
(** div E - rho/eps0, for a given electric field and charge density *)
Definition gauss (mE : addr -> Qc) (rho : Z -> Z -> Qc) (i j : Z) : Qc :=
  (divE2 A (on_domain D mE) dx dy i j - rho i j / eps)%Qc.
(** Between two steps the electric field is half a step behind the charges: the next update will advance it by half a step
    with the stored current.  The violation of Gauss' law counts that update in. *)
Definition defect (sps : list species) (s : state2) (i j : Z) : Qc :=
  (gauss (t_E s) (charge D sps (t_parts s)) i j - half D / eps * divE2 A (on_domain D (t_J s)) dx dy i j)%Qc.
End Defect.
