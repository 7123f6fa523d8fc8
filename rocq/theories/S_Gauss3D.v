(** Vocabulary for Gauss' law over whole runs in three dimensions (as S_Gauss in two). *)
From Coq Require Import QArith Qround Qcanon.
From Verif Require Import Base M_Layout M_PartSync S_PartSync M_FieldSync S_FieldSync M_Maxwell S_Maxwell M_Deposit S_Deposit M_Push M_Step S_Step S_Gauss M_Step3D S_Step3D.
Local Open Scope list_scope.
Local Open Scope Z_scope.

(** Cells of the whole domain along x, y and z. *)
Definition cells3_x (D : domain3) : Z := ax_n (e_ax D) * e_nx D.
Definition cells3_y (D : domain3) : Z := ax_n (e_ay D) * e_ny D.
Definition cells3_z (D : domain3) : Z := ax_n (e_az D) * e_nz D.
(** Where component [f] at cell (i, j, k) of the whole domain is stored (i, j and k count periodically): patch
    (i/nx, j/ny, k/nz), cell (i mod nx, j mod ny, k mod nz) of it. *)
Definition stored3 (D : domain3) (f : nat) (i j k : Z) : addr :=
  let I := i mod cells3_x D in let J := j mod cells3_y D in let K := k mod cells3_z D in
  cell [e_nx D; e_ny D; e_nz D] (e_ng D) f
    (Z.to_nat ((K / e_nz D * ax_n (e_ay D) + J / e_ny D) * ax_n (e_ax D) + I / e_nx D)) [I mod e_nx D; J mod e_ny D; K mod e_nz D].
(** the field of the whole domain that the patches hold *)
Definition on_domain3 (D : domain3) (m : addr -> Qc) (f : nat) (c : list Z) : Qc :=
  match c with [i; j; k] => m (stored3 D f i j k) | _ => Q2Qc 0 end.

(** Charge density at cell (i, j, k) of one particle of charge q, spread around the place it reaches with its velocity after
    [h] time steps. *)
Definition charge_of3 (D : domain3) (q h : Q) (i j k : Z) (r : prow body) : Q :=
  let b := other _ r in
  let X := ((val (px _ r) + h * (b_ux b * LIGHT_SPEED * b_ig b) * e_dt D) / e_dx D)%Q in
  let Y := ((val (py _ r) + h * (b_uy b * LIGHT_SPEED * b_ig b) * e_dt D) / e_dy D)%Q in
  let Z := ((val (pz _ r) + h * (b_uz b * LIGHT_SPEED * b_ig b) * e_dt D) / e_dz D)%Q in
  (q * b_w b / (e_dx D * e_dy D * e_dz D) * periodic_share (cells3_x D) i X * periodic_share (cells3_y D) j Y * periodic_share (cells3_z D) k Z)%Q.
(** Charge density of all particles of all species half a time step ahead. *)
Definition charge3 (D : domain3) (sps : list species) (pss : list (list (list prt))) (i j k : Z) : Qc :=
  Q2Qc (qsum (fun ss => qsum (charge_of3 D (sp_q (fst ss)) (1#2) i j k) (particles (snd ss))) (combine sps pss)).

Section Defect.
Variable eps : Qc.
Variable D : domain3.
Local Notation A := (qc_arith eps).
Local Notation dx := (Q2Qc (e_dx D)). Local Notation dy := (Q2Qc (e_dy D)). Local Notation dz := (Q2Qc (e_dz D)).
(** div E - rho/eps0, for a given electric field and charge density *)
Definition gauss3 (mE : addr -> Qc) (rho : Z -> Z -> Z -> Qc) (i j k : Z) : Qc :=
  (divE3 A (on_domain3 D mE) dx dy dz i j k - rho i j k / eps)%Qc.
(** Between two steps the electric field is half a step behind the charges: the next update will advance it by half a step
    with the stored current.  The violation of Gauss' law counts that update in. *)
Definition defect3 (sps : list species) (s : state2) (i j k : Z) : Qc :=
  (gauss3 (t_E s) (charge3 D sps (t_parts s)) i j k - half3 D / eps * divE3 A (on_domain3 D (t_J s)) dx dy dz i j k)%Qc.
End Defect.
