(** Vocabulary for Gauss' law over whole three-dimensional runs with open sides (as S_GaussO in two). *)
From Coq Require Import QArith Qround Qcanon Permutation.
From Verif Require Import Base M_Layout M_PartSync S_PartSync M_FieldSync S_FieldSync M_Maxwell S_Maxwell M_Cpml M_Deposit S_Deposit M_Push M_Step S_Step M_Step3D S_Step3D M_StepO S_StepO M_StepO3D S_StepO3D S_Gauss S_GaussO S_Gauss3D.
Local Open Scope list_scope.
Local Open Scope Z_scope.

(** Charge density at cell (i, j, k) of one particle of charge q, spread around the place it reaches with its velocity after
    [h] time steps; of several species. *)
Definition charge_of_o3 (D : domain3) (q h : Q) (i j k : Z) (r : prow body) : Q :=
  let b := other _ r in
  let X := ((val (px _ r) + h * (b_ux b * LIGHT_SPEED * b_ig b) * e_dt D) / e_dx D)%Q in
  let Y := ((val (py _ r) + h * (b_uy b * LIGHT_SPEED * b_ig b) * e_dt D) / e_dy D)%Q in
  let Z := ((val (pz _ r) + h * (b_uz b * LIGHT_SPEED * b_ig b) * e_dt D) / e_dz D)%Q in
  (q * b_w b / (e_dx D * e_dy D * e_dz D) * spread (e_ax D) (cells3_x D) i X * spread (e_ay D) (cells3_y D) j Y * spread (e_az D) (cells3_z D) k Z)%Q.
Definition charge_rows3 (D : domain3) (sps : list species) (rows : list (list (prow body))) (i j k : Z) : Qc :=
  Q2Qc (qsum (fun ss => qsum (charge_of_o3 D (sp_q (fst ss)) (1#2) i j k) (snd ss)) (combine sps rows)).
(** Charge density of all particles half a time step ahead. *)
Definition charge_o3 (D : domain3) (sps : list species) (pss : list (list (list prt))) (i j k : Z) : Qc := charge_rows3 D sps (map particles pss) i j k.

(** Cell (i, j, k) and its lower neighbours lie outside the layers of th cells. *)
Definition beside_layers3 (th : Z) (D : domain3) (i j k : Z) : Prop :=
  (ax_lo (e_ax D) = Pml -> th < i < cells3_x D - th) /\ (ax_lo (e_ay D) = Pml -> th < j < cells3_y D - th) /\ (ax_lo (e_az D) = Pml -> th < k < cells3_z D - th).
(** Cell (i, j, k) is separated from the layers by two cells. *)
Definition off_layers3 (th : Z) (D : domain3) (i j k : Z) : Prop :=
  (ax_lo (e_ax D) = Pml -> th + 2 <= i < cells3_x D - th - 2) /\ (ax_lo (e_ay D) = Pml -> th + 2 <= j < cells3_y D - th - 2) /\
  (ax_lo (e_az D) = Pml -> th + 2 <= k < cells3_z D - th - 2).
(** A particle inside a layer of th cells. *)
Definition in_layers3 (th : Z) (D : domain3) (r : prow body) : Prop :=
  exists x y z, px _ r = Some x /\ py _ r = Some y /\ pz _ r = Some z /\
    ~ (clear_of_layers (e_ax D) th (cells3_x D) (e_dx D) x /\ clear_of_layers (e_ay D) th (cells3_y D) (e_dy D) y /\ clear_of_layers (e_az D) th (cells3_z D) (e_dz D) z).

(** As S_Gauss3D.defect3: the violation of Gauss' law between two steps, counting in the half update that is still to come. *)
Definition defect_o3 (eps : Qc) (D : domain3) (sps : list species) (s : stateo) (i j k : Z) : Qc :=
  (gauss3 eps D (o_E s) (charge_o3 D sps (o_parts s)) i j k
   - half3 D / eps * divE3 (qc_arith eps) (on_domain3 D (o_J s)) (Q2Qc (e_dx D)) (Q2Qc (e_dy D)) (Q2Qc (e_dz D)) i j k)%Qc.
(** The particles that leave between s and s' ([gone], species by species): each is in a layer when it is taken out, and
    the others are still there. *)
Definition absorbed3 (th : Z) (D : domain3) (s s' : stateo) (gone : list (list (prow body))) : Prop :=
  length gone = length (o_parts s) /\ Forall (Forall (in_layers3 th D)) gone /\
  forall n, Permutation (map tag (particles (nth n (o_parts s) []))) (map tag (particles (nth n (o_parts s') [])) ++ map tag (nth n gone [])).
