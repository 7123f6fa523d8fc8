(** Vocabulary for the cloud of charge that the particles stand for, in three dimensions (as S_Cloud in two). *)
From Coq Require Import QArith Qcanon.
From Verif Require Import Base M_PartSync S_PartSync M_Deposit S_Deposit M_Push M_Step S_Step M_Step3D S_Step3D.
Local Open Scope list_scope.

(** A point of phase space: charge-to-mass ratio, place, momentum over mc and 1/gamma. *)
Record point3 := mkPoint3 { pt_ratio3 : Q; pt_x3 : Q; pt_y3 : Q; pt_z3 : Q; pt_ux3 : Q; pt_uy3 : Q; pt_uz3 : Q; pt_ig3 : Q }.
(** Is this particle of this species there? *)
Definition at_point3 (k : point3) (sp : species) (r : prow body) : bool :=
  let b := other _ r in
  Qeq_bool (pt_ratio3 k) (sp_q sp / sp_m sp) && Qeq_bool (pt_x3 k) (val (px _ r)) && Qeq_bool (pt_y3 k) (val (py _ r)) && Qeq_bool (pt_z3 k) (val (pz _ r)) &&
  Qeq_bool (pt_ux3 k) (b_ux b) && Qeq_bool (pt_uy3 k) (b_uy b) && Qeq_bool (pt_uz3 k) (b_uz b) && Qeq_bool (pt_ig3 k) (b_ig b).
(** Sum over all species and particles at a point of phase space of the weights, each times a coefficient of its species. *)
Definition spread3 (coef : list Q) (sps : list species) (pss : list (list (list prt))) (k : point3) : Q :=
  qsum (fun x => fst x * qsum (fun r => if at_point3 k (fst (snd x)) r then b_w (other _ r) else 0) (particles (snd (snd x))))%Q
       (combine coef (combine sps pss)).
(** the charge at a point of phase space *)
Definition charge_at3 (sps : list species) (pss : list (list (list prt))) (k : point3) : Q := spread3 (map sp_q sps) sps pss k.
(** The same charge everywhere in phase space. *)
Definition same_cloud3 (sps sps' : list species) (pss pss' : list (list (list prt))) : Prop := forall k, (charge_at3 sps pss k == charge_at3 sps' pss' k)%Q.
(** The same fields, currents and charge density in all cells of the domain. *)
Definition same_fields3 (D D' : domain3) (s s' : state2) : Prop :=
  (exists F, field3_is D F (t_E s) /\ field3_is D' F (t_E s')) /\
  (exists F, field3_is D F (t_B s) /\ field3_is D' F (t_B s')) /\
  (exists F, currents3_are D F (t_J s) /\ currents3_are D' F (t_J s')).
(** Two particles at the same place with the same momentum. *)
Definition together3 (r r' : prow body) : Prop :=
  (val (px _ r) == val (px _ r') /\ val (py _ r) == val (py _ r') /\ val (pz _ r) == val (pz _ r') /\ b_ux (other _ r) == b_ux (other _ r') /\ b_uy (other _ r) == b_uy (other _ r') /\
   b_uz (other _ r) == b_uz (other _ r') /\ b_ig (other _ r) == b_ig (other _ r'))%Q.
