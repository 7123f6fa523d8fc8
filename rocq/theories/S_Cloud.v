(** Vocabulary for the cloud of charge that the particles stand for. *)
From Coq Require Import QArith Qcanon.
From Verif Require Import Base M_PartSync S_PartSync M_Deposit S_Deposit M_Push M_Step S_Step.
Local Open Scope list_scope.

(** A point of phase space: charge-to-mass ratio, place, momentum over mc and 1/gamma. *)
Record point := mkPoint { pt_ratio : Q; pt_x : Q; pt_y : Q; pt_ux : Q; pt_uy : Q; pt_uz : Q; pt_ig : Q }.
(** Is this particle of this species there? *)
Definition at_point (k : point) (sp : species) (r : prow body) : bool :=
  let b := other _ r in
  Qeq_bool (pt_ratio k) (sp_q sp / sp_m sp) && Qeq_bool (pt_x k) (val (px _ r)) && Qeq_bool (pt_y k) (val (py _ r)) &&
  Qeq_bool (pt_ux k) (b_ux b) && Qeq_bool (pt_uy k) (b_uy b) && Qeq_bool (pt_uz k) (b_uz b) && Qeq_bool (pt_ig k) (b_ig b).
(** Sum over all species and particles at a point of phase space of the weights, each times a coefficient of its species. *)
Definition spread (coef : list Q) (sps : list species) (pss : list (list (list prt))) (k : point) : Q :=
  qsum (fun x => fst x * qsum (fun r => if at_point k (fst (snd x)) r then b_w (other _ r) else 0) (particles (snd (snd x))))%Q
       (combine coef (combine sps pss)).
(** the charge at a point of phase space *)
Definition charge_at (sps : list species) (pss : list (list (list prt))) (k : point) : Q := spread (map sp_q sps) sps pss k.
(** The same charge everywhere in phase space. *)
Definition same_cloud (sps sps' : list species) (pss pss' : list (list (list prt))) : Prop := forall k, (charge_at sps pss k == charge_at sps' pss' k)%Q.
(** The same fields, currents and charge density in all cells of the domain. *)
Definition same_fields (D D' : domain2) (s s' : state2) : Prop :=
  (exists F, field_is D F (t_E s) /\ field_is D' F (t_E s')) /\
  (exists F, field_is D F (t_B s) /\ field_is D' F (t_B s')) /\
  (exists F, currents_are D F (t_J s) /\ currents_are D' F (t_J s')).
(** Two particles at the same place with the same momentum. *)
Definition together (r r' : prow body) : Prop :=
  (val (px _ r) == val (px _ r') /\ val (py _ r) == val (py _ r') /\ b_ux (other _ r) == b_ux (other _ r') /\ b_uy (other _ r) == b_uy (other _ r') /\
   b_uz (other _ r) == b_uz (other _ r') /\ b_ig (other _ r) == b_ig (other _ r'))%Q.
