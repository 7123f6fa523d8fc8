(** Vocabulary for runs with switches. *)
From Coq Require Import QArith Qcanon.
From Verif Require Import Base M_PartSync S_PartSync M_Deposit S_Deposit M_Push M_Step S_Step S_Gauss M_StepW.
Local Open Scope list_scope.

(** Pusher and depositor go together for every species that is on and pushed in stages. *)
Definition paced (sps : list species) (W : switches) : Prop :=
  forall i sp, nth_error sps i = Some sp -> w_on W i = true -> sp_unified sp = false -> w_pusher W i = w_dep W.
(** Species [i] adds its charge and current in this step: it is on, and the kernel that deposits is on (the fused pusher or
    the depositor). *)
Definition seen (W : switches) (i : nat) (sp : species) : bool := w_on W i && (if sp_unified sp then w_pusher W i else w_dep W).
(** The charge density of the species that are seen, half a time step ahead. *)
Definition charge_seen (D : domain2) (W : switches) (sps : list species) (pss : list (list (list prt))) (i j : Z) : Qc :=
  Q2Qc (qsum (fun x => qsum (charge_of D (sp_q (fst (snd x))) (1#2) i j) (particles (snd (snd x))))
             (filter (fun x => seen W (fst x) (fst (snd x))) (combine (seq 0 (length sps)) (combine sps pss)))).
