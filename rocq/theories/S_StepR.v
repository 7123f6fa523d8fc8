(** Vocabulary for Gauss' law in steps with collisions and QED events. *)
From Coq Require Import QArith Qcanon.
From Verif Require Import Base M_Step S_Step S_Gauss M_StepR.
Local Open Scope list_scope.
Local Open Scope Z_scope.

(** Change of the charge density (of the particles half a time step ahead) in the two stages of one step. *)
Definition shifted (D : domain2) (sps : list species) (t : turn) (i j : Z) : Qc :=
  ((charge D sps (after_collisions t) i j - charge D sps (before_collisions t) i j) +
   (charge D sps (after_qed t) i j - charge D sps (before_qed t) i j))%Qc.
(** ... and summed over the steps of a run. *)
Definition shifted_all (D : domain2) (sps : list species) (ts : list turn) (i j : Z) : Qc :=
  fold_right (fun t v => (shifted D sps t i j + v)%Qc) (Q2Qc 0) ts.
(** The two species of every pair have opposite charges. *)
Definition opposite (sps : list species) (pairs : list (nat * nat)) : Prop :=
  forall i j, In (i, j) pairs -> forall sp sp', nth_error sps i = Some sp -> nth_error sps j = Some sp' -> (sp_q sp == - sp_q sp')%Q.
