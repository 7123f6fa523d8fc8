(** C73: coefficients and memory of the absorbing layers over the real numbers. *)
From Coq Require Import Field_theory Reals Lra.
From Verif Require Import Base M_Layout S_Layout M_PartSync S_PartSync M_FieldSync S_FieldSync M_Maxwell S_Maxwell M_Cpml S_Cpml S_CpmlR.
From Verif Require Import P_Cpml P_Cpml3 P_CpmlR.
Local Open Scope R_scope.

(** C73: with kappa_max >= 1, a_max >= 0 and a positive conductivity, at every cell of a layer the scaling is at least one,
    the conductivity positive, and the decay factor of the memory strictly between 0 and 1. *)
Theorem C73_coefficients : forall c2 e0 th km am sm, (0 < th)%Z -> 1 <= km -> 0 <= am -> 0 < sm ->
  forall e s n i dt d, in_range (RK th km am sm) e s n i = true -> 0 < dt -> 0 < d ->
  1 <= kappa_in (RA c2 e0) (RK th km am sm) e s n i /\ 0 < sigma_in (RA c2 e0) (RK th km am sm) e s n i /\
  0 < bcoeff (RA c2 e0) (RK th km am sm) e s n i dt < 1 /\
  Rabs (ccoeff (RA c2 e0) (RK th km am sm) e s n i dt d) <= (1 - bcoeff (RA c2 e0) (RK th km am sm) e s n i dt) / d.
Proof.
  intros c2 e0 th km am sm H1 H2 H3 H4 e s n i dt d HR Hdt Hd. destruct (coefficients c2 e0 th km am sm H1 H2 H3 H4 e s n i dt d HR Hdt Hd) as (R1 & R2 & _ & R3 & R4). auto.
Qed.
(** C73: through any number of updates with any time steps and any fields, as long as the field the updates read stays within
    M, what the layers remember stays within 2 M / (cell size along the layer's axis). *)
Theorem C73_memory_bounded_2d : forall c2 e0 th km am sm nx ny ng dx dy n pmls M,
  (0 < th)%Z -> 1 <= km -> 0 <= am -> 0 < sm -> (0 < ng)%Z -> (ng <= nx)%Z -> (ng <= ny)%Z -> 0 < dx -> 0 < dy -> (forall p, (p < n)%nat -> NoDup (pmls p)) ->
  (forall p s, (p < n)%nat -> In s (pmls p) -> (axis_of s < 2)%nat) -> 0 <= M ->
  forall l psi, fresh_layers 0 psi -> Forall (within_bound M) l ->
  forall p s f c, (p < n)%nat -> In s (pmls p) -> (f < 3)%nat -> interior [nx; ny] c ->
  Rabs (remembered (solver_e2 (RA c2 e0) (RK th km am sm) nx ny ng dx dy n pmls) l psi s (pcell [nx; ny] f p c)) <= 2 * M / nth (axis_of s) [dx; dy] 1 /\
  Rabs (remembered (fun dt mE _ => solver_b2 (RA c2 e0) (RK th km am sm) nx ny ng dx dy n pmls dt mE) l psi s (pcell [nx; ny] f p c)) <= 2 * M / nth (axis_of s) [dx; dy] 1.
Proof.
  intros c2 e0 th km am sm nx ny ng dx dy n pmls M H1 H2 H3 H4 Hg Hx Hy Dx Dy NL Hax HM l psi H0 HF p s f c Hp Is Hf Hc.
  assert (Hd : 0 < nth (axis_of s) [dx; dy] 1) by (pose proof (Hax p s Hp Is) as Q; clear - Q Dx Dy; destruct s; cbn in Q |- * ; first [assumption|exfalso; lia]).
  assert (B0 : Rabs (psi s (pcell [nx; ny] f p c)) <= 2 * M / nth (axis_of s) [dx; dy] 1).
  { rewrite H0, Rabs_R0. apply Rmult_le_pos; [lra|]. left. now apply Rinv_0_lt_compat. }
  split.
  - apply (run_bound c2 e0 th km am sm [nx; ny] ng [dx; dy] n pmls true _ _ M H1 H2 H3 H4 (solver_e2_ok (RA c2 e0) (RK th km am sm) 0 Rinv (RAfield c2 e0) nx ny ng dx dy n pmls NL Hg Hx Hy) l psi HF p s f c Hp Is Hf Hc Hd B0).
  - apply (run_bound c2 e0 th km am sm [nx; ny] ng [dx; dy] n pmls false _ (fun dt mE _ => solver_b2 (RA c2 e0) (RK th km am sm) nx ny ng dx dy n pmls dt mE) M H1 H2 H3 H4
      (solver_b2_ok (RA c2 e0) (RK th km am sm) 0 Rinv (RAfield c2 e0) nx ny ng dx dy n pmls NL Hg Hx Hy) l psi HF p s f c Hp Is Hf Hc Hd B0).
Qed.
Theorem C73_memory_bounded_3d : forall c2 e0 th km am sm nx ny nz ng dx dy dz n pmls M,
  (0 < th)%Z -> 1 <= km -> 0 <= am -> 0 < sm -> (0 < ng)%Z -> (ng <= nx)%Z -> (ng <= ny)%Z -> (ng <= nz)%Z -> 0 < dx -> 0 < dy -> 0 < dz -> (forall p, (p < n)%nat -> NoDup (pmls p)) -> 0 <= M ->
  forall l psi, fresh_layers 0 psi -> Forall (within_bound M) l ->
  forall p s f c, (p < n)%nat -> In s (pmls p) -> (f < 3)%nat -> interior [nx; ny; nz] c ->
  Rabs (remembered (solver_e3 (RA c2 e0) (RK th km am sm) nx ny nz ng dx dy dz n pmls) l psi s (pcell [nx; ny; nz] f p c)) <= 2 * M / nth (axis_of s) [dx; dy; dz] 1 /\
  Rabs (remembered (fun dt mE _ => solver_b3 (RA c2 e0) (RK th km am sm) nx ny nz ng dx dy dz n pmls dt mE) l psi s (pcell [nx; ny; nz] f p c)) <= 2 * M / nth (axis_of s) [dx; dy; dz] 1.
Proof.
  intros c2 e0 th km am sm nx ny nz ng dx dy dz n pmls M H1 H2 H3 H4 Hg Hx Hy Hz Dx Dy Dz NL HM l psi H0 HF p s f c Hp Is Hf Hc.
  assert (Hd : 0 < nth (axis_of s) [dx; dy; dz] 1) by (destruct s; cbn; assumption).
  assert (B0 : Rabs (psi s (pcell [nx; ny; nz] f p c)) <= 2 * M / nth (axis_of s) [dx; dy; dz] 1).
  { rewrite H0, Rabs_R0. apply Rmult_le_pos; [lra|]. left. now apply Rinv_0_lt_compat. }
  split.
  - apply (run_bound c2 e0 th km am sm [nx; ny; nz] ng [dx; dy; dz] n pmls true _ _ M H1 H2 H3 H4 (solver_e3_ok (RA c2 e0) (RK th km am sm) 0 Rinv (RAfield c2 e0) nx ny nz ng dx dy dz n pmls NL Hg Hx Hy Hz) l psi HF p s f c Hp Is Hf Hc Hd B0).
  - apply (run_bound c2 e0 th km am sm [nx; ny; nz] ng [dx; dy; dz] n pmls false _ (fun dt mE _ => solver_b3 (RA c2 e0) (RK th km am sm) nx ny nz ng dx dy dz n pmls dt mE) M H1 H2 H3 H4
      (solver_b3_ok (RA c2 e0) (RK th km am sm) 0 Rinv (RAfield c2 e0) nx ny nz ng dx dy dz n pmls NL Hg Hx Hy Hz) l psi HF p s f c Hp Is Hf Hc Hd B0).
Qed.
(** the hypotheses are met: default thickness 6 and kappa_max 20, a patch of 16 x 16 cells with a layer on two sides *)
Example ex_C73 : (0 < 6)%Z /\ 1 <= 20 /\ 0 <= 3 / 20 /\ 0 < 1 / 10 /\ NoDup [PXmin; PYmax] /\ in_range (RK 6 20 (3 / 20) (1 / 10)) true PYmax 16 12 = true /\
  Forall (within_bound 1) [(1, fun _ => 1, fun _ => 0, fun _ => 0); (1 / 2, fun _ => - 1, fun _ => 0, fun _ => 5)].
Proof.
  split; [lia|]. split; [lra|]. split; [lra|]. split; [lra|]. split; [repeat constructor; cbn; intuition discriminate|]. split; [reflexivity|].
  assert (B : forall x, Rabs x = 1 -> Rabs x <= 1) by (intros; lra).
  constructor; [split; [lra|intro; apply B, Rabs_R1]|]. constructor; [|constructor]. split; [lra|intro; apply B; unfold Rabs; destruct (Rcase_abs _); lra].
Qed.
Print Assumptions C73_coefficients.
Print Assumptions C73_memory_bounded_2d.
Print Assumptions C73_memory_bounded_3d.
