(** Vocabulary for the statements about collisions: momentum and energy of particles, in units of c and c^2. *)
From Coq Require Import Reals.
From Verif Require Import Base M_Push S_Push M_Collision.
Local Open Scope R_scope.

(** the stored inverse gamma is that of the stored momentum *)
Definition consistent (a : cpart) : Prop := c_ig a = / gamma (c_u a).
Definition momentum (m : R) (a : cpart) : vec R := vscale (c_w a * m) (c_u a).
Definition energy (m : R) (a : cpart) : R := c_w a * m * gamma (c_u a).

(** sums over a particle array *)
Definition total_momentum (m : R) (l : list cpart) : vec R := fold_right (fun a s => vadd (momentum m a) s) (0, 0, 0) l.
Definition total_energy (m : R) (l : list cpart) : R := fold_right (fun a s => energy m a + s) 0 l.

(** random numbers as the generator delivers them *)
Definition random_ok (r : R * R * R) : Prop := let '(U1, phi, U) := r in 0 <= U1 < 1 /\ 0 <= U < 1.
(** a particle of weight [w] with its own inverse gamma *)
Definition good (w : R) (a : cpart) : Prop := consistent a /\ c_w a = w.
(** a collision to be done: positive corrections, random numbers as drawn *)
Definition job_ok (j : job) : Prop := 0 < j_w j /\ 0 <= j_dt j /\ random_ok (j_rnd j).
(** the slots in [used] hold such particles; the contents of the others (dead particles) do not matter *)
Definition all_good (w : R) (used : nat -> Prop) (l : list cpart) : Prop :=
  forall i a, used i -> nth_error l i = Some a -> good w a.
