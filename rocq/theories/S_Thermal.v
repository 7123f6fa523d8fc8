(** What numpy and scipy promise about random numbers (C139, C140). *)
From Coq Require Import Reals.
From Verif Require Import Base M_Thermal.
Local Open Scope list_scope.
Local Open Scope R_scope.

(** uniform(1, 1 + 10 theta): callback/utils.py:1006, 1018 *)
Definition uniform_proposals (theta : R) (rounds : list (list proposal)) : Prop := forall ps p, In ps rounds -> In p ps -> 1 <= fst p < 1 + 10 * theta.
(** each turn gets as many proposals as it asks for *)
Definition enough (size : nat) (rounds : list (list proposal)) : Prop := forall ps, In ps rounds -> (size <= length ps)%nat.
(** values of a Gamma distribution are not negative *)
Definition gamma_values (size : nat) (xs : list R) : Prop := (size <= length xs)%nat /\ forall x, In x xs -> 0 <= x.

(** The Maxwell-Juettner distribution of the Lorentz factor; [k2] is the Bessel function K2(1/theta). *)
Definition juttner (k2 theta g : R) : R := g * sqrt (g ^ 2 - 1) * exp (- (g / theta)) / (theta * k2).
(** the densities of Gamma distributions of shape 3 and (up to a factor) 3/2 with scale theta *)
Definition gamma3 (theta x : R) : R := x ^ 2 * exp (- (x / theta)) / (2 * theta ^ 3).
Definition gamma32 (theta x : R) : R := sqrt x * exp (- (x / theta)).
