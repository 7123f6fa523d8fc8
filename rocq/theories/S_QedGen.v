(** Vocabulary for the generation of the tables of the QED processes. *)
From Verif Require Import Base M_QedTable S_QedTable.
From Coq Require Import QArith.
Local Open Scope Z_scope.

(** functions that take equal values at equal rational arguments *)
Definition regular (f : Q -> Q) : Prop := forall a b, (a == b)%Q -> (f a == f b)%Q.
Definition regular2 (f : Q -> Q -> Q) : Prop := forall a b c d, (a == b)%Q -> (c == d)%Q -> (f a c == f b d)%Q.
Definition rising (f : Q -> Q) : Prop := regular f /\ forall a b, (a < b)%Q -> (f a < f b)%Q.
(** 10** : increasing and positive, 10**0 = 1 *)
Definition powers (pow10 : Q -> Q) : Prop := rising pow10 /\ (pow10 0 == 1)%Q /\ forall a, (0 < pow10 a)%Q.
(** 1 / (1 + exp(-x)) : increasing, between 0 and 1 *)
Definition logistic (f : Q -> Q) : Prop := rising f /\ forall a, (0 < f a)%Q /\ (f a < 1)%Q.

(** a spectrum over chi and the fraction: positive for fractions strictly between 0 and 1 *)
Definition emission (f : Q -> Q -> Q) : Prop :=
  regular2 f /\ forall chi d, (0 < chi)%Q -> (0 < d)%Q -> (d < 1)%Q -> (0 < f chi d)%Q.

(** the quadrature only looks at the values of its argument *)
Definition extensional (quad : (Q -> Q) -> Q -> Q -> Q) : Prop :=
  forall f g a b a' b', (forall x y, (x == y)%Q -> (f x == g y)%Q) -> (a == a')%Q -> (b == b')%Q ->
    (quad f a b == quad g a' b')%Q.
(** what is used of the integral of f between 0 and 1: it splits at any point and lies between the rectangles *)
Definition integrates (quad : (Q -> Q) -> Q -> Q -> Q) (f : Q -> Q) : Prop :=
  (forall a b c, (0 <= a)%Q -> (a <= b)%Q -> (b <= c)%Q -> (c <= 1)%Q -> (quad f a c == quad f a b + quad f b c)%Q) /\
  (forall a b m, (0 <= a)%Q -> (a <= b)%Q -> (b <= 1)%Q ->
     (forall x, (a < x)%Q -> (x < b)%Q -> (m <= f x)%Q) -> (m * (b - a) <= quad f a b)%Q) /\
  (forall a b m, (0 <= a)%Q -> (a <= b)%Q -> (b <= 1)%Q ->
     (forall x, (a < x)%Q -> (x < b)%Q -> (f x <= m)%Q) -> (quad f a b <= m * (b - a))%Q).
(** a spectrum that falls with the fraction, up to 0 at the end *)
Definition falling (f : Q -> Q) : Prop := forall a b, (0 < a)%Q -> (a <= b)%Q -> (b <= 1)%Q -> (f b <= f a)%Q.

(** the chi and the fraction that belong to row i and column j *)
Definition chi_of (pow10 : Q -> Q) (g : table_grid) (i : Z) : Q := pow10 (chi_at g i).
Definition fraction_of (pow10 : Q -> Q) (g : table_grid) (j : Z) : Q := pow10 (delta_at g j).

(** the tables hold the spectrum f, which counts as 0 at the fraction 1: the total rate in each row of [rates]; in each row
    of [rows] the rate below the first fraction, then one rectangle more for each fraction, as high as f at the right end *)
Definition counted (f : Q -> Q) (d v : Q) : Prop := (d == 1 /\ v == 0)%Q \/ (~ d == 1 /\ v == f d)%Q.
Definition tabulates (quad : (Q -> Q) -> Q -> Q -> Q) (g : table_grid) (chi fraction : Z -> Q) (f : Q -> Q -> Q)
  (rates : list Q) (rows : list (list Q)) : Prop :=
  forall i, 0 <= i < chi_N g -> exists P : Q -> Q,
    (forall d, counted (f (chi i)) d (P d)) /\
    (at1 rates i == quad P 0 1)%Q /\
    (at2 rows i 0 == quad P 0 (fraction 0%Z))%Q /\
    (forall j, 0 <= j < delta_N g - 1 ->
       (at2 rows i (j + 1) == at2 rows i j + P (fraction (j + 1)%Z) * (fraction (j + 1)%Z - fraction j))%Q).
