(** Vocabulary for the statements about the field solver. *)
From Coq Require Import Field_theory.
From Verif Require Import Base M_Layout M_PartSync S_PartSync M_FieldSync S_FieldSync M_Maxwell.
Local Open Scope Z_scope.

Section Grid.
Context {V : Type} (zero : V).
Variables (axes : list axis) (ns : list Z) (ng : Z) (n : nat) (position : nat -> list Z).

(** Value of a field of the whole grid at cell c of patch p; zero beyond an open end. *)
Definition shown (F : nat -> list Z -> V) (p f : nat) (c : list Z) : V :=
  match place axes ns (position p) c with Some g => F f g | None => zero end.
(** The arrays of the patches show one field of the whole grid: every cell, guard cells included, holds the value at
    its place; guard cells beyond an open end hold zero. *)
Definition shows (F : nat -> list Z -> V) (m : addr -> V) : Prop :=
  forall f p c, (f < 3)%nat -> (p < n)%nat -> within ng ns c -> m (cell ns ng f p c) = shown F p f c.
(** the same for the cells inside the patches only *)
Definition shows_inside (F : nat -> list Z -> V) (m : addr -> V) : Prop :=
  forall f p c, (f < 3)%nat -> (p < n)%nat -> interior ns c -> m (cell ns ng f p c) = shown F p f c.
End Grid.

(** A history of field updates, each followed by the exchange of the guard cells of the updated field; the exchange is
    what C07 (one process) and C11 (several processes) establish. *)
Inductive op_ (V : Type) := UpE (dt : V) (mJ : addr -> V) | UpB (dt : V).
Arguments UpE {V}. Arguments UpB {V}.
Section History.
Context {V : Type}.
Variables (upE : V -> (addr -> V) -> (addr -> V) -> (addr -> V) -> addr -> V) (upB : V -> (addr -> V) -> (addr -> V) -> addr -> V).
Variable exchanged : (addr -> V) -> (addr -> V) -> Prop.
Inductive history : list (op_ V) -> (addr -> V) * (addr -> V) -> (addr -> V) * (addr -> V) -> Prop :=
| h_nil s : history [] s s
| h_E dt mJ l mE mB mE' s : exchanged (upE dt mB mJ mE) mE' -> history l (mE', mB) s -> history (UpE dt mJ :: l) (mE, mB) s
| h_B dt l mE mB mB' s : exchanged (upB dt mE mB) mB' -> history l (mE, mB') s -> history (UpB dt :: l) (mE, mB) s.
End History.

(** Two decompositions of one grid: the same number of cells and the same boundary conditions along every axis. *)
Definition same_grid (axes : list axis) (ns : list Z) (axes' : list axis) (ns' : list Z) : Prop :=
  Forall2 (fun an an' : axis * Z => ax_n (fst an) * snd an = ax_n (fst an') * snd an' /\ ax_lo (fst an) = ax_lo (fst an'))
    (combine axes ns) (combine axes' ns').

(** The two histories perform the same updates with the same currents on the whole grid. *)
Definition same_op {V} (sh sh' : (nat -> list Z -> V) -> (addr -> V) -> Prop) (o o' : op_ V) : Prop :=
  match o, o' with
  | UpE dt mJ, UpE dt' mJ' => dt = dt' /\ exists FJ, sh FJ mJ /\ sh' FJ mJ'
  | UpB dt, UpB dt' => dt = dt'
  | _, _ => False
  end.

(** Divergences of a field with components [get 0], [get 1], [get 2]: forward differences for B, backward differences
    for E and J (the staggered grid). *)
Section Div.
Context {V : Type} (A : arith V).
Variable get : nat -> list Z -> V.
Local Notation diff f hi lo d := (over_ A (minus_ A (get f hi) (get f lo)) d).
Definition divB2 (dx dy : V) (i j : Z) : V := plus_ A (diff 0%nat [i + 1; j] [i; j] dx) (diff 1%nat [i; j + 1] [i; j] dy).
Definition divE2 (dx dy : V) (i j : Z) : V := plus_ A (diff 0%nat [i; j] [i - 1; j] dx) (diff 1%nat [i; j] [i; j - 1] dy).
Definition divB3 (dx dy dz : V) (i j k : Z) : V :=
  plus_ A (plus_ A (diff 0%nat [i + 1; j; k] [i; j; k] dx) (diff 1%nat [i; j + 1; k] [i; j; k] dy)) (diff 2%nat [i; j; k + 1] [i; j; k] dz).
Definition divE3 (dx dy dz : V) (i j k : Z) : V :=
  plus_ A (plus_ A (diff 0%nat [i; j; k] [i - 1; j; k] dx) (diff 1%nat [i; j; k] [i; j - 1; k] dy)) (diff 2%nat [i; j; k] [i; j; k - 1] dz).
End Div.
(** the operations are those of a field (exact arithmetic) *)
Definition is_field {V} (A : arith V) (zero : V) : Prop :=
  exists one inv, field_theory zero one (plus_ A) (times_ A) (minus_ A) (minus1_ A) (over_ A) inv (@eq V).

(** what a sequence of updates with current divergences [snd] does to div E (each update of E over dt subtracts
    dt/eps0 * div J), and what the continuity equation does to the charge density over the same updates *)
Section Carry.
Context {V : Type} (A : arith V).
Definition carried (l : list (op_ V * V)) (d : V) : V :=
  fold_left (fun d oj => match fst oj with UpE dt _ => minus_ A d (times_ A (over_ A dt (eps0 A)) (snd oj)) | UpB _ => d end) l d.
Definition charge_after (l : list (op_ V * V)) (rho : V) : V :=
  fold_left (fun r oj => match fst oj with UpE dt _ => minus_ A r (times_ A dt (snd oj)) | UpB _ => r end) l rho.
End Carry.
(** FJs lists, for every update, the current density of the whole grid it reads *)
Definition currents_are {V} (shi : (nat -> list Z -> V) -> (addr -> V) -> Prop) (l : list (op_ V)) (FJs : list (nat -> list Z -> V)) : Prop :=
  Forall2 (fun o FJ => match o with UpE _ mJ => shi FJ mJ | UpB _ => True end) l FJs.
