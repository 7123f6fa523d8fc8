(** The field solver and its absorbing layers over the real numbers. *)
From Coq Require Import Reals.
From Verif Require Import Base M_Layout M_FieldSync M_Maxwell M_Cpml.
Local Open Scope R_scope.
Definition RA (c2 e0 : R) : arith R := {| plus_ := Rplus; minus_ := Rminus; times_ := Rmult; over_ := Rdiv; minus1_ := Ropp; csq := c2; eps0 := e0 |}.
Definition RK (th : Z) (km am sm : R) : layer R := {| one_ := 1; half_ := 1 / 2; ofZ_ := IZR; exp_ := exp; thick := th; kmax := km; amax := am; smax := sm |}.
(** what an update reads: time step, the other field, the current, the field itself *)
Definition reading : Type := R * memory R * memory R * memory R.
(** time step positive, values of the other field within M *)
Definition within_bound (M : R) (u : reading) : Prop := let '(dt, mO, _, _) := u in 0 < dt /\ forall a, Rabs (mO a) <= M.
(** what the layers remember after updates that read the listed fields one after the other *)
Definition remembered (up : R -> memory R -> memory R -> memory R * (pml_side -> memory R) -> memory R * (pml_side -> memory R)) (l : list reading) (psi : pml_side -> memory R) : pml_side -> memory R :=
  fold_left (fun psi (u : reading) => let '(dt, mO, mJ, m) := u in snd (up dt mO mJ (m, psi))) l psi.
