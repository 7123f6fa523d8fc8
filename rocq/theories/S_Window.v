(** Vocabulary for C38, C65, C66. *)
From Verif Require Import Base M_Window.
From Coq Require Import QArith.
Local Open Scope nat_scope.
Local Open Scope list_scope.

Section Spec.
Context {F P : Type}.
(** the window has moved by k patch lengths: every place of the grid holds exactly one patch, at its coordinate *)
Definition arranged (npx : nat) (rows : list (nat * nat)) (plx : Q) (k : Z) (ps : list (patch F P)) : Prop :=
  (forall p, In p ps -> ipx p < npx /\ In (row p) rows /\
                        (x0 p == (inject_Z k + inject_Z (Z.of_nat (ipx p))) * plx)%Q)
  /\ NoDup (map (fun p => (ipx p, row p)) ps)
  /\ (forall a r, a < npx -> In r rows -> In (a, r) (map (fun p => (ipx p, row p)) ps)).
(** distance the window should have moved: velocity times time step, from the start time on *)
Fixpoint travelled (start dt : Q) (velocity : Q -> Q) (times : list Q) : Q :=
  match times with
  | [] => 0
  | t :: ts => ((if Qle_bool start t then velocity t * dt else 0) + travelled start dt velocity ts)%Q
  end.
(** is the patch recycled when the window moves by d (-1, 0 or 1) patches? *)
Definition recycled (npx : nat) (d : Z) (p : patch F P) : bool :=
  ((d =? 1)%Z && (ipx p =? 0)) || ((d =? -1)%Z && (ipx p =? npx - 1)).
(** particles are injected at time t *)
Definition injection_on (inject : bool) (stop : option Q) (t : Q) : Prop := inject = true /\ forall s, stop = Some s -> (t < s)%Q.
(** the same patch before and after one call *)
Definition one_call (npx : nat) (lx : Q) (zero : F) (injected : nat -> Prop) (fill : nat -> Q -> nat * nat -> P) (d : Z)
    (p p' : patch F P) : Prop :=
  idx p' = idx p /\ row p' = row p /\
  if recycled npx d p
  then ipx p' = (if (d =? 1)%Z then npx - 1 else 0) /\ (x0 p' == x0 p + inject_Z d * lx)%Q /\ fields p' = zero /\ psi p' = zero
       /\ forall s, injected s -> parts p' s = fill s (x0 p') (row p')
  else x0 p' = x0 p /\ fields p' = fields p /\ psi p' = psi p /\ (forall s, parts p' s = parts p s)
       /\ (Z.of_nat (ipx p') = Z.of_nat (ipx p) - d)%Z.
End Spec.
