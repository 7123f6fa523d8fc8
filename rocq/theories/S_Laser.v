(** Vocabulary for the statements about laser injection. *)
From Coq Require Import QArith.
From Verif Require Import Base M_Layout M_PartSync S_PartSync M_FieldSync S_FieldSync M_Maxwell S_Maxwell M_Cpml S_Cpml M_Deposit M_Push M_Laser.
Local Open Scope list_scope.
Local Open Scope Z_scope.

Section Laser.
Context {V : Type} (A : arith V) (K : layer V) (cl zero : V).
Local Notation "x +. y" := (plus_ A x y) (at level 50, left associativity).
Local Notation "x -. y" := (minus_ A x y) (at level 50, left associativity).
Local Notation "x *. y" := (times_ A x y) (at level 40, left associativity).

(** the numbers of the model are what they are called *)
Definition numbers : Prop :=
  exact_arith A zero (one_ K) /\ half_ K +. half_ K = one_ K /\ ofZ_ K 2 = one_ K +. one_ K /\ ofZ_ K 4 = ofZ_ K 2 +. ofZ_ K 2 /\ csq A = cl *. cl /\ eps0 A <> zero.

(** ** the wave travelling to the right through the plane x = c_0 at cell c: Ey + c Bz and Ez - c By, with the magnetic
    field averaged over the two samples half a cell left and right of the plane (a wave with Ey = c Bz shows as 2 Ey) *)
Definition one_left (c : list Z) : list Z := match c with i :: r => (i - 1) :: r | [] => [] end.
Section Wave.
Variables (ns : list Z) (ng : Z) (mE mB : addr -> V) (p : nat) (c : list Z).
Definition wave_y : V := mE (cell ns ng 1 p c) +. cl *. (half_ K *. (mB (cell ns ng 2 p (one_left c)) +. mB (cell ns ng 2 p c))).
Definition wave_z : V := mE (cell ns ng 2 p c) -. cl *. (half_ K *. (mB (cell ns ng 1 p (one_left c)) +. mB (cell ns ng 1 p c))).
End Wave.

(** ** what the user asked for: the sum over the pulses that are not yet over, each centred where it was asked to be, in the
    middle of the domain by default *)
Fixpoint pulses (l : laser) : list (Q * option Q * option Q * (Q -> Q -> Q -> V * V)) :=
  match l with Pulse t y0 z0 f => [(t, y0, z0, f)] | Both a b => pulses a ++ pulses b end.
Definition asked (o : option Q) (len : Q) : Q := match o with Some v => v | None => (len / 2)%Q end.
(** [size a], [step a]: length of the domain and cell size along axis a = 1, 2 (0 for a missing axis) *)
Section Requested.
Variables (Ly Lz dy dz : Q) (three : bool) (time : Q).
Definition field_of (u : Q * option Q * option Q * (Q -> Q -> Q -> V * V)) (y z : Q) : V * V :=
  let '(t, y0, z0, f) := u in
  if Qle_bool t (LIGHT_SPEED * time) then (zero, zero)
  else f time (y - dy / 2 - asked y0 Ly)%Q (if three then (z - dz / 2 - asked z0 Lz)%Q else 0%Q).
Definition requested_y (l : laser) (y z : Q) : V := total zero (plus_ A) (map (fun u => fst (field_of u y z)) (pulses l)).
Definition requested_z (l : laser) (y z : Q) : V := total zero (plus_ A) (map (fun u => snd (field_of u y z)) (pulses l)).
End Requested.
(** no pulse is asked to be centred at the coordinate zero *)
Definition centred (l : laser) : Prop :=
  Forall (fun u : Q * option Q * option Q * (Q -> Q -> Q -> V * V) => let '(_, y0, z0, _) := u in
    match y0 with Some v => ~ (v == 0)%Q | None => True end /\ match z0 with Some v => ~ (v == 0)%Q | None => True end) (pulses l).
(** some pulse is not yet over *)
Definition running (time : Q) (l : laser) : Prop := exists u, In u (pulses l) /\ let '(t, _, _, _) := u in (LIGHT_SPEED * time < t)%Q.
End Laser.
