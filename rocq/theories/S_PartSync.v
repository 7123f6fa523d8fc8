(** Specification vocabulary for the particle exchange. *)
From Verif Require Import Base M_Layout M_PartSync.
From Coq Require Import QArith Permutation.
Local Open Scope list_scope.
Local Open Scope nat_scope.

Section Spec.
Context {R Geo : Type}.
(** the particles of a patch *)
Definition alive (l : list (slot R)) : list R := map (@row R) (filter (fun s => negb (dead R s)) l).
(** the exchange code agrees with itself about sides: a side number is below nb, and a row is outside iff it is on some side *)
Definition sides_ok (nb : nat) (classify : Geo -> R -> option nat) (outside : Geo -> R -> bool) : Prop :=
  (forall g r b, classify g r = Some b -> b < nb) /\ (forall g r, outside g r = false <-> classify g r = None).
(** symmetric neighbour relation over n patches *)
Definition nbr_symmetric (n nb : nat) (opp : nat -> nat) (nbr : nat -> nat -> option nat) : Prop :=
  forall p b q, p < n -> b < nb -> nbr p b = Some q -> q < n /\ opp b < nb /\ opp (opp b) = b /\ nbr q (opp b) = Some p.
Definition on_side (classify : Geo -> R -> option nat) (g : Geo) (b : nat) (r : R) : bool :=
  match classify g r with Some b' => b' =? b | None => false end.
(** particles inside their patch; particles that left patch p through side b *)
Definition stayed (classify : Geo -> R -> option nat) (g : Geo) (l : list (slot R)) : list R :=
  filter (fun r => match classify g r with None => true | Some _ => false end) (alive l).
Definition left_by (classify : Geo -> R -> option nat) (g : Geo) (b : nat) (l : list (slot R)) : list R :=
  filter (on_side classify g b) (alive l).
(** particles that left some patch towards q *)
Definition arrivals (nb : nat) (opp : nat -> nat) (classify : Geo -> R -> option nat) (geo : nat -> Geo) (nbr : nat -> nat -> option nat)
    (st : list (list (slot R))) (q : nat) : list R :=
  flat_map (fun b => match nbr q b with Some p => left_by classify (geo p) (opp b) (nth p st []) | None => [] end) (seq 0 nb).
(** particles of p that left towards some neighbour *)
Definition leavers (classify : Geo -> R -> option nat) (geo : nat -> Geo) (nbr : nat -> nat -> option nat)
    (st : list (list (slot R))) (p : nat) : list R :=
  filter (fun r => match classify (geo p) r with Some b => match nbr p b with Some _ => true | None => false end | None => false end) (alive (nth p st [])).
End Spec.

(** ** processes: neighbours reached through messages, and neighbours in the same process *)
Definition over_mpi (remote : nat -> nat -> bool) (nbr : nat -> nat -> option nat) (p b : nat) : option nat := if remote p b then nbr p b else None.
Definition in_process (remote : nat -> nat -> bool) (nbr : nat -> nat -> option nat) (p b : nat) : option nat := if remote p b then None else nbr p b.
(** sides served by messages have a neighbour, and both ends agree *)
Definition remote_ok (n nb : nat) (opp : nat -> nat) (nbr : nat -> nat -> option nat) (remote : nat -> nat -> bool) : Prop :=
  forall p b, p < n -> b < nb ->
    (remote p b = true -> nbr p b <> None) /\ (forall q, nbr p b = Some q -> remote q (opp b) = remote p b).

(** ** geometry of a rectangular domain; the grid of patches of one axis with m cells each and absorbing layers of th cells *)
Local Open Scope Z_scope.
Definition lo_layer (a : axis) (th k : Z) : Z := if (k =? 0) && bc_eqb (ax_lo a) Pml then th else 0.
Definition hi_layer (a : axis) (th k : Z) : Z := if (k =? ax_n a - 1) && bc_eqb (ax_hi a) Pml then th else 0.
Definition ax_geo (a : axis) (m th : Z) (dx : Q) (k : Z) : axgeo := axis_geo (ax_n a * m) (ax_n a) k (lo_layer a th k) (hi_layer a th k) dx.
(** lower end of the cells of patch k: cell centres are at multiples of dx *)
Definition cell_edge (m : Z) (dx : Q) (k : Z) : Q := (inject_Z (k * m) * dx - dx / 2)%Q.
(** coordinate x lies in the cells of patch k *)
Definition in_cells (m : Z) (dx : Q) (k : Z) (x : Q) : Prop := (cell_edge m dx k <= x)%Q /\ (x <= cell_edge m dx (k + 1))%Q.
(** coordinate of a particle of patch k that moved at most one patch (None: NaN) *)
Definition near (m : Z) (dx : Q) (k : Z) (x : option Q) : Prop :=
  match x with Some v => (cell_edge m dx (k - 1) <= v)%Q /\ (v <= cell_edge m dx (k + 2))%Q | None => True end.
(** coordinate inside the absorbing layer of an open end *)
Definition in_layer (a : axis) (m th : Z) (dx : Q) (k : Z) (x : option Q) : Prop :=
  match x with
  | Some v => (k = 0 /\ ax_lo a = Pml /\ (v < cell_edge m dx 0 + inject_Z th * dx)%Q) \/
              (k = ax_n a - 1 /\ ax_hi a = Pml /\ (cell_edge m dx (ax_n a) - inject_Z th * dx < v)%Q)
  | None => False
  end.
Definition in_cells' (m : Z) (dx : Q) (k : Z) (x : option Q) : Prop := match x with Some v => in_cells m dx k v | None => True end.
(** side of a coordinate relative to a patch *)
Definition dir1 (g : axgeo) (x : option Q) : Z := if below x (g_lo g) then -1 else if above x (g_hi g) then 1 else 0.

(** patches of a rectangular domain numbered as the simulation does *)
Definition pnum (p : nat) := Z.of_nat p.
Definition nbr2 (ax ay : axis) (p b : nat) : option nat :=
  match neighbor [ax; ay] (rect2 (ax_n ax) (ax_n ay)) [pnum p mod ax_n ax; pnum p / ax_n ax] (nth b bounds2 []) with Nb (Some k) => Some (Z.to_nat k) | _ => None end.
Definition opp2 (b : nat) : nat := nth b opposite2 0%nat.
Definition geo2 (ax ay : axis) (mx my th : Z) (dx dy : Q) (p : nat) : axgeo * axgeo :=
  (ax_geo ax mx th dx (pnum p mod ax_n ax), ax_geo ay my th dy (pnum p / ax_n ax)).
Definition nbr3 (ax ay az : axis) (p b : nat) : option nat :=
  match neighbor [ax; ay; az] (rect3 (ax_n ax) (ax_n ay) (ax_n az)) [pnum p mod ax_n ax; (pnum p / ax_n ax) mod ax_n ay; pnum p / ax_n ax / ax_n ay] (nth b bounds3 []) with
  | Nb (Some k) => Some (Z.to_nat k) | _ => None end.
Definition opp3 (b : nat) : nat := nth b opposite3 0%nat.
Definition geo3 (ax ay az : axis) (mx my mz th : Z) (dx dy dz : Q) (p : nat) : axgeo * axgeo * axgeo :=
  (ax_geo ax mx th dx (pnum p mod ax_n ax), ax_geo ay my th dy ((pnum p / ax_n ax) mod ax_n ay), ax_geo az mz th dz (pnum p / ax_n ax / ax_n ay)).
(** sides served by messages when patch p is held by process [rank p] *)
Definition remote_of (rank : nat -> nat) (nbr : nat -> nat -> option nat) (p b : nat) : bool :=
  match nbr p b with Some q => negb (rank p =? rank q)%nat | None => false end.
