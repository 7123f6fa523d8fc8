(** Specification vocabulary for the field exchange. Coordinates of a cell of a patch: 0 .. n-1 inside, -ng .. -1 and n .. n+ng-1
    in the guard layers (as numpy indices: negative from the end). *)
From Verif Require Import Base M_Layout M_PartSync S_PartSync M_FieldSync.
Local Open Scope Z_scope.

(** cell coordinates inside the patch; inside the array *)
Definition interior (ns c : list Z) : Prop := Forall2 (fun n x => 0 <= x < n) ns c.
Definition within (ng : Z) (ns c : list Z) : Prop := Forall2 (fun n x => - ng <= x < n + ng) ns c.
Definition within_b (ng : Z) (ns c : list Z) : bool := forallb (fun nx => (- ng <=? snd nx) && (snd nx <? fst nx + ng)) (combine ns c).
Definition interior_b (ns c : list Z) : bool := forallb (fun nx => (0 <=? snd nx) && (snd nx <? fst nx)) (combine ns c).
(** the side of the patch a cell belongs to: an offset per axis, all zero for interior cells *)
Definition sides_of (ns c : list Z) : list Z := map (fun nx => if snd nx <? 0 then -1 else if snd nx <? fst nx then 0 else 1) (combine ns c).
(** the same place in the coordinates of the neighbour at offset d *)
Definition seen_from (ns d c : list Z) : list Z := map (fun t => snd t - snd (fst t) * fst (fst t)) (combine (combine ns d) c).
(** the neighbour at offset d *)
Definition facing (bounds : list (list Z)) (nbr : nat -> nat -> option nat) (p : nat) (d : list Z) : option nat :=
  match find (fun b => list_eqb (nth b bounds []) d) (seq 0 (length bounds)) with Some b => nbr p b | None => None end.
(** cell c of field f of patch p *)
Definition cell (ns : list Z) (ng : Z) (f p : nat) (c : list Z) : addr := Fld f p (index (extents ns ng) c).

Section Spec.
Context {V : Type}.
Variable zero : V.
Variable plus : V -> V -> V.
(** a commutative addition *)
Definition monoid : Prop := (forall x, plus x zero = x) /\ (forall x y, plus x y = plus y x) /\ (forall x y z, plus x (plus y z) = plus (plus x y) z).
Definition total (l : list V) : V := fold_right plus zero l.
(** value of cell c after a guard exchange *)
Definition guard_result (bounds : list (list Z)) (ns : list Z) (ng : Z) (nbr : nat -> nat -> option nat) (m : addr -> V) (f p : nat) (c : list Z) : V :=
  match facing bounds nbr p (sides_of ns c) with
  | Some q => m (cell ns ng f q (seen_from ns (sides_of ns c) c))
  | None => m (cell ns ng f p c)
  end.
(** what neighbour q at offset d deposited in its guard cells at the place of cell c *)
Definition deposited (ns : list Z) (ng : Z) (m : addr -> V) (f q : nat) (d c : list Z) : V :=
  if within_b ng ns (seen_from ns d c) then m (cell ns ng f q (seen_from ns d c)) else zero.
(** value of cell c after a current exchange *)
Definition current_result (bounds : list (list Z)) (ns : list Z) (ng : Z) (nbr : nat -> nat -> option nat) (m : addr -> V) (f p : nat) (c : list Z) : V :=
  if interior_b ns c then
    plus (m (cell ns ng f p c))
      (total (map (fun b => match nbr p b with Some q => deposited ns ng m f q (nth b bounds []) c | None => zero end) (seq 0 (length bounds))))
  else match facing bounds nbr p (sides_of ns c) with Some _ => zero | None => m (cell ns ng f p c) end.
(** sum of a field over all cells of all patches *)
Definition domain_total (ns : list Z) (ng : Z) (n f : nat) (m : addr -> V) : V :=
  total (flat_map (fun p => map (fun o => m (Fld f p o)) (zseq (volume (extents ns ng)))) (seq 0 n)).
End Spec.
(** the send a receive is meant for: the neighbour's opposite side and the same attribute / species *)
Definition intended (opp : nat -> nat) (nbr : nat -> nat -> option nat) (rank : nat -> nat) (r s : msg) : Prop :=
  away nbr rank (m_patch r) (m_side r) = Some (m_patch s) /\ m_side s = opp (m_side r) /\ m_item s = m_item r.

(** ** the exchange seen from the whole grid *)
(** cell x of the patch at position i along an axis of patches of n cells each, as a cell of the whole grid;
    None: beyond an open end *)
Definition place1 (a : axis) (n i x : Z) : option Z :=
  let g := i * n + x in
  if (0 <=? g) && (g <? ax_n a * n) then Some g
  else if bc_eqb (ax_lo a) Periodic then Some (g mod (ax_n a * n)) else None.
Fixpoint place (axes : list axis) (ns i c : list Z) : option (list Z) :=
  match axes, ns, i, c with
  | a :: axes', n :: ns', k :: i', x :: c' =>
      match place1 a n k x, place axes' ns' i' c' with Some g, Some r => Some (g :: r) | _, _ => None end
  | _, _, _, _ => Some []
  end.
(** position of patch p in the grid of patches *)
Definition position2 (ax : axis) (p : nat) : list Z := [Z.of_nat p mod ax_n ax; Z.of_nat p / ax_n ax].
Definition position3 (ax ay : axis) (p : nat) : list Z := [Z.of_nat p mod ax_n ax; (Z.of_nat p / ax_n ax) mod ax_n ay; Z.of_nat p / ax_n ax / ax_n ay].
(** all cells of a patch including guard cells; all (patch, cell) lying at place g *)
Definition all_cells (ng : Z) (ns : list Z) : list (list Z) := map (map (fun i => i - ng)) (block (extents ns ng)).
Definition copies_of (axes : list axis) (ns : list Z) (ng : Z) (n : nat) (position : nat -> list Z) (g : list Z) : list (nat * list Z) :=
  filter (fun qc => match place axes ns (position (fst qc)) (snd qc) with Some g' => list_eqb g' g | None => false end)
    (list_prod (seq 0 n) (all_cells ng ns)).

(** ** what an exchange of all patches does to the memory *)
Section Done.
Variables (bounds : list (list Z)) (ns : list Z) (ng : Z) (n : nat) (nbr : nat -> nat -> option nat).
Context {V : Type} (zero : V) (plus : V -> V -> V).
(** every cell of the first nf fields has its new value and nothing else changes *)
Definition guards_exchanged (nf : nat) (m m' : addr -> V) : Prop :=
  (forall f p c, (f < nf)%nat -> (p < n)%nat -> within ng ns c -> m' (cell ns ng f p c) = guard_result bounds ns ng nbr m f p c) /\
  (forall a, (forall f p c, (f < nf)%nat -> (p < n)%nat -> within ng ns c -> a <> cell ns ng f p c) -> m' a = m a).
(** every cell of jx, jy, jz, rho has its new value, cells away from the sides keep theirs, the sum over the domain is the same *)
Definition currents_exchanged (m m' : addr -> V) : Prop :=
  (forall f p c, (f < 4)%nat -> (p < n)%nat -> within ng ns c -> m' (cell ns ng f p c) = current_result zero plus bounds ns ng nbr m f p c) /\
  (forall f p c, (f < 4)%nat -> (p < n)%nat -> Forall2 (fun k x => ng <= x < k - ng) ns c -> m' (cell ns ng f p c) = m (cell ns ng f p c)) /\
  (forall f, (f < 4)%nat -> domain_total zero plus ns ng n f m' = domain_total zero plus ns ng n f m).
End Done.
