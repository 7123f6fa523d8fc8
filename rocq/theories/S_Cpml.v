(** Vocabulary for the statements about absorbing layers. *)
From Coq Require Import Field_theory.
From Verif Require Import Base M_Layout M_PartSync S_PartSync M_FieldSync S_FieldSync M_Maxwell S_Maxwell M_Cpml.
Local Open Scope Z_scope.

(** exact arithmetic with the given zero and one *)
Definition exact_arith {V} (A : arith V) (zero one : V) : Prop :=
  exists inv, field_theory zero one (plus_ A) (times_ A) (minus_ A) (minus1_ A) (over_ A) inv (@eq V).

(** state of a run: electric and magnetic field, auxiliary arrays of the layers for both *)
Record pstate (V : Type) := mkPS { ps_E : addr -> V; ps_B : addr -> V; ps_pE : pml_side -> addr -> V; ps_pB : pml_side -> addr -> V }.
Arguments mkPS {V}. Arguments ps_E {V}. Arguments ps_B {V}. Arguments ps_pE {V}. Arguments ps_pB {V}.

(** a history of updates, each followed by the exchange of guard cells of the updated field (as in S_Maxwell) *)
Section History.
Context {V : Type}.
Notation psi := (pml_side -> addr -> V).
Variables (upE : V -> (addr -> V) -> (addr -> V) -> (addr -> V) * psi -> (addr -> V) * psi) (upB : V -> (addr -> V) -> (addr -> V) * psi -> (addr -> V) * psi).
Variable exchanged : (addr -> V) -> (addr -> V) -> Prop.
Inductive phistory : list (op_ V) -> pstate V -> pstate V -> Prop :=
| ph_nil s : phistory [] s s
| ph_E dt mJ l mE mB pE pB mE1 pE1 mE2 s : upE dt mB mJ (mE, pE) = (mE1, pE1) -> exchanged mE1 mE2 -> phistory l (mkPS mE2 mB pE1 pB) s -> phistory (UpE dt mJ :: l) (mkPS mE mB pE pB) s
| ph_B dt l mE mB pE pB mB1 pB1 mB2 s : upB dt mE (mB, pB) = (mB1, pB1) -> exchanged mB1 mB2 -> phistory l (mkPS mE mB2 pE pB1) s -> phistory (UpB dt :: l) (mkPS mE mB pE pB) s.
End History.

(** the auxiliary arrays of freshly built layers *)
Definition fresh_layers {V} (zero : V) (psi : pml_side -> addr -> V) : Prop := forall s a, psi s a = zero.
(** the layers of every patch of a rectangular domain are those the simulation adds when it is initialised (it fails otherwise) *)
Definition layers2 (ax ay : axis) (nx ny th : Z) (pmls : nat -> list pml_side) : Prop :=
  forall p, (p < Z.to_nat (ax_n ax * ax_n ay))%nat -> init_pml2 ax ay nx ny th (Z.of_nat p mod ax_n ax) (Z.of_nat p / ax_n ax) = Some (pmls p).
Definition layers3 (ax ay az : axis) (nx ny th : Z) (pmls : nat -> list pml_side) : Prop :=
  forall p, (p < Z.to_nat (ax_n ax * ax_n ay * ax_n az))%nat ->
    init_pml3 ax ay az nx ny th (Z.of_nat p mod ax_n ax) ((Z.of_nat p / ax_n ax) mod ax_n ay) (Z.of_nat p / ax_n ax / ax_n ay) = Some (pmls p).

(** a cell with coordinate x along the axis of the layer, in a patch of n cells, lies outside the layer on side s of
    thickness th; the layer of the magnetic field on a far side lies one cell further in (its samples sit half a cell up) *)
Definition outside_layer (e : bool) (th : Z) (s : pml_side) (n x : Z) : Prop :=
  if is_min s then th <= x else if e then x < n - th else x < n - th - 1.
(** every layer of the list leaves out cell c of a patch of sizes ns *)
Definition outside_layers (e : bool) (th : Z) (l : list pml_side) (ns c : list Z) : Prop :=
  forall s, In s l -> outside_layer e th s (nth (axis_of s) ns 0) (nth (axis_of s) c 0).
(** along every open axis the layers fit into a patch *)
Definition layers_fit (th : Z) (axes : list axis) (ns : list Z) : Prop :=
  Forall (fun an : axis * Z => ax_lo (fst an) = Pml -> 0 < th < snd an) (combine axes ns).
(** at least two patches along every open axis *)
Definition split_open (axes : list axis) : Prop := Forall (fun a => ax_lo a = Pml -> 2 <= ax_n a) axes.

(** ** The stretched update: inside a layer, every derivative D/d across the layer is replaced by D/(kappa d) + psi, where psi
    follows psi' = b psi + c D; kappa, b and c are functions of the depth in the layer. *)
Section Stretched.
Context {V : Type} (A : arith V) (K : layer V) (zero : V).
Local Notation "x +. y" := (plus_ A x y) (at level 50, left associativity).
Local Notation "x -. y" := (minus_ A x y) (at level 50, left associativity).
Local Notation "x *. y" := (times_ A x y) (at level 40, left associativity).
Local Notation "x /. y" := (over_ A x y) (at level 40, left associativity).
(** distance in half cells of the sample with index i from the outermost sample of the electric field on side s; samples of
    the magnetic field sit half a cell up *)
Definition half_cells (e : bool) (s : pml_side) (n i : Z) : Z :=
  let x := 2 * i + (if e then 0 else 1) in if is_min s then x else 2 * (n - 1) - x.
Definition in_depth (e : bool) (s : pml_side) (n i : Z) : bool := (0 <=? half_cells e s n i) && (half_cells e s n i <? 2 * thick K).
(** one at the outer edge, zero at the inner edge *)
Definition depth (e : bool) (s : pml_side) (n i : Z) : V :=
  let whole := ofZ_ K (half_cells e s n i / 2) in one_ K -. (if e then whole else whole +. half_ K) /. ofZ_ K (thick K).
Definition kappa_at (x : V) : V := one_ K +. (kmax K -. one_ K) *. (x *. x *. x).
Definition sigma_at (x : V) : V := smax K *. (x *. x *. x).
Definition a_at (x : V) : V := amax K *. (one_ K -. x).
Definition decay (x dt : V) : V := exp_ K (minus1_ A (sigma_at x /. kappa_at x +. a_at x) *. dt).
Definition drive (x dt d : V) : V := (decay x dt -. one_ K) *. sigma_at x /. kappa_at x /. (sigma_at x +. kappa_at x *. a_at x) /. d.
(** component f of a curl contains the derivative along axis a of this component, with this sign (true: plus) *)
Definition curl_term (f a : nat) : option (nat * bool) :=
  if (a =? (f + 1) mod 3)%nat then Some ((f + 2) mod 3, true)%nat else if (a =? (f + 2) mod 3)%nat then Some ((f + 1) mod 3, false)%nat else None.

Section At.
Variables (ns : list Z) (ng : Z) (ds : list V) (l : list pml_side) (e : bool) (dt : V) (mO : addr -> V) (psi : pml_side -> addr -> V) (p f : nat) (c : list Z).
(** the layer of the patch across axis a that contains the cell *)
Definition layer_at (a : nat) : option pml_side := find (fun s => (axis_of s =? a)%nat && in_depth e s (nth a ns 0) (nth a c 0)) l.
(** backward difference of B for the electric field, forward difference of E for the magnetic field *)
Definition difference (a o : nat) : V :=
  let there x := mO (cell ns ng o p (upd a (nth a c 0 + x) c)) in if e then there 0 -. there (-1) else there 1 -. there 0.
Definition depth_at (s : pml_side) : V := depth e s (nth (axis_of s) ns 0) (nth (axis_of s) c 0).
Definition next_psi (s : pml_side) (o : nat) : V :=
  decay (depth_at s) dt *. psi s (pcell ns f p c) +. drive (depth_at s) dt (nth (axis_of s) ds (one_ K)) *. difference (axis_of s) o.
Definition stretched (a o : nat) : V :=
  match layer_at a with
  | Some s => difference a o /. kappa_at (depth_at s) /. nth a ds (one_ K) +. next_psi s o
  | None => difference a o /. nth a ds (one_ K)
  end.
Definition stretched_curl : V :=
  fold_right (fun a t => match curl_term f a with Some (o, true) => stretched a o +. t | Some (o, false) => t -. stretched a o | None => t end) zero (seq 0 (length ns)).
End At.
Definition stretched_E (ns : list Z) (ng : Z) (ds : list V) (l : list pml_side) (dt : V) (mB mJ mE : addr -> V) (psi : pml_side -> addr -> V) (p f : nat) (c : list Z) : V :=
  mE (cell ns ng f p c) +. dt *. csq A *. stretched_curl ns ng ds l true dt mB psi p f c -. dt /. eps0 A *. mJ (cell ns ng f p c).
Definition stretched_B (ns : list Z) (ng : Z) (ds : list V) (l : list pml_side) (dt : V) (mE mB : addr -> V) (psi : pml_side -> addr -> V) (p f : nat) (c : list Z) : V :=
  mB (cell ns ng f p c) -. dt *. stretched_curl ns ng ds l false dt mE psi p f c.
(** what a layer remembers afterwards *)
Definition remembered (ns : list Z) (ng : Z) (ds : list V) (e : bool) (dt : V) (mO : addr -> V) (psi : pml_side -> addr -> V) (p f : nat) (c : list Z) (s : pml_side) : V :=
  match curl_term f (axis_of s) with
  | Some (o, _) => if in_depth e s (nth (axis_of s) ns 0) (nth (axis_of s) c 0) then next_psi ns ng ds e dt mO psi p f c s o else psi s (pcell ns f p c)
  | None => psi s (pcell ns f p c)
  end.
End Stretched.
(** at most one layer per axis, and only across the axes of the grid *)
Definition one_layer_per_axis (dim : nat) (l : list pml_side) : Prop := NoDup (map axis_of l) /\ forall s, In s l -> (axis_of s < dim)%nat.
