(** Vocabulary of C39, C67-C70. *)
From Verif Require Import Base M_Load.
From Coq Require Import QArith String.
Local Open Scope nat_scope.
Local Open Scope list_scope.

(** one axis of a domain: its origin, number of patches, cells per patch, spacing, PML thickness at both ends *)
Record axis := mkAxis { origin : Q; count : nat; cells : nat; step : Q; th_lo : option nat; th_hi : option nat }.
(** a PML is always thinner than its patch (core/boundary/cpml.py, PML.__init__) *)
Definition thinner (t : option nat) (k : nat) : Prop := match t with Some m => m < k | None => True end.
Definition axis_ok (a : axis) : Prop := 0 < cells a /\ (0 < step a)%Q /\ thinner (th_lo a) (cells a) /\ thinner (th_hi a) (cells a).
(** the i-th patch side of the axis *)
Definition nth_side (a : axis) (i : nat) (s : side) : Prop :=
  (o s == origin a + qn (i * cells a) * step a)%Q /\ n s = cells a /\ d s = step a /\
  pml_lo s = (if i =? 0 then th_lo a else None) /\ pml_hi s = (if i =? count a - 1 then th_hi a else None).
(** coordinates of the axis outside of the absorbing layers: from the lower edge of the first inner cell to the upper edge
    of the last *)
Definition thick (t : option nat) : Q := match t with Some k => qn k | None => 0%Q end.
Definition inner (a : axis) (x : Q) : bool :=
  Qle_bool (origin a + (thick (th_lo a) - (1#2)) * step a) x
  && negb (Qle_bool (origin a + (qn (count a * cells a) - thick (th_hi a) - (1#2)) * step a) x).
(** the patches, each with its place, fill the domain *)
Definition tiles (ax ay az : axis) (ps : list patch) (places : list (nat * nat * nat)) : Prop :=
  Forall2 (fun p '(i, j, k) => i < count ax /\ j < count ay /\ k < count az
             /\ nth_side ax i (sx p) /\ nth_side ay j (sy p) /\ nth_side az k (sz p)) ps places
  /\ NoDup places
  /\ forall i j k, i < count ax -> j < count ay -> k < count az -> In (i, j, k) places.
Definition inside (dim : nat) (ax ay az : axis) (r : row) : bool :=
  inner ax (r "x"%string) && inner ay (r "y"%string) && (if dim =? 3 then inner az (r "z"%string) else true).
(** a slot that holds this row: alive, with the values of the file for these attributes *)
Definition holds (names : list string) (r : row) (s : slot) : Prop :=
  dead s = false /\ forall a, In a names -> val s a = Some (r a).
(** patch [p'] is patch [p] with slots for [new] appended to one species and nothing else changed *)
Definition loaded (names : list string) (ispec : nat) (p p' : patch) (new : list row) : Prop :=
  sx p' = sx p /\ sy p' = sy p /\ sz p' = sz p /\
  List.length (parts p') = List.length (parts p) /\
  forall k part, nth_error (parts p) k = Some part ->
    exists part', nth_error (parts p') k = Some part' /\ attrs part' = attrs part /\
      if k =? ispec then exists fresh, slots part' = slots part ++ fresh /\ Forall2 (holds names) new fresh
      else slots part' = slots part.
(** the values a user finds in the file and the particles can take *)
Definition wanted (keys attributes : list string) : list string :=
  filter (fun a => mem a attributes && negb (String.eqb a "_id") && negb (String.eqb a "inv_gamma")) keys.
(** slot [s'] is slot [s] with momentum changed as [u] says and the inverse Lorentz factor belonging to it; a dead slot
    keeps everything *)
Definition momentum (s : slot) : option (Q * Q * Q) :=
  match val s "ux"%string, val s "uy"%string, val s "uz"%string with Some a, Some b, Some c => Some (a, b, c) | _, _, _ => None end.
Definition pushed (root : Q -> Q) (u : Q * Q * Q -> Q * Q * Q -> Prop) (s s' : slot) : Prop :=
  dead s' = dead s /\
  (dead s = true -> s' = s) /\
  (dead s = false ->
     (forall a, ~ In a ["ux"; "uy"; "uz"; "inv_gamma"]%string -> val s' a = val s a) /\
     forall m, momentum s = Some m -> exists ux uy uz, momentum s' = Some (ux, uy, uz) /\ u m (ux, uy, uz)
       /\ exists g, (g == 1 + ux * ux + uy * uy + uz * uz)%Q /\ val s' "inv_gamma"%string = Some (1 / root g)%Q).
(** sum of the squares of an attribute over the alive slots *)
Fixpoint square_sum (a : string) (l : list slot) : Q :=
  match l with
  | [] => 0%Q
  | s :: l' => ((if dead s then 0 else match val s a with Some x => x * x | None => 0 end) + square_sum a l')%Q
  end.
(** the datasets every file needs *)
Definition enough (dim : nat) (keys : list string) : Prop :=
  In "x"%string keys /\ In "y"%string keys /\ In "w"%string keys /\ (dim = 3 -> In "z"%string keys).
(** the momentum asked for: set, or added *)
Definition target (add : bool) (u m m' : Q * Q * Q) : Prop :=
  let '(ux, uy, uz) := u in let '(a, b, c) := m in m' = (if add then (a + ux, b + uy, c + uz) else (ux, uy, uz))%Q.
(** the k-th alive slot gets the k-th sample *)
Inductive each (R : nat -> slot -> slot -> Prop) : nat -> list slot -> list slot -> Prop :=
| each_nil k : each R k [] []
| each_dead k s s' l l' : dead s = true -> R k s s' -> each R k l l' -> each R k (s :: l) (s' :: l')
| each_alive k s s' l l' : dead s = false -> R k s s' -> each R (S k) l l' -> each R k (s :: l) (s' :: l').
(** a sample stretched by the ratios of the temperatures *)
Definition stretched (us : nat -> Q * Q * Q) (t : Q * Q * Q) (k : nat) : Q * Q * Q :=
  let '(ux, uy, uz) := us k in let '(t0, t1, t2) := t in (ux, uy * t1 / t0, uz * t2 / t0)%Q.
(** first the bulk momentum, then the thermal one on top *)
Definition both (add : bool) (u v m m' : Q * Q * Q) : Prop := exists m1, target add u m m1 /\ target true v m1 m'.
(** sum of the squares of one component of the samples used *)
Fixpoint sums (pick : Q * Q * Q -> Q) (us : nat -> Q * Q * Q) (k : nat) (l : list slot) : Q :=
  match l with
  | [] => 0%Q
  | s :: l' => if dead s then sums pick us k l' else (pick (us k) * pick (us k) + sums pick us (S k) l')%Q
  end.
Definition px (u : Q * Q * Q) : Q := fst (fst u).
Definition py (u : Q * Q * Q) : Q := snd (fst u).
