(** Vocabulary for plots. *)
From Verif Require Import Base M_Plot.
From Coq Require Import QArith String.
Local Open Scope string_scope.
Local Open Scope list_scope.
Local Open Scope nat_scope.

(** the array a configuration asks for *)
Definition asked (k : call) (c : config) : option array :=
  match c_field c with Some (Named f) => fields k f | Some (Array a) => Some a | _ => None end.
(** a configuration that can be drawn: two-dimensional data, and a colour map that matplotlib or the callback provides *)
Definition drawable (builtin : list string) (k : call) (c : config) : Prop :=
  exists a nx ny, asked k c = Some a /\ dims a = [nx; ny] /\
    match c_cmap c with Some m => In m builtin \/ In m cmaps | None => In "viridis" builtin end.
(** a good call *)
Definition good_call (builtin : list string) (k : call) : Prop := Forall (drawable builtin k) (configs k).
(** [o] shows [a]: over the cell (i, j) of the array, whose width is Lx/nx and height Ly/ny, the scaled value of that cell *)
Definition shows_cells (lx ly : Q) (c : config) (a : array) (o : overlay) : Prop :=
  forall nx ny i j x y, dims a = [nx; ny] -> i < nx -> j < ny ->
    (inject_Z (Z.of_nat i) * (lx / inject_Z (Z.of_nat nx)) <= x)%Q -> (x < inject_Z (Z.of_nat (S i)) * (lx / inject_Z (Z.of_nat nx)))%Q ->
    (inject_Z (Z.of_nat j) * (ly / inject_Z (Z.of_nat ny)) <= y)%Q -> (y < inject_Z (Z.of_nat (S j)) * (ly / inject_Z (Z.of_nat ny)))%Q ->
    (shown o x y == val a i j * (match c_scale c with Some s => s | None => 1 end))%Q.
(** the picture of a call: one overlay per configuration, in order *)
Definition pictured (k : call) (os : list overlay) : Prop :=
  Forall2 (fun c o => exists a, asked k c = Some a /\ shows_cells (lx k) (ly k) c a o) (configs k) os.
