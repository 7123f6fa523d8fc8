(** Model of the initial particles: get_num_macro_particles_2d/3d and fill_particles_2d/3d (src/lambdapic/core/patch/cpu.py),
    Patches.calculate_npart, add_species, fill_particles (core/patch/patch.py:796-907), ParticlesBase.initialize
    (core/particles.py:117-141: all attributes 0, inv_gamma 1, none dead) and the refilling of a moving window (callback/utils.py:748-840).

    One patch of one species; the patches are handled independently (prange over patches, one generator each).  The 2D and
    3D functions are the same up to the number of coordinates, so a cell is the list of its coordinates and there is one
    array per axis.  Coordinates, densities and weights are exact rationals.  The density and the particles-per-cell
    profile are arbitrary functions, the generator is an arbitrary stream of numbers of [0, 1). *)
From Verif Require Import Base.
From Coq Require Import QArith.
Local Open Scope nat_scope.
Local Open Scope list_scope.

Inductive error := ValueError | ZeroDivision | AssertionError.
Inductive res (A : Type) := Ok (a : A) | Raise (e : error).
Arguments Ok {A} _. Arguments Raise {A} _.
Definition bind {A B} (r : res A) (f : A -> res B) : res B := match r with Ok a => f a | Raise e => Raise e end.

Definition cell := list Q.
(** for x_grid in xaxis: for y_grid in yaxis: (for z_grid in zaxis:) *)
Fixpoint cells (axes : list (list Q)) : list cell :=
  match axes with
  | [] => [[]]
  | a :: axes' => flat_map (fun x => map (fun c => x :: c) (cells axes')) a
  end.

Section Fill.
Variable density : cell -> Q.
Variable density_min : Q.
Variable ppc_func : cell -> Q.
(** int(ppc_func(...)): rounds towards zero *)
Definition ppc (c : cell) : Z := Z.quot (Qnum (ppc_func c)) (QDen (ppc_func c)).
Definition dense (c : cell) : bool := negb (Qle_bool (density c) density_min).
(** cpu.py:7-19, 48-66 *)
Definition num_macro (axes : list (list Q)) : Z :=
  fold_left (fun m c => if dense c then m + ppc c else m)%Z (cells axes) 0%Z.

(** a[lo:lo+len(vs)] = vs: the slice stops at the end of the array, then the sizes differ *)
Definition write (lo : nat) (vs : list Q) (a : list Q) : res (list Q) :=
  if lo + length vs <=? length a then Ok (firstn lo a ++ vs ++ skipn (lo + length vs) a) else Raise ValueError.
(** w[lo:lo+k] = v *)
Definition write_all (lo k : nat) (v : Q) (a : list Q) : list Q :=
  firstn lo a ++ repeat v (min k (length a - lo)) ++ skipn (lo + k) a.
Variable rand : nat -> Q.   (* the stream of the generator of this patch *)
(** gen.uniform(-d/2, d/2, k) + g, numbers of the stream from position [at] on *)
Definition uniform (at_ k : nat) (d g : Q) : list Q := map (fun i => (- d / 2 + d * rand (at_ + i)) + g)%Q (seq 0 k).
(** the assignments to x, y (, z) in turn *)
Fixpoint put_axes (lo k at_ : nat) (ds : list Q) (c : cell) (arrays : list (list Q)) : res (list (list Q) * nat) :=
  match ds, c, arrays with
  | d :: ds', g :: c', a :: arrays' =>
      bind (write lo (uniform at_ k d g) a) (fun a' =>
      bind (put_axes lo k (at_ + k) ds' c' arrays') (fun '(rest, at2) => Ok (a' :: rest, at2)))
  | _, _, _ => Ok ([], at_)
  end.
Fixpoint volume (ds : list Q) : Q := match ds with [] => 1%Q | d :: ds' => (d * volume ds')%Q end.
(** cpu.py:37-45, 84-98; state: position arrays, weights, ipart, position in the stream *)
Definition fill_cell (ds : list Q) (st : list (list Q) * list Q * nat * nat) (c : cell) : res (list (list Q) * list Q * nat * nat) :=
  let '(pos, w, ipart, at_) := st in
  if dense c then
    if (ppc c <? 0)%Z then Raise ValueError else
    let k := Z.to_nat (ppc c) in
    bind (put_axes ipart k at_ ds c pos) (fun '(pos', at') =>
    if k =? 0 then Raise ZeroDivision else
    Ok (pos', write_all ipart k (density c * volume ds / inject_Z (ppc c))%Q w, ipart + k, at'))
  else Ok st.
Definition fill (ds : list Q) (axes : list (list Q)) (pos : list (list Q)) (w : list Q) : res (list (list Q) * list Q) :=
  bind (fold_left (fun r c => bind r (fun st => fill_cell ds st c)) (cells axes) (Ok (pos, w, 0, 0)))
       (fun '(pos', w', _, _) => Ok (pos', w')).
(** add_species (initialize with the count: zeros) followed by fill_particles; the axes of a patch have its spacings [ds]
    (xaxis[1]-xaxis[0] of the first patch, patch.py:272) *)
Definition create (ds : list Q) (axes : list (list Q)) : res (list (list Q) * list Q) :=
  let m := num_macro axes in
  if (m <? 0)%Z then Raise AssertionError
  else fill ds axes (map (fun _ => repeat 0%Q (Z.to_nat m)) ds) (repeat 0%Q (Z.to_nat m)).
(** the initial particles of a species with this momentum profile (core/species.py:72, 97: stored, then not read
    anywhere): positions, weights and ux as left by initialize *)
Definition create_species (momentum_x : cell -> Q) (ds : list Q) (axes : list (list Q)) : res (list (list Q) * list Q * list Q) :=
  bind (create ds axes) (fun '(pos, w) => Ok (pos, w, repeat 0%Q (length w))).
End Fill.
