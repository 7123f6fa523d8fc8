(** Model of the screening-length statistics of the collision step
    (src/lambdapic/core/collision/collision.py:153-166, cpu.py:136-158 and 231-254), for one cell;
    cells do not interact.  Arithmetic is exact; [g] is the function n -> (4 pi n/3)^(2/3), the
    inverse square of the minimal distance. *)
From Verif Require Import Base.
From Coq Require Import QArith.
Local Open Scope nat_scope.

(** inverse square length: finite or [math.inf] (cold cell, cpu.py:224-227) *)
Inductive ext := Fin (q : Q) | Inf.
Definition eadd (a b : ext) : ext := match a, b with Fin x, Fin y => Fin (x + y)%Q | _, _ => Inf end.

(** the two per-cell accumulators: debye_length_inv_square, total_density *)
Record cellst := mkCell { c_inv : ext; c_dens : Q }.

(** cpu.py:146-157, what one species contributes is [(inv_d2, n)] of debye_length_cell; the reset
    (species 0 only) clears the first accumulator and not the second. *)
Definition add_species (reset : bool) (st : cellst) (c : ext * Q) : cellst :=
  let inv := if reset then Fin 0%Q else c_inv st in
  if Qlt_le_dec 0 (snd c) then mkCell (eadd inv (fst c)) (c_dens st + snd c)%Q
  else mkCell inv (c_dens st).
Definition accumulate (cs : list (ext * Q)) (st : cellst) : cellst :=
  match cs with
  | [] => st
  | c :: cs' => fold_left (add_species false) cs' (add_species true st c)
  end.

Section Constrain.
Variable g : Q -> Q.
(** cpu.py:238-254 *)
Definition constrain (st : cellst) : cellst :=
  match c_inv st with
  | Fin q => if Qlt_le_dec 0 q then if Qlt_le_dec (g (c_dens st)) q then mkCell (Fin (g (c_dens st))) (c_dens st) else st else st
  | Inf => mkCell (Fin (g (c_dens st))) (c_dens st)
  end.
(** calculate_debye_length, one simulation step *)
Definition debye_step (cs : list (ext * Q)) (st : cellst) : cellst := constrain (accumulate cs st).
(** after generate_field_lists (collision.py:78-94) *)
Definition debye_init : cellst := mkCell (Fin 0%Q) 0%Q.
End Constrain.
