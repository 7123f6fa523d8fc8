(** Model of the moving window (src/lambdapic/callback/utils.py:471-840, class MovingWindow).

    The patches of all processes are one list; the loops over the local patches are independent of each other.  Lengths and
    times are exact rationals.  Fields, CPML memory and the particles of a species are values of arbitrary types with a
    zero (fields and memory) or with an arbitrary filling function (particles: initialize and fill_particles_2d/3d, see
    C40).  Neighbour tables rebuilt by _update_patch_info are the subject of C12 and C41, the lists of the modules of C48
    and C63. *)
From Verif Require Import Base.
From Coq Require Import QArith.
Local Open Scope list_scope.

Section Window.
Variables F P : Type.
Variable zero : F.
(** a patch: ipatch_x, the other patch coordinates, index, x0, fields, psi arrays of its PMLs, whether it has a PMLX, and
    the particles of each species *)
Record patch := mkPatch {
  ipx : nat; row : nat * nat; idx : nat; x0 : Q; fields : F; psi : F; pmlx : bool; parts : nat -> P }.

Variable npx : nat.          (* sim.npatch_x *)
Variable plx : Q.            (* sim.nx_per_patch*sim.dx, the length of a patch *)
Variable lx : Q.             (* sim.Lx *)
Variable dt : Q.
Variable start_time : Q.     (* default Lx/c, utils.py:528-529 *)
Variable velocity : Q -> Q.  (* a number or a function of time *)
Variable inject : bool.
Variable stop_inject : option Q.
Variable has_density : nat -> bool.
Variable fill : nat -> Q -> nat * nat -> P.  (* species, x0 and other coordinates of the patch *)

(** patch_this_shift, num_shifts *)
Record win := mkWin { pts : option Q; num : nat }.

(** _shift_right, _shift_left, utils.py:593-653: the patch afterwards and whether it is one of the new patches *)
Definition right_one (p : patch) : patch * bool :=
  if ipx p =? 0
  then (mkPatch (npx - 1) (row p) (idx p) (x0 p + lx)%Q (fields p) (psi p) (pmlx p) (parts p), true)
  else (mkPatch (ipx p - 1) (row p) (idx p) (x0 p) (fields p) (psi p) (pmlx p) (parts p), false).
Definition left_one (p : patch) : patch * bool :=
  if ipx p =? npx - 1
  then (mkPatch 0 (row p) (idx p) (x0 p - lx)%Q (fields p) (psi p) (pmlx p) (parts p), true)
  else (mkPatch (ipx p + 1) (row p) (idx p) (x0 p) (fields p) (psi p) (pmlx p) (parts p), false).
Definition qltb (a b : Q) : bool := negb (Qle_bool b a).
(** _fill_particles, utils.py:705-835 *)
Definition injecting (time : Q) : bool :=
  inject && match stop_inject with Some t => qltb time t | None => true end.
Definition fill_one (time : Q) (p : patch) : patch :=
  if injecting time
  then mkPatch (ipx p) (row p) (idx p) (x0 p) (fields p) (psi p) (pmlx p)
         (fun s => if has_density s then fill s (x0 p) (row p) else parts p s)
  else p.
(** utils.py:577-584 *)
Definition reset_one (p : patch) : patch :=
  mkPatch (ipx p) (row p) (idx p) (x0 p) zero zero (pmlx p) (parts p).
Definition renew (time : Q) (pn : patch * bool) : patch :=
  let '(p, new) := pn in if new then reset_one (fill_one time p) else p.
(** utils.py:544-551 *)
Definition clear_pmlx (p : patch) : patch :=
  mkPatch (ipx p) (row p) (idx p) (x0 p) (fields p) (psi p) false (parts p).

(** __call__, utils.py:512-591 *)
Definition call (time : Q) (w : win) (ps : list patch) : win * list patch :=
  let this := match pts w with Some x => x | None => plx end in
  if qltb time start_time then (mkWin (Some this) (num w), ps)
  else
    let ps1 := if num w =? 0 then map clear_pmlx ps else ps in
    let this' := (this + velocity time * dt)%Q in
    if Qle_bool plx this'
    then (mkWin (Some (this' - plx)%Q) (S (num w)), map (fun p => renew time (right_one p)) ps1)
    else if Qle_bool this' (- plx)
    then (mkWin (Some (this' + plx)%Q) (S (num w)), map (fun p => renew time (left_one p)) ps1)
    else (mkWin (Some this') (S (num w)), ps1).
(** one call per time in the list *)
Fixpoint calls (times : list Q) (w : win) (ps : list patch) : win * list patch :=
  match times with
  | [] => (w, ps)
  | t :: times' => let '(w', ps') := call t w ps in calls times' w' ps'
  end.
Definition fresh_window : win := mkWin None 0.
End Window.
Arguments mkPatch {F P}. Arguments ipx {F P}. Arguments row {F P}. Arguments idx {F P}. Arguments x0 {F P}.
Arguments fields {F P}. Arguments psi {F P}. Arguments pmlx {F P}. Arguments parts {F P}.
