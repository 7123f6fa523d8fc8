(** Model of the insertion of particles into dead slots (src/lambdapic/core/collision/utils.py:422-467, search_dead and insert_at).
    A slot is its flag is_dead and what it holds; [P] is everything insert_at writes (x, y, z, ux, uy, uz, w and the inverse
    Lorentz factor of the momentum).  Simplifications: istart is not negative; the attributes that are not written (the
    identifier, the interpolated fields) are left out. *)
From Verif Require Import Base.
Local Open Scope nat_scope.

Section Insert.
Context {P : Type}.
Local Notation slot := (bool * P)%type.
Definition dead_at (l : list slot) (j : nat) : bool := match nth_error l j with Some s => fst s | None => false end.
(** for j in range(lo, hi): if is_dead[j]: return j *)
Definition first_dead (l : list slot) (lo hi : nat) : option nat := find (dead_at l) (seq lo (hi - lo)).
(** utils.py:425-434: the loop over i in steps of eight; the view of eight flags as one integer is zero if none is set.  [fuel]: a
    number of turns that suffices *)
Fixpoint search_loop (fuel : nat) (l : list slot) (i : nat) : option nat :=
  match fuel with
  | 0 => None
  | S fuel' =>
      if length l <=? i then None
      else if i + 8 <=? length l
      then if existsb (dead_at l) (seq i 8)
           then match first_dead l i (i + 8) with Some j => Some j | None => search_loop fuel' l (i + 8) end
           else search_loop fuel' l (i + 8)
      else match first_dead l i (length l) with Some j => Some j | None => search_loop fuel' l (i + 8) end
  end.
Definition search_dead (l : list slot) (istart : nat) : option nat := search_loop (S (length l)) l istart.
Fixpoint set_slot (l : list slot) (j : nat) (s : slot) : list slot :=
  match l, j with [] , _ => [] | _ :: l', 0 => s :: l' | a :: l', S j' => a :: set_slot l' j' s end.
(** utils.py:438-467; None stands for -1 *)
Definition insert_at (l : list slot) (istart : nat) (p : P) : option nat * list slot :=
  match search_dead l istart with None => (None, l) | Some j => (Some j, set_slot l j (false, p)) end.
(** several insertions, each starting where the last one ended ("Return the index of the inserted particle for next search") *)
Fixpoint insert_all (l : list slot) (istart : nat) (ps : list P) : list slot :=
  match ps with
  | [] => l
  | p :: ps' => match insert_at l istart p with (None, l') => l' | (Some j, l') => insert_all l' j ps' end
  end.
End Insert.
