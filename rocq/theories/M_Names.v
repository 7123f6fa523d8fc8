(** Species naming: simulation/utils.py:6-32 (uniquify_species_names) and simulation/simulation.py:528-561
    (Simulation.add_species).

    A name is its list of code points.  A species object is a number; [names o] is its [name] attribute.
    Simplifications: the regular expression class "\d" and [int] are modelled on the ASCII digits only
    (Python also accepts other Unicode decimal digits); the objects handed in are species (the type check of
    simulation.py:551-553 is not modelled); the warning is not modelled. *)
From Verif Require Import Base M_Checkpoint.
Open Scope Z_scope.

Definition name := list Z.

Definition is_digit (c : Z) : bool := (48 <=? c) && (c <=? 57).
(** Python's [int] on a string of digits *)
Definition int_of (l : list Z) : Z := fold_left (fun acc c => acc * 10 + (c - 48)) l 0.

(** what is left of [n] after the literal [base] at its start (the "^{re.escape(base_name)}" of utils.py:12) *)
Fixpoint after (base n : list Z) : option (list Z) :=
  match base, n with
  | [], _ => Some n
  | b :: base', c :: n' => if b =? c then after base' n' else None
  | _ :: _, [] => None
  end.
(** the longest run of digits at the start ("\d+" is greedy) *)
Fixpoint digits (l : list Z) : list Z * list Z :=
  match l with
  | c :: l' => if is_digit c then let '(d, r) := digits l' in (c :: d, r) else ([], l)
  | [] => ([], [])
  end.
(** "$" of Python's [re]: the end of the string, or just before a newline that ends it *)
Definition at_end (l : list Z) : bool := match l with [] | [10] => true | _ => false end.
(** utils.py:12-22: the suffix number the pattern reads from the name, 0 if the optional group is absent *)
Definition suffix (base n : name) : option Z :=
  match after base n with
  | None => None
  | Some r =>
      if at_end r then Some 0
      else match r with
           | 46 :: t => let '(d, e) := digits t in
                        if negb (Nat.eqb (length d) 0) && at_end e then Some (int_of d) else None
           | _ => None
           end
  end.
(** utils.py:13-22: the loop over the known names, [max_suffix] starts at -1 *)
Definition max_suffix (base : name) (taken : list name) : Z :=
  fold_left (fun m n => match suffix base n with Some k => Z.max m k | None => m end) taken (-1).
(** utils.py:25-29 *)
Definition pick (base : name) (taken : list name) : name :=
  let m := max_suffix base taken in
  if 0 <=? m then base ++ 46 :: dec (m + 1) else base.

Definition set_name (names : nat -> name) (o : nat) (n : name) : nat -> name :=
  fun o' => if Nat.eqb o o' then n else names o'.

(** utils.py:10-32: the loop over the new species.  The names of [new_species[:new_species.index(s)]]
    (utils.py:16) are names given earlier in the same loop; all of them are in [existing_names] already
    (utils.py:32), so they do not change the maximum and are left out. *)
Fixpoint uniquify (taken : list name) (news : list nat) (names : nat -> name) : nat -> name :=
  match news with
  | [] => names
  | o :: rest =>
      let n := pick (names o) taken in
      uniquify (taken ++ [n]) rest (set_name names o n)
  end.

(** The simulation's species list with the [name] and [ispec] attributes of the objects. *)
Record registry := Registry { species : list nat; names : nat -> name; ispec : nat -> option nat }.

(** simulation.py:559-561: [for ispec, s in enumerate(self.species): s.ispec = ispec] *)
Fixpoint number_from (k : nat) (l : list nat) (ix : nat -> option nat) : nat -> option nat :=
  match l with
  | [] => ix
  | o :: l' => number_from (S k) l' (fun o' => if Nat.eqb o o' then Some k else ix o')
  end.

(** simulation.py:528-561 *)
Definition add_species (r : registry) (news : list nat) : registry :=
  let names' := uniquify (map (names r) (species r)) news (names r) in
  let all := species r ++ news in
  Registry all names' (number_from 0 all (ispec r)).
