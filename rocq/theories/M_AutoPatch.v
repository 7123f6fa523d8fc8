(** Automatic patch counts: simulation/utils.py:69-78 (find_divisors), 80-107 (auto_patch_2d), 109-140
    (auto_patch_3d).

    Simplifications: [int(np.sqrt(n))] is the integer square root (exact for every grid below 2^52 cells per
    axis); [np.inf] is [None]. *)
From Verif Require Import Base.
Open Scope Z_scope.

(** [range(a, b)] *)
Definition zrange (a b : Z) : list Z := map (fun i => a + Z.of_nat i) (seq 0 (Z.to_nat (b - a))).

(** [sorted(set)]: insertion into an ascending list without repetition *)
Fixpoint insert (x : Z) (l : list Z) : list Z :=
  match l with
  | [] => [x]
  | y :: l' => if x <? y then x :: l else if x =? y then l else y :: insert x l'
  end.

(** utils.py:69-78 with min_divisor = 2 *)
Definition find_divisors (n : Z) : list Z :=
  fold_left (fun s i => if Z.abs n mod i =? 0 then insert (Z.abs n / i) (insert i s) else s)
            (zrange 2 (Z.sqrt (Z.abs n) + 1)) [].

Inductive outcome (A : Type) : Type := Returns (a : A) | ZeroDivision | IndexOutOfRange.
Arguments Returns {A} a.
Arguments ZeroDivision {A}.
Arguments IndexOutOfRange {A}.

(** utils.py:85-86: the largest count of an axis *)
Definition npatch_max (n thick guard : Z) : Z := Z.min (n / thick) (n / (2 * guard)).
(** one of the alternatives of utils.py:99 *)
Definition in_range (np mx : Z) : bool := (2 <=? np) && (np <=? mx).

(** The accepted candidate so far: number of patches, difference of the patch edges, the counts. *)
Definition best (A : Type) : Type := option (Z * Z * A).
(** utils.py:100-103: a later candidate replaces the best one when it is not worse in either figure *)
Definition consider {A} (b : best A) (count diff : Z) (c : A) : best A :=
  match b with
  | None => Some (count, diff, c)
  | Some (n0, d0, _) => if (count <=? n0) && (diff <=? d0) then Some (count, diff, c) else b
  end.

(** utils.py:80-107 *)
Definition auto_patch_2d (nx ny guard thick npatch_min : Z) : outcome (Z * Z) :=
  let px := find_divisors nx in
  let py := find_divisors ny in
  if (thick =? 0) || (2 * guard =? 0) then ZeroDivision
  else
    let mx := npatch_max nx thick guard in
    let my := npatch_max ny thick guard in
    let b := fold_left (fun b (c : Z * Z) =>
               let '(x, y) := c in
               if x * y <? npatch_min then b
               else if in_range x mx || in_range y my then consider b (x * y) (Z.abs (nx / x - ny / y)) c
               else b) (list_prod px py) None in
    match b with
    | Some (_, _, c) => Returns c
    | None => match px, py with x :: _, y :: _ => Returns (x, y) | _, _ => IndexOutOfRange end
    end.

(** utils.py:109-140 *)
Definition auto_patch_3d (nx ny nz guard thick npatch_min : Z) : outcome (Z * Z * Z) :=
  let px := find_divisors nx in
  let py := find_divisors ny in
  let pz := find_divisors nz in
  if (thick =? 0) || (2 * guard =? 0) then ZeroDivision
  else
    let mx := npatch_max nx thick guard in
    let my := npatch_max ny thick guard in
    let mz := npatch_max nz thick guard in
    let b := fold_left (fun b (c : Z * Z * Z) =>
               let '(x, y, z) := c in
               if x * y * z <? npatch_min then b
               else if in_range x mx || in_range y my || in_range z mz
                    then consider b (x * y * z)
                           (Z.max (Z.max (Z.abs (nx / x - ny / y)) (Z.abs (ny / y - nz / z))) (Z.abs (nz / z - nx / x))) c
                    else b) (list_prod (list_prod px py) pz) None in
    match b with
    | Some (_, _, c) => Returns c
    | None => match px, py, pz with x :: _, y :: _, z :: _ => Returns (x, y, z) | _, _, _ => IndexOutOfRange end
    end.
