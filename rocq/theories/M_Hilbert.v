(** The space-filling curve of core/patch/hilbert.py: gilbert2d (40-52), generate2d (58-107), gilbert3d (109-138),
    generate3d (140-262), and the index tables of class Hilbert (4-22).

    The generators are lists of the yielded positions.  The recursion carries fuel; [None] means that the fuel ran out
    (the theorems show that the fuel used by [gilbert2d] and [gilbert3d] suffices, so that the recursion of the code ends).
    2D and 3D positions are lists of coordinates. *)
From Verif Require Import Base.
Local Open Scope list_scope.
Local Open Scope Z_scope.

Definition vec := list Z.
Fixpoint vadd (a b : vec) : vec := match a, b with x :: a', y :: b' => (x + y) :: vadd a' b' | _, _ => [] end.
Definition vneg (a : vec) : vec := map Z.opp a.
Definition vsub (a b : vec) : vec := vadd a (vneg b).
(** hilbert.py:55-56 *)
Definition sgn (x : Z) : Z := if x <? 0 then -1 else if 0 <? x then 1 else 0.
Definition vsgn (a : vec) : vec := map sgn a.
(** Python's [//] rounds down, as [Z.div] does *)
Definition vhalf (a : vec) : vec := map (fun x => x / 2) a.
(** [abs(ax + ay)] *)
Definition vlen (a : vec) : Z := Z.abs (fold_right Z.add 0 a).
(** the trivial fills: n positions from p on in direction d *)
Fixpoint fill (n : nat) (p d : vec) : list vec :=
  match n with O => [] | S n' => p :: fill n' (vadd p d) d end.
Definition odd (n : Z) : bool := negb (n mod 2 =? 0).
(** "prefer even steps" *)
Definition prefer_even (h2 h d : vec) : vec := if odd (vlen h2) && (2 <? vlen h) then vadd h2 d else h2.

Definition cat (a b : option (list vec)) : option (list vec) :=
  match a, b with Some x, Some y => Some (x ++ y) | _, _ => None end.

(** hilbert.py:58-107 *)
Fixpoint generate2d (fuel : nat) (p a b : vec) : option (list vec) :=
  match fuel with
  | O => None
  | S f =>
      let w := vlen a in
      let h := vlen b in
      let da := vsgn a in
      let db := vsgn b in
      if h =? 1 then Some (fill (Z.to_nat w) p da)
      else if w =? 1 then Some (fill (Z.to_nat h) p db)
      else
        let a2 := vhalf a in
        let b2 := vhalf b in
        if 3 * h <? 2 * w then
          let a2 := prefer_even a2 a da in
          cat (generate2d f p a2 b) (generate2d f (vadd p a2) (vsub a a2) b)
        else
          let b2 := prefer_even b2 b db in
          cat (generate2d f p b2 a2)
         (cat (generate2d f (vadd p b2) a (vsub b b2))
              (generate2d f (vadd (vadd p (vsub a da)) (vsub b2 db)) (vneg b2) (vneg (vsub a a2))))
  end.
(** hilbert.py:40-52 *)
Definition gilbert2d (width height : Z) : option (list vec) :=
  let fuel := Z.to_nat (width + height + 1) in
  if height <=? width then generate2d fuel [0; 0] [width; 0] [0; height]
  else generate2d fuel [0; 0] [0; height] [width; 0].

(** hilbert.py:140-262 *)
Fixpoint generate3d (fuel : nat) (p a b c : vec) : option (list vec) :=
  match fuel with
  | O => None
  | S f =>
      let w := vlen a in
      let h := vlen b in
      let d := vlen c in
      let da := vsgn a in
      let db := vsgn b in
      let dc := vsgn c in
      if (h =? 1) && (d =? 1) then Some (fill (Z.to_nat w) p da)
      else if (w =? 1) && (d =? 1) then Some (fill (Z.to_nat h) p db)
      else if (w =? 1) && (h =? 1) then Some (fill (Z.to_nat d) p dc)
      else
        let a2 := prefer_even (vhalf a) a da in
        let b2 := prefer_even (vhalf b) b db in
        let c2 := prefer_even (vhalf c) c dc in
        if (3 * h <? 2 * w) && (3 * d <? 2 * w) then
          cat (generate3d f p a2 b c) (generate3d f (vadd p a2) (vsub a a2) b c)
        else if 4 * d <? 3 * h then
          cat (generate3d f p b2 c a2)
         (cat (generate3d f (vadd p b2) a (vsub b b2) c)
              (generate3d f (vadd (vadd p (vsub a da)) (vsub b2 db)) (vneg b2) c (vneg (vsub a a2))))
        else if 4 * h <? 3 * d then
          cat (generate3d f p c2 a2 b)
         (cat (generate3d f (vadd p c2) a b (vsub c c2))
              (generate3d f (vadd (vadd p (vsub a da)) (vsub c2 dc)) (vneg c2) (vneg (vsub a a2)) b))
        else
          cat (generate3d f p b2 c2 a2)
         (cat (generate3d f (vadd p b2) c a2 (vsub b b2))
         (cat (generate3d f (vadd (vadd p (vsub b2 db)) (vsub c dc)) a (vneg b2) (vneg (vsub c c2)))
         (cat (generate3d f (vadd (vadd (vadd p (vsub a da)) b2) (vsub c dc)) (vneg c) (vneg (vsub a a2)) (vsub b b2))
              (generate3d f (vadd (vadd p (vsub a da)) (vsub b2 db)) (vneg b2) c2 (vneg (vsub a a2))))))
  end.
(** hilbert.py:109-138 *)
Definition gilbert3d (width height depth : Z) : option (list vec) :=
  let fuel := Z.to_nat (width + height + depth + 1) in
  if (height <=? width) && (depth <=? width) then generate3d fuel [0; 0; 0] [width; 0; 0] [0; height; 0] [0; 0; depth]
  else if (width <=? height) && (depth <=? height) then generate3d fuel [0; 0; 0] [0; height; 0] [width; 0; 0] [0; 0; depth]
  else generate3d fuel [0; 0; 0] [0; 0; depth] [width; 0; 0] [0; height; 0].

(** hilbert.py:5-22: the assertions and the two tables [pos_to_index] and [index_to_pos]; [None]: AssertionError *)
Definition even_size (n : Z) : bool := (0 <? n) && (n mod 2 =? 0).
Definition tables (l : option (list vec)) : option (list (vec * nat) * list (nat * vec)) :=
  match l with
  | Some l => Some (combine l (seq 0 (length l)), combine (seq 0 (length l)) l)
  | None => None
  end.
Definition hilbert (nx ny : Z) (nz : option Z) : option (list (vec * nat) * list (nat * vec)) :=
  if even_size nx && even_size ny then
    match nz with
    | None => tables (gilbert2d nx ny)
    | Some nz => if even_size nz then tables (gilbert3d nx ny nz) else None
    end
  else None.
