(** Model of the 3D bucket sort (src/lambdapic/core/sort/cpu3d.c) and of the choice of the bucket numbering
    (src/lambdapic/core/sort/particle_sort.py:64-89).  Conventions as in M_Sort2D; the parts of cpu3d.c that are the same as
    in cpu2d.c are taken from there. *)
From Verif Require Import Base M_Sort2D.
From Coq Require Import QArith.
Local Open Scope nat_scope.

(** cpu3d.c:22-45 *)
Definition bucket_key3 (nx ny nz : nat) (reverse : bool) (ix iy iz : Z) : nat :=
  let nbin := nx * ny * nz in
  let X := Z.of_nat nx in let Y := Z.of_nat ny in let Zn := Z.of_nat nz in
  if reverse then
    let ix' := (if ix <? 0 then 0 else if X <=? ix then X - 1 else ix)%Z in
    let iy' := (if iy <? 0 then 0 else if Y <=? iy then Y - 1 else iy)%Z in
    let iz' := (if iz <? 0 then 0 else if Zn <=? iz then Zn - 1 else iz)%Z in
    Z.to_nat (iz' + iy' * Zn + (X - 1 - ix') * Y * Zn)
  else
    if ((0 <=? ix) && (ix <? X) && (0 <=? iy) && (iy <? Y) && (0 <=? iz) && (iz <? Zn))%Z
    then Z.to_nat (iz + iy * Zn + ix * Y * Zn)
    else nbin - 1.

(** cpu3d.c:19-57 *)
Fixpoint calc_keys3 (nx ny nz : nat) (reverse : bool) (icell : nat) (ps : list (bool * (Z * Z * Z))) : list nat :=
  match ps with
  | [] => []
  | (dead, (ix, iy, iz)) :: t =>
      let k := if dead then icell else bucket_key3 nx ny nz reverse ix iy iz in
      k :: calc_keys3 nx ny nz reverse k t
  end.

(** cpu3d.c:86-97 *)
Definition ref_keys3 (nx ny nz : nat) (counts : list nat) : list nat :=
  flat_map (fun ix => flat_map (fun iy => flat_map (fun iz => let ibin := iz + iy * nz + ix * ny * nz in
    repeat ibin (nth ibin counts 0)) (seq 0 nz)) (seq 0 ny)) (seq 0 nx).

(** cpu3d.c:76-158 *)
Definition bucket_sort3 {V} (d : V) (nx ny nz : nat) (counts keys : list nat)
    (buf : list V) (dbuf : list bool) (cols : list (list V)) (dead : list bool)
  : nat * (list (list V) * list bool) :=
  let npart := length dead in
  let refs := ref_keys3 nx ny nz counts in
  let tgt := targets keys refs npart in
  let nbuf := length tgt in
  if nbuf =? 0 then (0, (cols, dead))
  else
    let start := prefix 0 (count_not (nx * ny * nz) refs tgt) in
    (nbuf, (map (sort_col d keys tgt start buf) cols, sort_col false keys tgt start dbuf dead)).

Definition slots_of3 {V} (d : V) (fx fy fz : V -> Z) (kx ky kz : nat) (s : store V) : list (bool * (Z * Z * Z)) :=
  map (fun i => (nth i (dead s) true,
                 (fx (nth i (nth kx (cols s) []) d), fy (nth i (nth ky (cols s) []) d), fz (nth i (nth kz (cols s) []) d))))
      (seq 0 (length (dead s))).

(** cpu3d.c:262-317, one patch *)
Definition sort_patch3 {V} (d : V) (fx fy fz : V -> Z) (kx ky kz nx ny nz : nat) (reverse : bool)
    (buf : list V) (dbuf : list bool) (s : store V) : sorted V :=
  let keys := calc_keys3 nx ny nz reverse 0 (slots_of3 d fx fy fz kx ky kz s) in
  let counts := count_keys (nx * ny * nz) keys in
  let '(n, (c', d')) := bucket_sort3 d nx ny nz counts keys buf dbuf (cols s) (dead s) in
  mkSorted n (mkStore c' d') (bound_min counts) (bound_max counts).

(** particle_sort.py:64-89: which numbering a species' sorter uses.  [nz] is 1 in 2D; a particle is (dead, weight, ux); the
    sums run over all patches of the process.  Exact rational arithmetic; [None]: no override given. *)
Definition live_sum (f : Q * Q -> Q) (ps : list (bool * (Q * Q))) : Q :=
  fold_right (fun (p : bool * (Q * Q)) acc => if fst p then acc else (f (snd p) + acc)%Q) 0%Q ps.
Definition decide_reverse (ny nz : nat) (override : option bool) (patches : list (list (bool * (Q * Q)))) : bool :=
  if negb ((ny =? 1) && (nz =? 1)) then false
  else match override with
       | Some b => b
       | None =>
           let w := fold_left Qplus (map (live_sum fst) patches) 0%Q in
           let wux := fold_left Qplus (map (live_sum (fun p : Q * Q => fst p * snd p)%Q) patches) 0%Q in
           negb (Qle_bool w 0) && negb (Qle_bool 0 (wux / w))
       end.
