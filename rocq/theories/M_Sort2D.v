(** Model of the in-place bucket sort of particles
    (src/lambdapic/core/sort/cpu2d.c, src/lambdapic/core/sort/particle_sort.py).

    A patch's particle storage is a structure of arrays: one array per attribute plus the
    [is_dead] flags.  [floor((x-x0)/dx)] is an oracle [fx : V -> Z] on the attribute values
    (floating point is not modelled).  Scratch arrays persist between calls, hence their initial
    content is an arbitrary argument. *)
From Verif Require Import Base.

(** cpu2d.c:22-45, bucket of an alive particle whose cell is (ix,iy).
    [reverse_x]: clamp and mirror x; otherwise out-of-range cells go to the last bucket. *)
Definition bucket_key (nx ny : nat) (reverse : bool) (ix iy : Z) : nat :=
  let nbin := nx * ny in
  if reverse then
    let ix' := (if ix <? 0 then 0 else if Z.of_nat nx <=? ix then Z.of_nat nx - 1 else ix)%Z in
    let iy' := (if iy <? 0 then 0 else if Z.of_nat ny <=? iy then Z.of_nat ny - 1 else iy)%Z in
    Z.to_nat (iy' + (Z.of_nat nx - 1 - ix') * Z.of_nat ny)
  else
    if ((0 <=? ix) && (ix <? Z.of_nat nx) && (0 <=? iy) && (iy <? Z.of_nat ny))%Z
    then Z.to_nat (iy + ix * Z.of_nat ny)
    else nbin - 1.

(** cpu2d.c:19-53, the loop over particles; the accumulator is [icell], which dead particles
    inherit.  Argument: (dead, ix, iy) per slot. *)
Fixpoint calc_keys (nx ny : nat) (reverse : bool) (icell : nat) (ps : list (bool * (Z * Z))) : list nat :=
  match ps with
  | [] => []
  | (dead, (ix, iy)) :: t =>
      let k := if dead then icell else bucket_key nx ny reverse ix iy in
      k :: calc_keys nx ny reverse k t
  end.

(** cpu2d.c:17 memset + the increments [bucket_count[icell] += 1]. *)
Definition count_keys (nbin : nat) (keys : list nat) : list nat :=
  fold_left (fun c k => upd k (S (nth k c 0)) c) keys (repeat 0 nbin).

(** cpu2d.c:78-91: exclusive prefix sums of the counts, starting at [acc]. *)
Fixpoint prefix (acc : nat) (counts : list nat) : list nat :=
  match counts with
  | [] => []
  | c :: cs => acc :: prefix (acc + c) cs
  end.
Definition bound_min (counts : list nat) : list nat := prefix 0 counts.
(** max of bucket i is min of bucket i+1; the last one is closed separately (line 90). *)
Definition bound_max (counts : list nat) : list nat :=
  tl (bound_min counts) ++ [last (bound_min counts) 0 + last counts 0].

(** cpu2d.c:118-127: reference key of each slot. *)
Definition ref_keys (nx ny : nat) (counts : list nat) : list nat :=
  flat_map (fun ix => flat_map (fun iy => let ibin := iy + ix * ny in
                                          repeat ibin (nth ibin counts 0)) (seq 0 ny)) (seq 0 nx).

(** cpu2d.c:131-138: the slots whose occupant does not belong there, in ascending order. *)
Definition targets (keys refs : list nat) (npart : nat) : list nat :=
  filter (fun ip => negb (nth ip keys 0 =? nth ip refs 0)) (seq 0 npart).
(** cpu2d.c:130,133: how many such slots each bucket owns. *)
Definition count_not (nbin : nat) (refs tgt : list nat) : list nat :=
  fold_left (fun c ip => let b := nth ip refs 0 in upd b (S (nth b c 0)) c) tgt (repeat 0 nbin).

Section Columns.
Context {V : Type} (d : V).

(** cpu2d.c:158-162 (attributes), 177-181 (flags): gather one column in the scratch buffer. *)
Definition gather (keys tgt : list nat) (start : list nat) (col buf : list V) : list V :=
  fst (fold_left (fun (st : list V * list nat) ip =>
         let '(b, cnt) := st in
         let k := nth ip keys 0 in
         (upd (nth k cnt 0) (nth ip col d) b, upd k (S (nth k cnt 0)) cnt))
       tgt (buf, start)).

(** cpu2d.c:165-167, 184-186: write the scratch buffer back to the misplaced slots. *)
Definition fill_back (tgt : list nat) (buf col : list V) : list V :=
  fold_left (fun c ib => upd (nth ib tgt 0) (nth ib buf d) c) (seq 0 (length tgt)) col.

Definition sort_col (keys tgt start : list nat) (buf col : list V) : list V :=
  fill_back tgt (gather keys tgt start col buf) col.
End Columns.

(** cpu2d.c:108-189, on all the columns of one patch.  [buf] is the shared scratch buffer of the
    attribute columns (its content after one column is the initial content of the next one; the
    model passes the same arbitrary [buf] for each, see P_Sort2D.sort_col_buf_irrelevant), [dbuf]
    the same memory read as flags. Returns the number of misplaced slots. *)
Definition bucket_sort {V} (d : V) (nx ny : nat) (counts keys : list nat)
    (buf : list V) (dbuf : list bool) (cols : list (list V)) (dead : list bool)
  : nat * (list (list V) * list bool) :=
  let npart := length dead in
  let refs := ref_keys nx ny counts in
  let tgt := targets keys refs npart in
  let nbuf := length tgt in
  if nbuf =? 0 then (0, (cols, dead))
  else
    let start := prefix 0 (count_not (nx * ny) refs tgt) in
    (nbuf, (map (sort_col d keys tgt start buf) cols, sort_col false keys tgt start dbuf dead)).

(** Particle storage of one patch: attribute arrays and flags. *)
Record store (V : Type) := mkStore { cols : list (list V); dead : list bool }.
Arguments mkStore {V}. Arguments cols {V}. Arguments dead {V}.

(** The (dead, ix, iy) view of the slots; [kx]/[ky] are the positions of x and y in the attribute
    list; [fx]/[fy] the floor of the scaled coordinate (cpu2d.c:23-24). *)
Definition slots_of {V} (d : V) (fx fy : V -> Z) (kx ky : nat) (s : store V) : list (bool * (Z * Z)) :=
  map (fun i => (nth i (dead s) true,
                 (fx (nth i (nth kx (cols s) []) d), fy (nth i (nth ky (cols s) []) d))))
      (seq 0 (length (dead s))).

Record sorted (V : Type) := mkSorted
  { s_nbuf : nat; s_store : store V; s_min : list nat; s_max : list nat }.
Arguments mkSorted {V}. Arguments s_nbuf {V}. Arguments s_store {V}.
Arguments s_min {V}. Arguments s_max {V}.

(** cpu2d.c:251-300, the body of the parallel loop: one patch. *)
Definition sort_patch {V} (d : V) (fx fy : V -> Z) (kx ky nx ny : nat) (reverse : bool)
    (buf : list V) (dbuf : list bool) (s : store V) : sorted V :=
  let keys := calc_keys nx ny reverse 0 (slots_of d fx fy kx ky s) in
  let counts := count_keys (nx * ny) keys in
  let '(n, (c', d')) := bucket_sort d nx ny counts keys buf dbuf (cols s) (dead s) in
  mkSorted n (mkStore c' d') (bound_min counts) (bound_max counts).

(** cpu2d.c:250-302: all patches of a process, with the [+]-reduction of the move counts.
    Each patch has its own origin (fx,fy) and scratch buffers. *)
Definition sort_patches {V} (d : V) (kx ky nx ny : nat) (reverse : bool)
    (ps : list ((V -> Z) * (V -> Z) * list V * list bool * store V)) : nat * list (sorted V) :=
  let rs := map (fun p => let '(fx, fy, buf, dbuf, s) := p in
                          sort_patch d fx fy kx ky nx ny reverse buf dbuf s) ps in
  (sumn (map s_nbuf rs), rs).
