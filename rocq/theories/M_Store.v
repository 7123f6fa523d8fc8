(** Model of the particle storage (src/lambdapic/core/particles.py:57-270) and of the identifiers carried by particles
    through creation, growth, migration, death and QED creation. *)
From Verif Require Import Base M_RunLoop.
From Coq Require Import QArith String.
Local Open Scope list_scope.
Local Open Scope Z_scope.

(** array contents: a number, NaN, or the bit pattern of an identifier (the [_id] array) *)
Inductive value := Num (q : Q) | NaN | Id (z : Z).

(** particles.py:85-116: identifier of the local index [k] for rank [r] and patch [p] (float64 view kept as its bits) *)
Definition make_id (r p k : Z) : Z := Z.lor (Z.lor (Z.shiftl r (32 + 18)) (Z.shiftl p 32)) k.
(** None: the assertion start + count <= 2^32 fails *)
Definition generate_ids (r p start : Z) (count : nat) : option (list Z) :=
  if start + Z.of_nat count <=? 2 ^ 32
  then Some (map (fun i => make_id r p (start + Z.of_nat i)) (seq 0 count)) else None.

(** One ParticlesBase (s_event = None) or QEDParticles (s_event = Some) object. *)
Record store := mkStore {
  s_rank : Z; s_ipatch : Z;
  s_attrs : list (string * list value);
  s_dead : list bool;
  s_event : option (list bool);
  s_npart : nat;
  s_created : Z;
  s_extended : bool }.

(** ndarray.resize (pads with zeros), and assignment to the last n elements [a[-n:]], n >= 1 *)
Definition resize {A} (zero : A) (k : nat) (l : list A) : list A := firstn k l ++ repeat zero (k - List.length l).
Definition set_last {A} (vals : list A) (l : list A) : list A := firstn (List.length l - List.length vals) l ++ vals.

(** particles.py:118-139 and 243-250 *)
Definition init_attr (n : nat) (ids : list Z) (a : string * list value) : string * list value :=
  (fst a, if (fst a =? "_id")%string then map Id ids
          else if (fst a =? "inv_gamma")%string then repeat (Num 1) n else repeat (Num 0) n).
Definition initialize (n : nat) (s : store) : option store :=
  match generate_ids (s_rank s) (s_ipatch s) (s_created s) n with
  | None => None
  | Some ids => Some (mkStore (s_rank s) (s_ipatch s) (map (init_attr n ids) (s_attrs s)) (repeat false n)
      (match s_event s with Some _ => Some (repeat false n) | None => None end) n (s_created s + Z.of_nat n) (s_extended s))
  end.

(** particles.py:141-168, n >= 1: resize, NaN, then w = 0 and fresh ids *)
Definition extend_attr (n npart : nat) (ids : list Z) (a : string * list value) : string * list value :=
  let l := set_last (repeat NaN n) (resize (Num 0) (n + npart) (snd a)) in
  (fst a, if (fst a =? "_id")%string then set_last (map Id ids) l
          else if (fst a =? "w")%string then set_last (repeat (Num 0) n) l else l).
Definition extend_base (n : Z) (s : store) : option store :=
  if n <=? 0 then Some s
  else let k := Z.to_nat n in
       match generate_ids (s_rank s) (s_ipatch s) (s_created s) k with
       | None => None
       | Some ids => Some (mkStore (s_rank s) (s_ipatch s) (map (extend_attr k (s_npart s) ids) (s_attrs s))
                     (set_last (repeat true k) (resize false (k + s_npart s) (s_dead s)))
                     (s_event s) (k + s_npart s) (s_created s + n) true)
       end.
(** particles.py:252-260.  [event.resize(n + npart)]; [event[-n:] = False] sets the last n elements for n >= 1, all of
    them for n = 0 and those from position -n on for n < 0 (the resize raises if n + npart < 0). *)
Definition extend_event (n : Z) (npart : nat) (ev : list bool) : option (list bool) :=
  if n + Z.of_nat npart <? 0 then None
  else let ev' := resize false (Z.to_nat (n + Z.of_nat npart)) ev in
       if 0 <? n then Some (set_last (repeat false (Z.to_nat n)) ev')
       else Some (firstn (Z.to_nat (- n)) ev' ++ repeat false (List.length ev' - Z.to_nat (- n))).
Definition with_event (s : store) (ev : list bool) : store :=
  mkStore (s_rank s) (s_ipatch s) (s_attrs s) (s_dead s) (Some ev) (s_npart s) (s_created s) (s_extended s).
Definition extend (n : Z) (s : store) : option store :=
  match s_event s with
  | None => extend_base n s
  | Some ev => match extend_event n (s_npart s) ev with
               | None => None
               | Some ev' => extend_base n (with_event s ev')
               end
  end.

(** particles.py:170-193 and 262-270.  [idx] is the result of np.argsort(is_dead) (not a stable sort: any sorting permutation).
    When nothing is pruned the event array is assigned to itself. *)
Definition n_alive (dead : list bool) : nat := countb negb dead.
Definition prune_size (extra : Q) (dead : list bool) : nat :=
  Z.to_nat (qtrunc (inject_Z (Z.of_nat (n_alive dead)) * (1 + extra))).
Definition take {A} (d : A) (idx : list nat) (l : list A) : list A := map (fun i => nth i l d) idx.
Definition prune (extra : Q) (idx : list nat) (s : store) : store :=
  let k := prune_size extra (s_dead s) in
  if (s_npart s <=? k)%nat then s
  else mkStore (s_rank s) (s_ipatch s)
         (map (fun a => (fst a, resize (Num 0) k (take NaN idx (snd a)))) (s_attrs s))
         (resize false k (take true idx (s_dead s)))
         (match s_event s with Some ev => Some (resize false k (take false idx ev)) | None => None end)
         k (s_created s) true.

(** ** Identifiers of one species over the whole simulation.
    One entry per patch: the generator's key and counter, and the (identifier, dead) pairs of the slots.  The key travels
    with the patch when it moves to another process (patches are pickled as a whole, load_balancer.py:206-222). *)
Record pslots := mkPs { ps_rank : Z; ps_ipatch : Z; ps_created : Z; ps_slots : list (Z * bool) }.
Definition pool := list pslots.
Definition set_slots (p : pslots) (created : Z) (sl : list (Z * bool)) : pslots := mkPs (ps_rank p) (ps_ipatch p) created sl.
Definition fresh (p : pslots) (n : nat) (dead : bool) : list (Z * bool) :=
  map (fun i => (make_id (ps_rank p) (ps_ipatch p) (ps_created p + Z.of_nat i), dead)) (seq 0 n).
Definition no_slot : Z * bool := (0, true).
Definition no_patch : pslots := mkPs 0 0 0 [].

Inductive idop :=
| OInit (p n : nat)               (** initialize: start-up, and window injection (callback/utils.py:781) *)
| OExtend (p n : nat)             (** growth before an exchange or QED creation *)
| OLoad (p n : nat)               (** LoadParticles: extend, then the new slots become alive (callback/utils.py:1137) *)
| OKill (p i : nat)               (** particle absorbed, left the domain, or photon converted *)
| OMigrate (p i q j : nat)        (** exchange: all attributes (the identifier too) copied into a dead slot, source dead
                                      (sync_particles_2d.c:469-505) *)
| OSort (p : nat) (idx : list nat)          (** bucket sort *)
| OPrune (p : nat) (idx : list nat) (k : nat)
| OCreate (p j : nat).            (** QED creation in a dead slot, identifier not written (qed/inline.py:68-82, 126-154) *)

Definition alive_at (p : pslots) (i : nat) : bool := (i <? List.length (ps_slots p))%nat && negb (snd (nth i (ps_slots p) no_slot)).
Definition dead_at (p : pslots) (i : nat) : bool := (i <? List.length (ps_slots p))%nat && snd (nth i (ps_slots p) no_slot).
Definition get (st : pool) (p : nat) : pslots := nth p st no_patch.
Definition enough_ids (p : pslots) (n : nat) : bool := ps_created p + Z.of_nat n <=? 2 ^ 32.
(** sorted permutation test *)
Definition is_perm (idx : list nat) (n : nat) : bool :=
  (List.length idx =? n)%nat && forallb (fun i => existsb (Nat.eqb i) idx) (seq 0 n).
(** an operation that does not apply (no such patch or slot, id space exhausted) leaves the state alone *)
Definition exec (o : idop) (st : pool) : pool :=
  match o with
  | OInit p n => let x := get st p in
      if enough_ids x n then upd p (set_slots x (ps_created x + Z.of_nat n) (fresh x n false)) st else st
  | OExtend p n => let x := get st p in
      if enough_ids x n then upd p (set_slots x (ps_created x + Z.of_nat n) (ps_slots x ++ fresh x n true)) st else st
  | OLoad p n => let x := get st p in
      if enough_ids x n then upd p (set_slots x (ps_created x + Z.of_nat n) (ps_slots x ++ fresh x n false)) st else st
  | OKill p i => let x := get st p in
      if alive_at x i then upd p (set_slots x (ps_created x) (upd i (fst (nth i (ps_slots x) no_slot), true) (ps_slots x))) st else st
  | OMigrate p i q j =>
      let x := get st p in let y := get st q in
      if alive_at x i && dead_at y j
      then let id := fst (nth i (ps_slots x) no_slot) in
           let st' := upd q (set_slots y (ps_created y) (upd j (id, false) (ps_slots y))) st in
           let x' := get st' p in
           upd p (set_slots x' (ps_created x') (upd i (id, true) (ps_slots x'))) st'
      else st
  | OSort p idx => let x := get st p in
      if is_perm idx (List.length (ps_slots x)) then upd p (set_slots x (ps_created x) (take no_slot idx (ps_slots x))) st else st
  | OPrune p idx k => let x := get st p in
      if is_perm idx (List.length (ps_slots x)) then upd p (set_slots x (ps_created x) (firstn k (take no_slot idx (ps_slots x)))) st else st
  | OCreate p j => let x := get st p in
      if dead_at x j then upd p (set_slots x (ps_created x) (upd j (fst (nth j (ps_slots x) no_slot), false) (ps_slots x))) st else st
  end.
Definition exec_all (h : list idop) (st : pool) : pool := fold_left (fun s o => exec o s) h st.
