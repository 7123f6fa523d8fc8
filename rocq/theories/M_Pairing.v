(** Model of the collision pairing (src/lambdapic/core/collision/utils.py:207-419) and of the set of
    colliding species pairs (src/lambdapic/core/collision/collision.py:55-65, 168-214). *)
From Verif Require Import Base.
From Coq Require Import QArith.
Local Open Scope nat_scope.

(** [dead[i]]; slots of a bucket are in range of the flag array. *)
Definition is_dead_at (dead : list bool) (i : nat) : bool := nth i dead true.

(** The scanning loop [for j in range(lo, hi): if not dead...: ip = j; break]; when nothing is
    found the variable keeps its old value. Positions are [None] for the initial -1. *)
Definition scan (ok : nat -> bool) (lo hi : nat) (old : option nat) : option nat :=
  match find ok (seq lo (hi - lo)) with Some j => Some j | None => old end.
Definition after (ip : option nat) : nat := match ip with None => 0 | Some j => S j end.
(** [idx[ip]]; Python's index -1 is the last element. *)
Definition py_get (idx : list nat) (ip : option nat) : nat :=
  match ip with None => nth (length idx - 1) idx 0 | Some j => nth j idx 0 end.
(** number of live particles of the bucket [ip_start, ip_end) *)
Definition live_count (dead : list bool) (start stop : nat) : nat :=
  (stop - start) - countb (is_dead_at dead) (seq start (stop - start)).

Record pair := mkPair { p_1 : nat; p_2 : nat; p_w : Q; p_dt : nat }.

(* ---------------------------------------------------------------- *)
(** * IntraPairingIterator (utils.py:207-293) *)
Record intra := mkIntra { a_ip1 : option nat; a_ip2 : option nat; a_pair : nat }.

(** [__init__] lines 235-246 *)
Definition intra_npairs (npart : nat) : nat := if 2 <=? npart then (npart + 1) / 2 else 0.
Definition intra_even (npart : nat) : bool := if 2 <=? npart then npart mod 2 =? 0 else true.
Definition intra_dt (npart : nat) : nat := if 2 <=? npart then 2 * intra_npairs npart - 1 else 0.

(** [next] lines 258-293; [idx] is the shuffled array of absolute slots *)
Definition intra_next (dead : list bool) (idx : list nat) (nbuf npart : nat) (s : intra) : pair * intra :=
  let ok := fun j => negb (is_dead_at dead (nth j idx 0)) in
  let npairs := intra_npairs npart in
  let ip1 := scan ok (after (a_ip2 s)) nbuf (a_ip1 s) in
  let ip2 :=
    if intra_even npart then scan ok (after ip1) nbuf (a_ip2 s)
    else if a_pair s <? npairs - 1 then scan ok (after ip1) nbuf (a_ip2 s)
    else scan ok 0 (match ip1 with None => 0 | Some j => j end) (a_ip2 s) in
  let w := if negb (intra_even npart) && ((a_pair s =? 0) || (a_pair s =? npairs - 1))
           then (1 # 2)%Q else 1%Q in
  (mkPair (py_get idx ip1) (py_get idx ip2) w (intra_dt npart), mkIntra ip1 ip2 (S (a_pair s))).

(** [while it.has_next(): it.next()] (cpu.py:337-347) *)
Fixpoint intra_loop (dead : list bool) (idx : list nat) (nbuf npart : nat) (n : nat) (s : intra) : list pair :=
  match n with
  | 0 => []
  | S n' => let '(p, s') := intra_next dead idx nbuf npart s in p :: intra_loop dead idx nbuf npart n' s'
  end.
Definition intra_pairs (dead : list bool) (start stop : nat) (idx : list nat) : list pair :=
  let npart := live_count dead start stop in
  intra_loop dead idx (stop - start) npart (intra_npairs npart) (mkIntra None None 0).

(* ---------------------------------------------------------------- *)
(** * InterPairingIterator (utils.py:296-419) *)

(** One [next] in the branch where side A (shuffled, [ipA]) is at least as large as side B; the
    other branch (lines 391-414) is the same code with the sides exchanged. *)
Definition inter_next (deadA deadB : list bool) (idx : list nat) (startB nbufA nbufB nA nB : nat)
    (s : intra) : pair * intra :=
  let okA := fun j => negb (is_dead_at deadA (nth j idx 0)) in
  let okB := fun j => negb (is_dead_at deadB (startB + j)) in
  let ipA := scan okA (after (a_ip1 s)) nbufA (a_ip1 s) in
  let ipB0 := if a_pair s mod nB =? 0 then None else a_ip2 s in
  let ipB := scan okB (after ipB0 mod nbufB) nbufB ipB0 in
  let w := if a_pair s mod nB <? nA mod nB
           then (1 # Pos.of_nat (nA / nB + 1))%Q else (1 # Pos.of_nat (nA / nB))%Q in
  (mkPair (py_get idx ipA) (match ipB with None => startB - 1 | Some j => startB + j end) w nA,
   mkIntra ipA ipB (S (a_pair s))).
Fixpoint inter_loop deadA deadB idx startB nbufA nbufB nA nB (n : nat) (s : intra) : list pair :=
  match n with
  | 0 => []
  | S n' => let '(p, s') := inter_next deadA deadB idx startB nbufA nbufB nA nB s in
            p :: inter_loop deadA deadB idx startB nbufA nbufB nA nB n' s'
  end.
Definition swap_pair (p : pair) : pair := mkPair (p_2 p) (p_1 p) (p_w p) (p_dt p).

(** [idx]: the shuffled slots of the larger side ([npart1 >= npart2] chooses side 1). *)
Definition inter_pairs (dead1 : list bool) (start1 stop1 : nat) (dead2 : list bool) (start2 stop2 : nat)
    (idx : list nat) : list pair :=
  let n1 := live_count dead1 start1 stop1 in
  let n2 := live_count dead2 start2 stop2 in
  if (n1 =? 0) || (n2 =? 0) then []
  else if n2 <=? n1
  then inter_loop dead1 dead2 idx start2 (stop1 - start1) (stop2 - start2) n1 n2 n1 (mkIntra None None 0)
  else map swap_pair
         (inter_loop dead2 dead1 idx start1 (stop2 - start2) (stop1 - start1) n2 n1 n2 (mkIntra None None 0)).

(* ---------------------------------------------------------------- *)
(** * Species pairs (collision.py:55-65): species are their [ispec]. *)

(** [itertools.combinations(group, 2)] *)
Fixpoint combinations2 (g : list nat) : list (nat * nat) :=
  match g with
  | [] => []
  | s :: g' => map (fun t => (s, t)) g' ++ combinations2 g'
  end.
Definition norm_pair (p : nat * nat) : nat * nat :=
  if fst p <? snd p then p else (snd p, fst p).
Definition peqb (p q : nat * nat) : bool := (fst p =? fst q) && (snd p =? snd q).
Definition add_pair (acc : list (nat * nat)) (p : nat * nat) : list (nat * nat) :=
  let p' := norm_pair p in if existsb (peqb p') acc then acc else acc ++ [p'].
Definition collisions (groups : list (list nat)) : list (nat * nat) :=
  fold_left add_pair (flat_map combinations2 groups) [].

(** enable/disable (collision.py:168-180) on the dict [_enabled]; [None] is ValueError. *)
Definition set_enabled (cs : list (nat * nat)) (en : nat * nat -> bool) (v : bool) (s1 s2 : nat)
  : option (nat * nat -> bool) :=
  let p := norm_pair (s1, s2) in
  if existsb (peqb p) cs then Some (fun q => if peqb p q then v else en q) else None.
(** the pairs treated by one call of the collision step (collision.py:182-214) *)
Definition treated (cs : list (nat * nat)) (en : nat * nat -> bool) : list (nat * nat) := filter en cs.
