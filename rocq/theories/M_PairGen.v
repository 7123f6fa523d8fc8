(** Model of the generators the pairing iterators replace (src/lambdapic/core/collision/cpu.py:23-134, self_pairing and pairing).
    The iterators are M_Pairing (core/collision/utils.py:207-419). *)
From Verif Require Import Base M_Pairing.
From Coq Require Import QArith.
Local Open Scope nat_scope.

(** for ip in range(lo, hi): if ok: break.  The loop variable itself moves: without a hit it ends at the last position; an empty
    range leaves it alone. *)
Fixpoint walk (ok : nat -> bool) (js : list nat) (ip : option nat) : option nat :=
  match js with [] => ip | j :: js' => if ok j then Some j else walk ok js' (Some j) end.
Definition range (lo hi : nat) : list nat := seq lo (hi - lo).

(** cpu.py:41-69: the pairs with numbers ipair, ipair+1, ... ([left] of them) *)
Fixpoint self_pairs (dead : list bool) (idx : list nat) (nbuf npart npairs left ipair : nat) (ip1 ip2 : option nat) : list pair :=
  match left with
  | 0 => []
  | S left' =>
      let ok j := negb (is_dead_at dead (nth j idx 0)) in
      let odd := negb (npart mod 2 =? 0) in
      let ip1 := walk ok (range (after ip2) nbuf) ip1 in
      let ip2 := if negb odd then walk ok (range (after ip1) nbuf) ip2
                 else if ipair <? npairs - 1 then walk ok (range (after ip1) nbuf) ip2
                 else walk ok (range 0 (match ip1 with None => 0 | Some j => j end)) ip2 in
      let w := if odd then if ipair =? 0 then (1 # 2)%Q else if ipair =? npairs - 1 then (1 # 2)%Q else 1%Q else 1%Q in
      mkPair (py_get idx ip1) (py_get idx ip2) w (2 * npairs - 1) :: self_pairs dead idx nbuf npart npairs left' (S ipair) ip1 ip2
  end.
(** cpu.py:23-36 *)
Definition self_pairing (dead : list bool) (start stop : nat) (idx : list nat) : list pair :=
  let npart := live_count dead start stop in
  if npart <? 2 then [] else let npairs := (npart + 1) / 2 in self_pairs dead idx (stop - start) npart npairs npairs 0 None None.

(** cpu.py:104-117: the larger side A is shuffled; lines 119-134 are the same code with the sides exchanged *)
Fixpoint cross_pairs (deadA deadB : list bool) (idx : list nat) (startB nbufA nbufB nA nB left ipair : nat) (ipA ipB : option nat) : list pair :=
  match left with
  | 0 => []
  | S left' =>
      let ipA := walk (fun j => negb (is_dead_at deadA (nth j idx 0))) (range (after ipA) nbufA) ipA in
      let ipB := if ipair mod nB =? 0 then None else ipB in
      let ipB := walk (fun j => negb (is_dead_at deadB (startB + j))) (range (after ipB mod nbufB) nbufB) ipB in
      let w := if ipair mod nB <? nA mod nB then (1 # Pos.of_nat (nA / nB + 1))%Q else (1 # Pos.of_nat (nA / nB))%Q in
      mkPair (py_get idx ipA) (match ipB with None => startB - 1 | Some j => startB + j end) w nA
        :: cross_pairs deadA deadB idx startB nbufA nbufB nA nB left' (S ipair) ipA ipB
  end.
(** cpu.py:72-100 *)
Definition pairing (dead1 : list bool) (start1 stop1 : nat) (dead2 : list bool) (start2 stop2 : nat) (idx : list nat) : list pair :=
  let n1 := live_count dead1 start1 stop1 in
  let n2 := live_count dead2 start2 stop2 in
  if (n1 =? 0) || (n2 =? 0) then []
  else if n2 <=? n1 then cross_pairs dead1 dead2 idx start2 (stop1 - start1) (stop2 - start2) n1 n2 n1 0 None None
  else map swap_pair (cross_pairs dead2 dead1 idx start1 (stop2 - start2) (stop1 - start1) n2 n1 n2 0 None None).
