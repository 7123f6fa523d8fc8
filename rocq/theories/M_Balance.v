(** Redistribution of patches: relabelling of the parts of a new partition (core/patch/metis.py:7-61) and the exchange of
    the patches themselves (core/mpi/load_balancer.py:101-237).

    Simplifications: the partition computed by METIS is an argument; so are the result of [np.argsort] (some order of the
    columns) and the content of the [np.empty] array.  A patch is its index and everything else it carries (fields, particles,
    rank attribute excluded); pickling a patch and unpickling it gives the patch back.  Messages are the MPI point-to-point
    ones: sent without blocking, received by (source, tag) in the order of sending. *)
From Verif Require Import Base.
Local Open Scope list_scope.

(** ** metis.py:43-61, arg_sort_rows_by_diagonal_max *)
Definition swap {A} (d : A) (i j : nat) (l : list A) : list A := upd i (nth j l d) (upd j (nth i l d) l).
(** [ndarray.argmax]: the first position of the largest value *)
Fixpoint argmax_from (best bi k : nat) (l : list nat) : nat :=
  match l with
  | [] => bi
  | x :: t => if best <? x then argmax_from x k (S k) t else argmax_from best bi (S k) t
  end.
Definition argmax (l : list nat) : nat := match l with [] => 0 | x :: t => argmax_from x 0 1 t end.
(** [arr] is the list of columns, a column maps row numbers to values *)
Definition no_col : nat -> nat := fun _ => 0.
Definition pick_max (st : list nat * list (nat -> nat)) (i : nat) : list nat * list (nat -> nat) :=
  let '(cols, arr) := st in
  let m := i + argmax (map (fun c => c i) (skipn i arr)) in
  (swap 0 i m cols, swap no_col i m arr).
Definition cols_order (n : nat) (matrix : nat -> nat -> nat) (order : list nat) : list nat :=
  fst (fold_left pick_max (seq 0 n) (order, map (fun c i => matrix i c) order)).
Definition rank_map (n : nat) (garbage cols : list nat) : list nat :=
  fold_left (fun m k => upd (nth k cols 0) k m) (seq 0 n) garbage.

(** metis.py:19-38: [nsame[i, j]], the number of patches of process i that are in part j; then the new rank of each patch *)
Definition nsame (prev parts : list nat) (i j : nat) : nat :=
  countb (fun p => (nth p prev 0 =? i) && (nth p parts 0 =? j)) (seq 0 (length parts)).
Definition compute_rank (n : nat) (prev parts order garbage : list nat) : list nat :=
  map (fun r => nth r (rank_map n garbage (cols_order n (nsame prev parts) order)) 0) parts.

(** ** load_balancer.py:171-224 *)
Section Exchange.
Variable B : Type.
Record patch := mkPatch { idx : nat; body : B }.
(** what each process holds, in list order; process r is the r-th element *)
Definition holdings := list (list patch).
Definition memb (i : nat) (l : list nat) : bool := existsb (Nat.eqb i) l.

(** load_balancer.py:130-166: all patches in index order, divided by new rank ([new_rank] maps an index to a rank) *)
Fixpoint insert_idx (p : nat) (l : list nat) : list nat :=
  match l with [] => [p] | q :: t => if p <=? q then p :: l else q :: insert_idx p t end.
Definition sorted_indices (h : holdings) : list nat := fold_right insert_idx [] (map idx (concat h)).
Definition new_indices (h : holdings) (new_rank : nat -> nat) (r : nat) : list nat :=
  filter (fun i => new_rank i =? r) (sorted_indices h).

(** lines 184-192 *)
Definition to_send (h : holdings) (new_rank : nat -> nat) (r : nat) : list nat :=
  filter (fun i => negb (memb i (new_indices h new_rank r))) (map idx (nth r h [])).
Definition to_recv (h : holdings) (new_rank : nat -> nat) (r : nat) : list nat :=
  filter (fun i => negb (memb i (map idx (nth r h [])))) (new_indices h new_rank r).
(** lines 197-200: the dictionary merged from all processes; a later entry overwrites an earlier one *)
Definition locations (h : holdings) : list (nat * nat) :=
  flat_map (fun r => map (fun p => (idx p, r)) (nth r h [])) (seq 0 (length h)).
Definition old_rank (h : holdings) (i : nat) : option nat :=
  match find (fun e => fst e =? i) (rev (locations h)) with Some (_, r) => Some r | None => None end.

(** patch.py:432-438: [Patches.pop] by index; None: ValueError *)
Fixpoint pop (i : nat) (l : list patch) : option (patch * list patch) :=
  match l with
  | [] => None
  | p :: t => if idx p =? i then Some (p, t)
              else match pop i t with Some (q, t') => Some (q, p :: t') | None => None end
  end.
Fixpoint pop_all (is : list nat) (l : list patch) : option (list patch * list patch) :=
  match is with
  | [] => Some ([], l)
  | i :: is' => match pop i l with
                | Some (p, l') => match pop_all is' l' with Some (ps, l'') => Some (p :: ps, l'') | None => None end
                | None => None
                end
  end.

Record message := mkMsg { m_src : nat; m_dst : nat; m_tag : nat; m_data : patch }.
(** one process in the exchange: messages still to send, (source, index) still to receive, patches held *)
Record proc := mkProc { sends : list message; recvs : list (nat * nat); held : list patch }.
(** lines 202-217; None: an exception (unknown index) *)
Definition start (h : holdings) (new_rank : nat -> nat) (r : nat) : option proc :=
  match pop_all (to_send h new_rank r) (nth r h []) with
  | None => None
  | Some (ps, rest) =>
      match fold_right (fun i acc => match old_rank h i, acc with
                                     | Some s, Some l => Some (if s =? r then l else (s, i) :: l)
                                     | _, _ => None end) (Some []) (to_recv h new_rank r) with
      | None => None
      | Some rs => Some (mkProc (map (fun p => mkMsg r (new_rank (idx p)) (idx p) p) ps) rs rest)
      end
  end.
(** one step of process r: post the next send, or complete the next receive if its message has been sent *)
Fixpoint take_msg (src dst tag : nat) (net : list message) : option (message * list message) :=
  match net with
  | [] => None
  | m :: t => if (m_src m =? src) && (m_dst m =? dst) && (m_tag m =? tag) then Some (m, t)
              else match take_msg src dst tag t with Some (m', t') => Some (m', m :: t') | None => None end
  end.
Definition step (st : list proc * list message) (r : nat) : list proc * list message :=
  let '(ps, net) := st in
  match nth_error ps r with
  | None => st
  | Some p =>
      match sends p with
      | m :: ms => (upd r (mkProc ms (recvs p) (held p)) ps, net ++ [m])
      | [] =>
          match recvs p with
          | [] => st
          | (s, i) :: rs =>
              match take_msg s r i net with
              | None => st
              | Some (m, net') => (upd r (mkProc [] rs (held p ++ [m_data m])) ps, net')
              end
          end
      end
  end.
Fixpoint all_some {A} (l : list (option A)) : option (list A) :=
  match l with
  | [] => Some []
  | Some a :: t => match all_some t with Some r => Some (a :: r) | None => None end
  | None :: _ => None
  end.
Definition starts (h : holdings) (new_rank : nat -> nat) : option (list proc) :=
  all_some (map (start h new_rank) (seq 0 (length h))).
Definition run (ps : list proc) (sched : list nat) : list proc * list message := fold_left step sched (ps, []).
Definition done (ps : list proc) : bool :=
  forallb (fun p => match sends p, recvs p with [], [] => true | _, _ => false end) ps.
(** load_balancer.py:101-119: [global_loads], zeros overwritten with each load at the index of its patch (None: index error);
    [loads] are the local loads of each process, in list order *)
Definition gather_loads {L} (zero : L) (h : holdings) (loads : list (list L)) : option (list L) :=
  fold_left (fun acc (e : L * nat) => match acc with
      | Some g => if snd e <? length g then Some (upd (snd e) (fst e) g) else None
      | None => None end)
    (flat_map (fun e => combine (fst e) (map idx (snd e))) (combine loads h))
    (Some (repeat zero (sumn (map (@length L) loads)))).
(** load_balancer.py:143-155: the previous rank of each patch, in index order *)
Definition previous_ranks (h : holdings) : list nat :=
  map (fun i => match old_rank h i with Some r => r | None => 0 end) (sorted_indices h).
(** load_balancer.py:54-67 on all processes: METIS' parts relabelled, then the exchange *)
Definition rebalance (h : holdings) (parts order garbage : list nat) : option (list proc) :=
  let ranks := compute_rank (length h) (previous_ranks h) parts order garbage in
  starts h (fun i => nth i ranks 0).
End Exchange.
Arguments idx {B}. Arguments body {B}. Arguments mkPatch {B}.
