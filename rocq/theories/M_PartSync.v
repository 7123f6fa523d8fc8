(** Model of the particle exchange between patches: core/patch/sync_particles_{2d,3d}.c and core/mpi/sync_particles_{2d,3d}.c,
    driven by Patches.sync_particles (patch.py:705-764) and MPIManager.sync_particles_start/wait (mpi_manager.py:105-148, 208-252).
    The 2D and 3D files have the same structure; the exchange is written once over the functions that differ
    (number of sides, opposite table, classification of a position, periodic shift, out-of-bounds test).
    A row [R] is the tuple of all exchanged attributes of a particle (attrs of the species, which contains the position);
    rows are copied whole, where the source copies attribute by attribute.
    Counters are naturals: 64-bit overflow is not modelled. *)
From Verif Require Import Base M_Layout.
From Coq Require Import QArith Qabs Permutation.
Local Open Scope list_scope.
Local Open Scope nat_scope.

Section Exchange.
Variables R Geo : Type.
Variable nb : nat.                         (** NUM_BOUNDARIES *)
Variable opp : nat -> nat.                 (** OPPOSITE_BOUNDARY *)
Variable classify : Geo -> R -> option nat.
Variable shift : Geo -> R -> R.            (** handle_periodic on every coordinate *)
Variable outside : Geo -> R -> bool.
Variable clear : R -> R.                   (** position set to NaN *)
Variable clear_dead : bool.                (** 3D only: dead slots get NaN positions as well *)
Variable geo : nat -> Geo.                 (** bounds of a patch, widened by half a cell (2d.c:233-238) *)
Variable nbr : nat -> nat -> option nat.   (** neighbor_ipatch: None for a negative entry *)
Variable fresh : nat -> nat -> R.          (** content of slots added by extend *)

Record slot := mkSlot { row : R; dead : bool }.
Definition patches := list (list slot).
Definition pth (st : patches) (p : nat) : list slot := nth p st [].

(** patch/sync_particles_2d.c:37-84, 3d.c:79-177; the same functions in mpi/ *)
Definition count_outgoing (g : Geo) (l : list slot) : list nat :=
  fold_left (fun c s => if dead s then c else match classify g (row s) with
                                              | Some b => upd b (S (nth b c 0)) c
                                              | None => c end) l (repeat 0 nb).
(** 2d.c:255-281 *)
Definition outgoing (st : patches) : list (list nat) :=
  map (fun p => count_outgoing (geo p) (pth st p)) (seq 0 (length st)).
Definition incoming_from (out : list (list nat)) (q b : nat) : nat :=
  match nbr q b with Some i => nth (opp b) (nth i out []) 0 | None => 0 end.
(** 2d.c:289-296 *)
Definition npart_new (out : list (list nat)) (q : nat) : nat := sumn (map (incoming_from out q) (seq 0 nb)).
(** 2d.c:298-313 *)
Definition to_extend (new : nat) (l : list slot) : nat :=
  let ndead := countb dead l in if ndead <? new then new - ndead + length l / 4 else 0.
(** particles.py:147-168 as seen by the exchange: dead slots are appended *)
Definition extend (q n : nat) (l : list slot) : list slot :=
  l ++ map (fun i => mkSlot (fresh q (length l + i)) true) (seq 0 n).
(** patch.py:725-731 *)
Definition extend_all (out : list (list nat)) (st : patches) : patches :=
  map (fun q => extend q (to_extend (npart_new out q) (pth st q)) (pth st q)) (seq 0 (length st)).

(** *** fill_particles_from_boundary, first loop (2d.c:417-432): index buffers; None is the NULL pointer *)
Definition alloc (out : list (list nat)) (q b : nat) : option nat :=
  if 0 <? npart_new out q then
    match nbr q b with
    | Some _ => let c := incoming_from out q b in if 0 <? c then Some c else None
    | None => None
    end
  else None.
(** second loop (2d.c:95-141, 433-447): patch [p] writes the indices of its leaving particles into the buffers of its neighbours *)
Fixpoint index_writes (p : nat) (g : Geo) (l : list slot) (ip : nat) (ibuff : list nat) : list (nat * nat * nat * nat) :=
  match l with
  | [] => []
  | s :: l' =>
      if dead s then index_writes p g l' (S ip) ibuff
      else match classify g (row s) with
           | None => index_writes p g l' (S ip) ibuff
           | Some b => match nbr p b with
                       | None => index_writes p g l' (S ip) ibuff
                       | Some q => (q, opp b, nth b ibuff 0, ip) :: index_writes p g l' (S ip) (upd b (S (nth b ibuff 0)) ibuff)
                       end
           end
  end.
Definition all_writes (st : patches) : list (nat * nat * nat * nat) :=
  flat_map (fun p => index_writes p (geo p) (pth st p) 0 (repeat 0 nb)) (seq 0 (length st)).
(** memory of the index buffers: the writes so far, latest first; a write through NULL or past the end is a Fault *)
Inductive mem := Mem (w : list (nat * nat * nat * nat)) | Fault.
Definition write (out : list (list nat)) (m : mem) (e : nat * nat * nat * nat) : mem :=
  match m with
  | Fault => Fault
  | Mem w => let '(q, b, k, ip) := e in
      match alloc out q b with Some n => if k <? n then Mem (e :: w) else Fault | None => Fault end
  end.
Definition read (w : list (nat * nat * nat * nat)) (q b k : nat) : option nat :=
  match find (fun e => let '(q', b', k', _) := e in (q' =? q) && (b' =? b) && (k' =? k)) w with
  | Some (_, _, _, ip) => Some ip | None => None end.

(** third loop (2d.c:144-165, 448-497): each patch has a thread that first loads the rows of the arriving particles from the
    neighbours and then stores them into its dead slots in order. Threads interleave in any way; one step of a thread is one
    load or one turn of the store loop. None: out-of-bounds or uninitialised access. *)
Record thread := mkThread { pending : list (nat * option nat); buf : list R; ipart : nat; ibuff : nat }.
Definition loads (out : list (list nat)) (w : list (nat * nat * nat * nat)) (q : nat) : list (nat * option nat) :=
  if 0 <? npart_new out q then
    flat_map (fun b => match nbr q b with
                       | Some i => map (fun k => (i, read w q b k)) (seq 0 (incoming_from out q b))
                       | None => [] end) (seq 0 nb)
  else [].
Definition thread0 (out : list (list nat)) (w : list (nat * nat * nat * nat)) (q : nat) : thread := mkThread (loads out w q) [] 0 0.
Definition step3 (out : list (list nat)) (x : option (patches * list thread)) (q : nat) : option (patches * list thread) :=
  match x with
  | None => None
  | Some (st, ts) =>
    match nth_error ts q with
    | None => x
    | Some t =>
      match pending t with
      | (i, oip) :: rest =>
          match oip with
          | None => None
          | Some ip => match nth_error (pth st i) ip with
                       | None => None
                       | Some s => Some (st, upd q (mkThread rest (buf t ++ [row s]) (ipart t) (ibuff t)) ts)
                       end
          end
      | [] =>
          if npart_new out q <=? ibuff t then x
          else match nth_error (pth st q) (ipart t) with
               | None => x
               | Some s =>
                   if dead s then
                     match nth_error (buf t) (ibuff t) with
                     | None => None
                     | Some r => Some (upd q (upd (ipart t) (mkSlot (shift (geo q) r) false) (pth st q)) st,
                                       upd q (mkThread [] (buf t) (S (ipart t)) (S (ibuff t))) ts)
                     end
                   else Some (st, upd q (mkThread [] (buf t) (S (ipart t)) (ibuff t)) ts)
               end
      end
    end
  end.
Definition thread_done (out : list (list nat)) (st : patches) (ts : list thread) (q : nat) : bool :=
  match nth_error ts q with
  | None => true
  | Some t => match pending t with [] => (npart_new out q <=? ibuff t) || (length (pth st q) <=? ipart t) | _ => false end
  end.
(** fourth loop (2d.c:185-202, 498-505) *)
Definition mark1 (g : Geo) (s : slot) : slot :=
  if dead s then (if clear_dead then mkSlot (clear (row s)) true else s)
  else if outside g (row s) then mkSlot (clear (row s)) true else s.
Definition mark_all (st : patches) : patches := map (fun q => map (mark1 (geo q)) (pth st q)) (seq 0 (length st)).

(** the whole exchange for one species: [es] is the order in which the index writes of the second loop happen, [sched] the order
    of thread steps in the third; None if some access is invalid or some thread has not finished *)
Definition run3 (out : list (list nat)) (w : list (nat * nat * nat * nat)) (sched : list nat) (st : patches) : option (patches * list thread) :=
  fold_left (step3 out) sched (Some (st, map (thread0 out w) (seq 0 (length st)))).
Definition exchange (st : patches) (es : list (nat * nat * nat * nat)) (sched : list nat) : option patches :=
  let out := outgoing st in
  let st1 := extend_all out st in
  match fold_left (write out) es (Mem []) with
  | Fault => None
  | Mem w => match run3 out w sched st1 with
             | None => None
             | Some (st2, ts) => if forallb (thread_done out st2 ts) (seq 0 (length st)) then Some (mark_all st2) else None
             end
  end.

(** ** Exchange between processes (mpi/sync_particles_2d.c). The state holds the patches of all processes; [nbr] is the global
    neighbour relation and [remote p b] tells that the neighbour of p on side b is held by another process (neighbor_rank >= 0).
    Messages are delivered to the receive posted for (neighbour, opposite side); matching is the subject of C10. *)
Variable remote : nat -> nat -> bool.
(** 2d.c:676-684: counts are stored only for remote sides *)
Definition mpi_outgoing (st : patches) : list (list nat) :=
  map (fun p => let c := count_outgoing (geo p) (pth st p) in map (fun b => if remote p b then nth b c 0 else 0) (seq 0 nb)) (seq 0 (length st)).
(** 2d.c:686-711: the received count *)
Definition mpi_incoming (out : list (list nat)) (q b : nat) : nat :=
  if remote q b then match nbr q b with Some i => nth (opp b) (nth i out []) 0 | None => 0 end else 0.
(** 2d.c:717-746 *)
Definition mpi_to_extend (out : list (list nat)) (q : nat) (l : list slot) : nat :=
  let new := sumn (map (mpi_incoming out q) (seq 0 nb)) in
  let ndead := countb dead l in if ndead <? new then new - ndead else 0.
Definition mpi_extend_all (out : list (list nat)) (st : patches) : patches :=
  map (fun q => extend q (mpi_to_extend out q (pth st q)) (pth st q)) (seq 0 (length st)).
(** 2d.c:122-182, 405-424: rows packed for side b of patch p, in slot order *)
Definition packed (st : patches) (p b : nat) : list R :=
  map row (filter (fun s => negb (dead s) && match classify (geo p) (row s) with Some b' => b' =? b | None => false end) (pth st p)).
(** 2d.c:433-437: sent particles are marked dead, keeping their attributes *)
Definition mark_sent (st : patches) : patches :=
  map (fun p => map (fun s => if dead s then s else match classify (geo p) (row s) with
                                                  | Some b => if remote p b then mkSlot (row s) true else s
                                                  | None => s end) (pth st p)) (seq 0 (length st)).
(** 2d.c:517-553: received rows go to dead slots in order; None: the scan runs past the end of the arrays *)
Fixpoint place (l : list slot) (rows : list R) : option (list slot) :=
  match rows with
  | [] => Some l
  | r :: rows' =>
      match l with
      | [] => None
      | s :: l' => if dead s then match place l' rows' with Some l'' => Some (mkSlot r false :: l'') | None => None end
                   else match place l' rows with Some l'' => Some (s :: l'') | None => None end
      end
  end.
Definition received (sent : nat -> nat -> list R) (q : nat) : list R :=
  flat_map (fun b => if remote q b then match nbr q b with Some i => sent i (opp b) | None => [] end else []) (seq 0 nb).
Fixpoint sequence {A} (l : list (option A)) : option (list A) :=
  match l with
  | [] => Some []
  | Some a :: l' => match sequence l' with Some r => Some (a :: r) | None => None end
  | None :: _ => None
  end.
Definition mpi_exchange (st : patches) : option patches :=
  let out := mpi_outgoing st in
  let st1 := mpi_extend_all out st in
  let st2 := mark_sent st1 in
  sequence (map (fun q => place (pth st2 q) (map (shift (geo q)) (received (packed st1) q))) (seq 0 (length st))).
End Exchange.

(** ** The functions of the 2D and 3D files *)
(** bounds of a patch on one axis (widened), global bounds and cell size *)
Record axgeo := mkGeo { g_lo : Q; g_hi : Q; g_min : Q; g_max : Q; g_cell : Q }.
(** comparisons with NaN (None) are false *)
Definition below (x : option Q) (b : Q) : bool := match x with Some v => negb (Qle_bool b v) | None => false end.
Definition above (x : option Q) (b : Q) : bool := match x with Some v => negb (Qle_bool v b) | None => false end.

Definition XMIN := 0. Definition XMAX := 1. Definition YMIN := 2. Definition YMAX := 3.
Definition XMINYMIN := 4. Definition XMAXYMIN := 5. Definition XMINYMAX := 6. Definition XMAXYMAX := 7.
(** patch/sync_particles_2d.c:44-82 (the same tree in get_incoming_index and in mpi/) *)
Definition classify2 (gx gy : axgeo) (x y : option Q) : option nat :=
  if below y (g_lo gy) then
    (if below x (g_lo gx) then Some XMINYMIN else if above x (g_hi gx) then Some XMAXYMIN else Some YMIN)
  else if above y (g_hi gy) then
    (if below x (g_lo gx) then Some XMINYMAX else if above x (g_hi gx) then Some XMAXYMAX else Some YMAX)
  else (if below x (g_lo gx) then Some XMIN else if above x (g_hi gx) then Some XMAX else None).
(** 3d.c:85-176; numbers are the positions in enum Boundary3D (3d.c:13-43) *)
Definition classify3 (gx gy gz : axgeo) (x y z : option Q) : option nat :=
  if below z (g_lo gz) then
    if below y (g_lo gy) then (if below x (g_lo gx) then Some 18 else if above x (g_hi gx) then Some 22 else Some 14)
    else if above y (g_hi gy) then (if below x (g_lo gx) then Some 20 else if above x (g_hi gx) then Some 24 else Some 16)
    else (if below x (g_lo gx) then Some 8 else if above x (g_hi gx) then Some 12 else Some 4)
  else if above z (g_hi gz) then
    if below y (g_lo gy) then (if below x (g_lo gx) then Some 19 else if above x (g_hi gx) then Some 23 else Some 15)
    else if above y (g_hi gy) then (if below x (g_lo gx) then Some 21 else if above x (g_hi gx) then Some 25 else Some 17)
    else (if below x (g_lo gx) then Some 9 else if above x (g_hi gx) then Some 13 else Some 5)
  else
    if below y (g_lo gy) then (if below x (g_lo gx) then Some 6 else if above x (g_hi gx) then Some 10 else Some 2)
    else if above y (g_hi gy) then (if below x (g_lo gx) then Some 7 else if above x (g_hi gx) then Some 11 else Some 3)
    else (if below x (g_lo gx) then Some 0 else if above x (g_hi gx) then Some 1 else None).
(** 2d.c:168-182 *)
Definition handle_periodic (g : axgeo) (c : option Q) : option Q :=
  match c with
  | None => None
  | Some v =>
      let L := (g_max g - g_min g)%Q in
      let v1 := if above c (g_max g) && negb (Qle_bool (g_cell g) (Qabs.Qabs (g_lo g - g_min g))) then (v - L)%Q else v in
      Some (if below c (g_min g) && negb (Qle_bool (g_cell g) (Qabs.Qabs (g_hi g - g_max g))) then (v1 + L)%Q else v1)
  end.
(** 2d.c:196, 3d.c:339 *)
Definition out1 (g : axgeo) (c : option Q) : bool := below c (g_lo g) || above c (g_hi g).

(** rows: position and the other attributes *)
Section Rows.
Variable A : Type.
Record prow := mkRow { px : option Q; py : option Q; pz : option Q; other : A }.
Definition cl2 (g : axgeo * axgeo) (r : prow) : option nat := classify2 (fst g) (snd g) (px r) (py r).
Definition sh2 (g : axgeo * axgeo) (r : prow) : prow :=
  mkRow (handle_periodic (fst g) (px r)) (handle_periodic (snd g) (py r)) (pz r) (other r).
Definition out2 (g : axgeo * axgeo) (r : prow) : bool := out1 (fst g) (px r) || out1 (snd g) (py r).
Definition clear2 (r : prow) : prow := mkRow None None (pz r) (other r).
Definition cl3 (g : axgeo * axgeo * axgeo) (r : prow) : option nat := let '(gx, gy, gz) := g in classify3 gx gy gz (px r) (py r) (pz r).
Definition sh3 (g : axgeo * axgeo * axgeo) (r : prow) : prow :=
  let '(gx, gy, gz) := g in mkRow (handle_periodic gx (px r)) (handle_periodic gy (py r)) (handle_periodic gz (pz r)) (other r).
Definition out3 (g : axgeo * axgeo * axgeo) (r : prow) : bool := let '(gx, gy, gz) := g in out1 gx (px r) || out1 gy (py r) || out1 gz (pz r).
Definition clear3 (r : prow) : prow := mkRow None None None (other r).
End Rows.

(** bounds of the patch at position i of an axis: patch.py:105-148 widened by half a cell (2d.c:233-238);
    global bounds simulation.py:427-430 (1321-1326 for 3D); [tl], [th] thickness of the absorbing layers (0: none) *)
Definition axis_geo (n np i tl th : Z) (dx : Q) : axgeo :=
  mkGeo (patch_xmin n np i tl dx - dx / 2)%Q (patch_xmax n np i th dx + dx / 2)%Q
        (- dx / 2)%Q (inject_Z n * dx - dx / 2)%Q dx.
