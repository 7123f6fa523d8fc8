(** Model of the field exchange: copying guard cells and adding guard-cell currents between neighbouring patches,
    inside one process (core/patch/sync_fields2d.c, sync_fields3d.c) and between processes
    (core/mpi/sync_fields2d.c, sync_fields3d.c), including the thread schedules and the message tags.
    Simplifications: values are an arbitrary type with an addition (IEEE rounding is not modelled); memory is a function
    from addresses to values; every loop iteration of a parallel for is a thread of its own, so every assignment of iterations
    to OpenMP threads is one of the schedules; one C access is one step (reads and writes of doubles do not tear). *)
From Verif Require Import Base M_Layout M_PartSync S_PartSync.
Local Open Scope Z_scope.

(** an element of a field array of a patch, or of a send / receive buffer of side b of a patch *)
Inductive addr := Fld (f p : nat) (o : Z) | SBuf (p b : nat) (k : Z) | RBuf (p b : nat) (k : Z).
Definition addr_eqb (x y : addr) : bool :=
  match x, y with
  | Fld a b c, Fld d e f => (a =? d)%nat && (b =? e)%nat && (c =? f)
  | SBuf a b c, SBuf d e f => (a =? d)%nat && (b =? e)%nat && (c =? f)
  | RBuf a b c, RBuf d e f => (a =? d)%nat && (b =? e)%nat && (c =? f)
  | _, _ => false
  end.

(** ** threads accessing shared memory; each thread has one register *)
Section Mem.
Variable V : Type.
Variable zero : V.
Variable plus : V -> V -> V.
Definition memory := addr -> V.
Definition put (a : addr) (v : V) (m : memory) : memory := fun x => if addr_eqb x a then v else m x.
(** [Rd]: r = *a; [RdAdd]: r = r + *a; [Wr]: *a = r; [Clr]: *a = 0; [AddTo d s]: *d += *s in one step *)
Inductive op := Rd (a : addr) | RdAdd (a : addr) | Wr (a : addr) | Clr (a : addr) | AddTo (d s : addr).
Definition exec (o : op) (x : memory * V) : memory * V :=
  let '(m, r) := x in
  match o with
  | Rd a => (m, m a)
  | RdAdd a => (m, plus r (m a))
  | Wr a => (put a r m, r)
  | Clr a => (put a zero m, r)
  | AddTo d s => (put d (plus (m d) (m s)) m, r)
  end.
Definition thr := (list op * V)%type.
(** thread t makes one step; scheduling a finished thread does nothing *)
Definition step (x : memory * list thr) (t : nat) : memory * list thr :=
  let '(m, ts) := x in
  match nth_error ts t with
  | Some (o :: os, r) => let '(m', r') := exec o (m, r) in (m', upd t (os, r') ts)
  | _ => x
  end.
Definition run_threads (progs : list (list op)) (sched : list nat) (m : memory) : memory * list thr :=
  fold_left step sched (m, map (fun os => (os, zero)) progs).
Definition all_done (ts : list thr) : bool := forallb (fun t => match fst t with [] => true | _ => false end) ts.
(** a parallel loop under a schedule: the memory when all iterations are finished *)
Definition parallel (progs : list (list op)) (sched : list nat) (m : memory) : option memory :=
  let '(m', ts) := run_threads progs sched m in if all_done ts then Some m' else None.
End Mem.
Arguments put {V}. Arguments exec {V}. Arguments step {V}. Arguments run_threads {V}. Arguments all_done {V}. Arguments parallel {V}.

(** ** array indexing *)
(** sync_fields2d.c:9-16 (the same macros in the four files): a negative index counts from the end of the axis; row-major offset *)
Definition widx (N i : Z) : Z := if 0 <=? i then i else i + N.
Definition index (Ns c : list Z) : Z :=
  match Ns, c with
  | [NX; NY], [i; j] => widx NY j + widx NX i * NY
  | [NX; NY; NZ], [i; j; k] => widx NZ k + widx NY j * NZ + widx NX i * NY * NZ
  | _, _ => -1
  end.
(** element of a subarray in C order (MPI_Type_create_subarray), also the layout of the message buffers
    (fill_currents_buf: ix*ny + iy, ix*ny*nz + iy*nz + iz): no wrapping of negative indices *)
Definition offset (Ns c : list Z) : Z :=
  match Ns, c with
  | [NX; NY], [i; j] => i * NY + j
  | [NX; NY; NZ], [i; j; k] => i * NY * NZ + j * NZ + k
  | _, _ => -1
  end.
Definition volume (l : list Z) : Z := fold_right Z.mul 1 l.
(** for (ix = 0; ix < nx; ix++) for (iy = 0; iy < ny; iy++) ... *)
Fixpoint block (counts : list Z) : list (list Z) :=
  match counts with
  | [] => [[]]
  | n :: r => flat_map (fun i => map (cons i) (block r)) (zseq n)
  end.
(** extent of the array including guard cells: NX = nx+2*ng (sync_fields2d.c:52-53) *)
Definition extents (ns : list Z) (ng : Z) : list Z := map (fun n => n + 2 * ng) ns.

(** ** the tables of index ranges, one row per boundary in source order; per axis (destination, source, count) *)
(** patch/sync_fields2d.c:85-143: sync_currents_2d *)
Definition local_currents2 (nx ny ng : Z) : list (nat * list (Z * Z * Z)) :=
  [(0%nat, [(0, nx, ng); (0, 0, ny)]);
   (1%nat, [(nx - ng, - ng, ng); (0, 0, ny)]);
   (2%nat, [(0, 0, nx); (0, ny, ng)]);
   (3%nat, [(0, 0, nx); (ny - ng, - ng, ng)]);
   (4%nat, [(0, nx, ng); (0, ny, ng)]);
   (5%nat, [(nx - ng, - ng, ng); (0, ny, ng)]);
   (6%nat, [(0, nx, ng); (ny - ng, - ng, ng)]);
   (7%nat, [(nx - ng, - ng, ng); (ny - ng, - ng, ng)])].
(** patch/sync_fields2d.c:188-247: sync_guard_fields_2d *)
Definition local_guard2 (nx ny ng : Z) : list (nat * list (Z * Z * Z)) :=
  [(0%nat, [(- ng, nx - ng, ng); (0, 0, ny)]);
   (1%nat, [(nx, 0, ng); (0, 0, ny)]);
   (2%nat, [(0, 0, nx); (- ng, ny - ng, ng)]);
   (3%nat, [(0, 0, nx); (ny, 0, ng)]);
   (4%nat, [(- ng, nx - ng, ng); (- ng, ny - ng, ng)]);
   (5%nat, [(nx, 0, ng); (- ng, ny - ng, ng)]);
   (6%nat, [(- ng, nx - ng, ng); (ny, 0, ng)]);
   (7%nat, [(nx, 0, ng); (ny, 0, ng)])].
(** mpi/sync_fields2d.c:104-146: get_boundary_currents; source and destination belong to the same patch *)
Definition mpi_currents2 (nx ny ng : Z) : list (nat * list (Z * Z * Z)) :=
  [(0%nat, [(0, - ng, ng); (0, 0, ny)]);
   (1%nat, [(nx - ng, nx, ng); (0, 0, ny)]);
   (2%nat, [(0, 0, nx); (0, - ng, ng)]);
   (3%nat, [(0, 0, nx); (ny - ng, ny, ng)]);
   (4%nat, [(0, - ng, ng); (0, - ng, ng)]);
   (5%nat, [(nx - ng, nx, ng); (0, - ng, ng)]);
   (6%nat, [(0, - ng, ng); (ny - ng, ny, ng)]);
   (7%nat, [(nx - ng, nx, ng); (ny - ng, ny, ng)])].
(** mpi/sync_fields2d.c:149-205: init_boundary_types; per axis (start_guard, start_bound, subsize); called with the extents (558) *)
Definition mpi_types2 (NX NY ng : Z) : list (nat * list (Z * Z * Z)) :=
  [(0%nat, [(NX - ng, 0, ng); (0, 0, NY - 2 * ng)]);
   (1%nat, [(NX - 2 * ng, NX - 3 * ng, ng); (0, 0, NY - 2 * ng)]);
   (2%nat, [(0, 0, NX - 2 * ng); (NY - ng, 0, ng)]);
   (3%nat, [(0, 0, NX - 2 * ng); (NY - 2 * ng, NY - 3 * ng, ng)]);
   (4%nat, [(NX - ng, 0, ng); (NY - ng, 0, ng)]);
   (5%nat, [(NX - 2 * ng, NX - 3 * ng, ng); (NY - ng, 0, ng)]);
   (6%nat, [(NX - ng, 0, ng); (NY - 2 * ng, NY - 3 * ng, ng)]);
   (7%nat, [(NX - 2 * ng, NX - 3 * ng, ng); (NY - 2 * ng, NY - 3 * ng, ng)])].
(** patch/sync_fields3d.c:130-342: sync_currents_3d *)
Definition local_currents3 (nx ny nz ng : Z) : list (nat * list (Z * Z * Z)) :=
  [(0%nat, [(0, nx, ng); (0, 0, ny); (0, 0, nz)]);
   (1%nat, [(nx - ng, - ng, ng); (0, 0, ny); (0, 0, nz)]);
   (2%nat, [(0, 0, nx); (0, ny, ng); (0, 0, nz)]);
   (3%nat, [(0, 0, nx); (ny - ng, - ng, ng); (0, 0, nz)]);
   (4%nat, [(0, 0, nx); (0, 0, ny); (0, nz, ng)]);
   (5%nat, [(0, 0, nx); (0, 0, ny); (nz - ng, - ng, ng)]);
   (6%nat, [(0, nx, ng); (0, ny, ng); (0, 0, nz)]);
   (7%nat, [(0, nx, ng); (ny - ng, - ng, ng); (0, 0, nz)]);
   (8%nat, [(0, nx, ng); (0, 0, ny); (0, nz, ng)]);
   (9%nat, [(0, nx, ng); (0, 0, ny); (nz - ng, - ng, ng)]);
   (10%nat, [(nx - ng, - ng, ng); (0, ny, ng); (0, 0, nz)]);
   (11%nat, [(nx - ng, - ng, ng); (ny - ng, - ng, ng); (0, 0, nz)]);
   (12%nat, [(nx - ng, - ng, ng); (0, 0, ny); (0, nz, ng)]);
   (13%nat, [(nx - ng, - ng, ng); (0, 0, ny); (nz - ng, - ng, ng)]);
   (14%nat, [(0, 0, nx); (0, ny, ng); (0, nz, ng)]);
   (15%nat, [(0, 0, nx); (0, ny, ng); (nz - ng, - ng, ng)]);
   (16%nat, [(0, 0, nx); (ny - ng, - ng, ng); (0, nz, ng)]);
   (17%nat, [(0, 0, nx); (ny - ng, - ng, ng); (nz - ng, - ng, ng)]);
   (18%nat, [(0, nx, ng); (0, ny, ng); (0, nz, ng)]);
   (19%nat, [(0, nx, ng); (0, ny, ng); (nz - ng, - ng, ng)]);
   (20%nat, [(0, nx, ng); (ny - ng, - ng, ng); (0, nz, ng)]);
   (21%nat, [(0, nx, ng); (ny - ng, - ng, ng); (nz - ng, - ng, ng)]);
   (22%nat, [(nx - ng, - ng, ng); (0, ny, ng); (0, nz, ng)]);
   (23%nat, [(nx - ng, - ng, ng); (0, ny, ng); (nz - ng, - ng, ng)]);
   (24%nat, [(nx - ng, - ng, ng); (ny - ng, - ng, ng); (0, nz, ng)]);
   (25%nat, [(nx - ng, - ng, ng); (ny - ng, - ng, ng); (nz - ng, - ng, ng)])].
(** patch/sync_fields3d.c:392-603: sync_guard_fields_3d (edges in another order than the enum) *)
Definition local_guard3 (nx ny nz ng : Z) : list (nat * list (Z * Z * Z)) :=
  [(0%nat, [(- ng, nx - ng, ng); (0, 0, ny); (0, 0, nz)]);
   (1%nat, [(nx, 0, ng); (0, 0, ny); (0, 0, nz)]);
   (2%nat, [(0, 0, nx); (- ng, ny - ng, ng); (0, 0, nz)]);
   (3%nat, [(0, 0, nx); (ny, 0, ng); (0, 0, nz)]);
   (4%nat, [(0, 0, nx); (0, 0, ny); (- ng, nz - ng, ng)]);
   (5%nat, [(0, 0, nx); (0, 0, ny); (nz, 0, ng)]);
   (6%nat, [(- ng, nx - ng, ng); (- ng, ny - ng, ng); (0, 0, nz)]);
   (10%nat, [(nx, 0, ng); (- ng, ny - ng, ng); (0, 0, nz)]);
   (7%nat, [(- ng, nx - ng, ng); (ny, 0, ng); (0, 0, nz)]);
   (11%nat, [(nx, 0, ng); (ny, 0, ng); (0, 0, nz)]);
   (8%nat, [(- ng, nx - ng, ng); (0, 0, ny); (- ng, nz - ng, ng)]);
   (12%nat, [(nx, 0, ng); (0, 0, ny); (- ng, nz - ng, ng)]);
   (9%nat, [(- ng, nx - ng, ng); (0, 0, ny); (nz, 0, ng)]);
   (13%nat, [(nx, 0, ng); (0, 0, ny); (nz, 0, ng)]);
   (14%nat, [(0, 0, nx); (- ng, ny - ng, ng); (- ng, nz - ng, ng)]);
   (16%nat, [(0, 0, nx); (ny, 0, ng); (- ng, nz - ng, ng)]);
   (15%nat, [(0, 0, nx); (- ng, ny - ng, ng); (nz, 0, ng)]);
   (17%nat, [(0, 0, nx); (ny, 0, ng); (nz, 0, ng)]);
   (18%nat, [(- ng, nx - ng, ng); (- ng, ny - ng, ng); (- ng, nz - ng, ng)]);
   (19%nat, [(- ng, nx - ng, ng); (- ng, ny - ng, ng); (nz, 0, ng)]);
   (20%nat, [(- ng, nx - ng, ng); (ny, 0, ng); (- ng, nz - ng, ng)]);
   (21%nat, [(- ng, nx - ng, ng); (ny, 0, ng); (nz, 0, ng)]);
   (22%nat, [(nx, 0, ng); (- ng, ny - ng, ng); (- ng, nz - ng, ng)]);
   (23%nat, [(nx, 0, ng); (- ng, ny - ng, ng); (nz, 0, ng)]);
   (24%nat, [(nx, 0, ng); (ny, 0, ng); (- ng, nz - ng, ng)]);
   (25%nat, [(nx, 0, ng); (ny, 0, ng); (nz, 0, ng)])].
(** mpi/sync_fields3d.c:164-304: get_boundary_currents *)
Definition mpi_currents3 (nx ny nz ng : Z) : list (nat * list (Z * Z * Z)) :=
  [(0%nat, [(0, - ng, ng); (0, 0, ny); (0, 0, nz)]);
   (1%nat, [(nx - ng, nx, ng); (0, 0, ny); (0, 0, nz)]);
   (2%nat, [(0, 0, nx); (0, - ng, ng); (0, 0, nz)]);
   (3%nat, [(0, 0, nx); (ny - ng, ny, ng); (0, 0, nz)]);
   (4%nat, [(0, 0, nx); (0, 0, ny); (0, - ng, ng)]);
   (5%nat, [(0, 0, nx); (0, 0, ny); (nz - ng, nz, ng)]);
   (6%nat, [(0, - ng, ng); (0, - ng, ng); (0, 0, nz)]);
   (7%nat, [(0, - ng, ng); (ny - ng, ny, ng); (0, 0, nz)]);
   (8%nat, [(0, - ng, ng); (0, 0, ny); (0, - ng, ng)]);
   (9%nat, [(0, - ng, ng); (0, 0, ny); (nz - ng, nz, ng)]);
   (10%nat, [(nx - ng, nx, ng); (0, - ng, ng); (0, 0, nz)]);
   (11%nat, [(nx - ng, nx, ng); (ny - ng, ny, ng); (0, 0, nz)]);
   (12%nat, [(nx - ng, nx, ng); (0, 0, ny); (0, - ng, ng)]);
   (13%nat, [(nx - ng, nx, ng); (0, 0, ny); (nz - ng, nz, ng)]);
   (14%nat, [(0, 0, nx); (0, - ng, ng); (0, - ng, ng)]);
   (15%nat, [(0, 0, nx); (0, - ng, ng); (nz - ng, nz, ng)]);
   (16%nat, [(0, 0, nx); (ny - ng, ny, ng); (0, - ng, ng)]);
   (17%nat, [(0, 0, nx); (ny - ng, ny, ng); (nz - ng, nz, ng)]);
   (18%nat, [(0, - ng, ng); (0, - ng, ng); (0, - ng, ng)]);
   (19%nat, [(0, - ng, ng); (0, - ng, ng); (nz - ng, nz, ng)]);
   (20%nat, [(0, - ng, ng); (ny - ng, ny, ng); (0, - ng, ng)]);
   (21%nat, [(0, - ng, ng); (ny - ng, ny, ng); (nz - ng, nz, ng)]);
   (22%nat, [(nx - ng, nx, ng); (0, - ng, ng); (0, - ng, ng)]);
   (23%nat, [(nx - ng, nx, ng); (0, - ng, ng); (nz - ng, nz, ng)]);
   (24%nat, [(nx - ng, nx, ng); (ny - ng, ny, ng); (0, - ng, ng)]);
   (25%nat, [(nx - ng, nx, ng); (ny - ng, ny, ng); (nz - ng, nz, ng)])].
(** mpi/sync_fields3d.c:450-595: init_boundary_types *)
Definition mpi_types3 (NX NY NZ ng : Z) : list (nat * list (Z * Z * Z)) :=
  [(0%nat, [(NX - ng, 0, ng); (0, 0, NY - 2 * ng); (0, 0, NZ - 2 * ng)]);
   (1%nat, [(NX - 2 * ng, NX - 3 * ng, ng); (0, 0, NY - 2 * ng); (0, 0, NZ - 2 * ng)]);
   (2%nat, [(0, 0, NX - 2 * ng); (NY - ng, 0, ng); (0, 0, NZ - 2 * ng)]);
   (3%nat, [(0, 0, NX - 2 * ng); (NY - 2 * ng, NY - 3 * ng, ng); (0, 0, NZ - 2 * ng)]);
   (4%nat, [(0, 0, NX - 2 * ng); (0, 0, NY - 2 * ng); (NZ - ng, 0, ng)]);
   (5%nat, [(0, 0, NX - 2 * ng); (0, 0, NY - 2 * ng); (NZ - 2 * ng, NZ - 3 * ng, ng)]);
   (6%nat, [(NX - ng, 0, ng); (NY - ng, 0, ng); (0, 0, NZ - 2 * ng)]);
   (7%nat, [(NX - ng, 0, ng); (NY - 2 * ng, NY - 3 * ng, ng); (0, 0, NZ - 2 * ng)]);
   (8%nat, [(NX - ng, 0, ng); (0, 0, NY - 2 * ng); (NZ - ng, 0, ng)]);
   (9%nat, [(NX - ng, 0, ng); (0, 0, NY - 2 * ng); (NZ - 2 * ng, NZ - 3 * ng, ng)]);
   (10%nat, [(NX - 2 * ng, NX - 3 * ng, ng); (NY - ng, 0, ng); (0, 0, NZ - 2 * ng)]);
   (11%nat, [(NX - 2 * ng, NX - 3 * ng, ng); (NY - 2 * ng, NY - 3 * ng, ng); (0, 0, NZ - 2 * ng)]);
   (12%nat, [(NX - 2 * ng, NX - 3 * ng, ng); (0, 0, NY - 2 * ng); (NZ - ng, 0, ng)]);
   (13%nat, [(NX - 2 * ng, NX - 3 * ng, ng); (0, 0, NY - 2 * ng); (NZ - 2 * ng, NZ - 3 * ng, ng)]);
   (14%nat, [(0, 0, NX - 2 * ng); (NY - ng, 0, ng); (NZ - ng, 0, ng)]);
   (15%nat, [(0, 0, NX - 2 * ng); (NY - ng, 0, ng); (NZ - 2 * ng, NZ - 3 * ng, ng)]);
   (16%nat, [(0, 0, NX - 2 * ng); (NY - 2 * ng, NY - 3 * ng, ng); (NZ - ng, 0, ng)]);
   (17%nat, [(0, 0, NX - 2 * ng); (NY - 2 * ng, NY - 3 * ng, ng); (NZ - 2 * ng, NZ - 3 * ng, ng)]);
   (18%nat, [(NX - ng, 0, ng); (NY - ng, 0, ng); (NZ - ng, 0, ng)]);
   (19%nat, [(NX - ng, 0, ng); (NY - ng, 0, ng); (NZ - 2 * ng, NZ - 3 * ng, ng)]);
   (20%nat, [(NX - ng, 0, ng); (NY - 2 * ng, NY - 3 * ng, ng); (NZ - ng, 0, ng)]);
   (21%nat, [(NX - ng, 0, ng); (NY - 2 * ng, NY - 3 * ng, ng); (NZ - 2 * ng, NZ - 3 * ng, ng)]);
   (22%nat, [(NX - 2 * ng, NX - 3 * ng, ng); (NY - ng, 0, ng); (NZ - ng, 0, ng)]);
   (23%nat, [(NX - 2 * ng, NX - 3 * ng, ng); (NY - ng, 0, ng); (NZ - 2 * ng, NZ - 3 * ng, ng)]);
   (24%nat, [(NX - 2 * ng, NX - 3 * ng, ng); (NY - 2 * ng, NY - 3 * ng, ng); (NZ - ng, 0, ng)]);
   (25%nat, [(NX - 2 * ng, NX - 3 * ng, ng); (NY - 2 * ng, NY - 3 * ng, ng); (NZ - 2 * ng, NZ - 3 * ng, ng)])].

Definition dst (row : list (Z * Z * Z)) : list Z := map (fun t => fst (fst t)) row.
Definition src (row : list (Z * Z * Z)) : list Z := map (fun t => snd (fst t)) row.
Definition cnt (row : list (Z * Z * Z)) : list Z := map (@snd (Z * Z) Z) row.
(** the row of one boundary (the case of a switch) *)
Definition row_of (tab : list (nat * list (Z * Z * Z))) (b : nat) : list (Z * Z * Z) :=
  match find (fun r => (fst r =? b)%nat) tab with Some r => snd r | None => [] end.

(** ** exchange inside a process *)
Section Local.
Variable Ns : list Z.                                  (** array extents *)
Variable tab : list (nat * list (Z * Z * Z)).          (** index ranges *)
Variable nbr : nat -> nat -> option nat.               (** neighbor_ipatch: the neighbour of patch p at side b in the same process *)
(** the cells of one patch and field: (written / accumulated cell, cell of the neighbour) in loop order *)
Definition side_pairs (f p q : nat) (row : list (Z * Z * Z)) : list (addr * addr) :=
  map (fun k => (Fld f p (index Ns (add (dst row) k)), Fld f q (index Ns (add (src row) k)))) (block (cnt row)).
Definition task_pairs (f p : nat) : list (addr * addr) :=
  flat_map (fun r => match nbr p (fst r) with Some q => side_pairs f p q (snd r) | None => [] end) tab.
(** patch/sync_fields2d.c:75-83: field[ipatch][d] += field[src][s]; field[src][s] = 0 *)
Definition current_ops (l : list (addr * addr)) : list op :=
  flat_map (fun ds => [Rd (fst ds); RdAdd (snd ds); Wr (fst ds); Clr (snd ds)]) l.
(** patch/sync_fields2d.c:179-186: field[ipatch][d] = field[src][s] *)
Definition guard_ops (l : list (addr * addr)) : list op := flat_map (fun ds => [Rd (snd ds); Wr (fst ds)]) l.
(** patch/sync_fields2d.c:62-65, 173-175: for (i = 0; i < npatches*nfields; i++) { field = i % nfields; ipatch = i / nfields } *)
Definition iterations (n nf : nat) : list (nat * nat) := map (fun i => (i mod nf, i / nf)%nat) (seq 0 (n * nf)).
Definition current_tasks (n : nat) : list (list op) := map (fun i => current_ops (task_pairs (fst i) (snd i))) (iterations n 4).
Definition guard_tasks (n nattrs : nat) : list (list op) := map (fun i => guard_ops (task_pairs (fst i) (snd i))) (iterations n nattrs).
End Local.

(** ** messages *)
(** mpi/sync_fields2d.c:424-425, 577-578; mpi/sync_particles_2d.c:418, 447, 715-716 (and the 3D files): message tags.
    Simplification: tags are unbounded integers (check_tag_ub rejects particle tags above MPI_TAG_UB). *)
Definition tag_currents (nb : Z) (index b item : Z) : Z := index * nb + b.
Definition tag_guard (nb nattrs : Z) (index b item : Z) : Z := index * nb * nattrs + b * nattrs + item.
Definition tag_particles (nb nspec : Z) (index b item : Z) : Z := (index * nb + b) * nspec + item.
(** a posted send or receive: processes, tag, and what it carries: patch, side and attribute / species *)
Record msg := mkMsg { m_from : nat; m_to : nat; m_tag : Z; m_patch : nat; m_side : nat; m_item : nat }.
Section Messages.
Variable n nb nitems : nat.
Variable opp : nat -> nat.
Variable nbr : nat -> nat -> option nat.               (** neighbor_index *)
Variable rank : nat -> nat.                            (** process holding a patch *)
Variable tag : Z -> Z -> Z -> Z.
(** neighbor_rank[p][b] >= 0 (patch.py:502-540, 584-667, modelled in M_Layout): the neighbour is in another process *)
Definition away (p b : nat) : option nat := over_mpi (remote_of rank nbr) nbr p b.
Definition here (p b : nat) : option nat := in_process (remote_of rank nbr) nbr p b.
Definition tagn (p b i : nat) : Z := tag (Z.of_nat p) (Z.of_nat b) (Z.of_nat i).
(** the three loops around MPI_Isend / MPI_Irecv, over all patches of all processes *)
Definition posts (mk : nat -> nat -> nat -> nat -> msg) : list msg :=
  flat_map (fun p => flat_map (fun b => match away p b with
    | Some q => map (fun i => mk p b q i) (seq 0 nitems)
    | None => [] end) (seq 0 nb)) (seq 0 n).
Definition sends : list msg := posts (fun p b q i => mkMsg (rank p) (rank q) (tagn p b i) p b i).
Definition recvs : list msg := posts (fun p b q i => mkMsg (rank q) (rank p) (tagn q (opp b) i) p b i).
(** MPI matching: same source, destination and tag (one communicator) *)
Definition same_envelope (r s : msg) : bool :=
  (m_from r =? m_from s)%nat && (m_to r =? m_to s)%nat && (m_tag r =? m_tag s).
Definition sender_of (r : msg) : option msg := find (same_envelope r) sends.
End Messages.

(** ** exchange between processes *)
Section Remote.
Variable ns : list Z.
Variable ng : Z.
Variable n nb : nat.
Variable opp : nat -> nat.
Variable nbr : nat -> nat -> option nat.
Variable rank : nat -> nat.
Let Ns := extents ns ng.
(** mpi/sync_fields2d.c:149-205, 563-588: receiving into types_guard[ibound] what the matched sender sends from types_bound[its side];
    the transfer reads and writes the arrays at any time between start and wait *)
Definition message_pairs (types : list (nat * list (Z * Z * Z))) (r s : msg) : list (addr * addr) :=
  let g := row_of types (m_side r) in let b := row_of types (m_side s) in
  combine (map (fun k => Fld (m_item r) (m_patch r) (offset Ns (add (dst g) k))) (block (cnt g)))
          (map (fun k => Fld (m_item s) (m_patch s) (offset Ns (add (src b) k))) (block (cnt b))).
(** None: a receive without matching send, i.e. MPI_Wait never returns *)
Definition guard_transfers (nattrs : nat) (types : list (nat * list (Z * Z * Z))) : option (list (list op)) :=
  let tag := tag_guard (Z.of_nat nb) (Z.of_nat nattrs) in
  sequence (map (fun r => match sender_of n nb nattrs nbr rank tag r with
    | Some s => Some (guard_ops (message_pairs types r s)) | None => None end) (recvs n nb nattrs opp nbr rank tag)).
(** one guard exchange of all processes (simulation.py:948-960, 1104-1118: start, local exchange, wait): the local iterations
    and the transfers run concurrently *)
Definition guard_exchange {V} (zero : V) (plus : V -> V -> V) (nattrs : nat) (tab types : list (nat * list (Z * Z * Z)))
    (sched : list nat) (m : addr -> V) : option (addr -> V) :=
  match guard_transfers nattrs types with
  | Some ts => parallel zero plus (guard_tasks Ns tab (here nbr rank) n nattrs ++ ts) sched m
  | None => None
  end.

(** mpi/sync_fields2d.c:44-74: fill_currents_buf, the four components one after another *)
Definition pack_pairs (row : list (Z * Z * Z)) (p b : nat) : list (addr * addr) :=
  flat_map (fun f => map (fun k => (SBuf p b (offset (cnt row) k + Z.of_nat f * volume (cnt row)), Fld f p (index Ns (add (src row) k)))) (block (cnt row))) (seq 0 4).
Definition pack_ops (l : list (addr * addr)) : list op := flat_map (fun ds => [Rd (snd ds); Wr (fst ds); Clr (snd ds)]) l.
(** the message: element k of the receive buffer gets element k of the send buffer; count 4*nx_sync*ny_sync of the receiver *)
Definition transfer_pairs (row : list (Z * Z * Z)) (r s : msg) : list (addr * addr) :=
  map (fun k => (RBuf (m_patch r) (m_side r) k, SBuf (m_patch s) (m_side s) k)) (zseq (4 * volume (cnt row))).
(** mpi/sync_fields2d.c:76-102: sync_currents_buf *)
Definition unpack_pairs (row : list (Z * Z * Z)) (p b : nat) : list (addr * addr) :=
  flat_map (fun f => map (fun k => (Fld f p (index Ns (add (dst row) k)), RBuf p b (offset (cnt row) k + Z.of_nat f * volume (cnt row)))) (block (cnt row))) (seq 0 4).
(** jx[d] += buf[k]: as written (three accesses), or as one indivisible step *)
Definition unpack_ops (l : list (addr * addr)) : list op := flat_map (fun ds => [Rd (fst ds); RdAdd (snd ds); Wr (fst ds)]) l.
Definition unpack_atomic (l : list (addr * addr)) : list op := map (fun ds => AddTo (fst ds) (snd ds)) l.
(** mpi/sync_fields2d.c:397-440, 474-503: packing and sending, the transfer, and after MPI_Wait on the receive the accumulation.
    The three happen one after another; nothing else is assumed about the order of different sides, patches and processes *)
Definition current_chain (tab : list (nat * list (Z * Z * Z))) (r s : msg) : list op :=
  pack_ops (pack_pairs (row_of tab (m_side s)) (m_patch s) (m_side s)) ++
  guard_ops (transfer_pairs (row_of tab (m_side r)) r s) ++
  unpack_atomic (unpack_pairs (row_of tab (m_side r)) (m_patch r) (m_side r)).
Definition current_transfers (tab : list (nat * list (Z * Z * Z))) : option (list (list op)) :=
  let tag := tag_currents (Z.of_nat nb) in
  sequence (map (fun r => match sender_of n nb 1 nbr rank tag r with
    | Some s => Some (current_chain tab r s) | None => None end) (recvs n nb 1 opp nbr rank tag)).
(** simulation.py:1155-1188: the exchange inside the processes, a barrier, then the exchange between processes.
    Simplification: an indivisible += in the last phase (one worker thread per process); see [unpack_threads] *)
Definition current_exchange {V} (zero : V) (plus : V -> V -> V) (tab mtab : list (nat * list (Z * Z * Z)))
    (sched1 sched2 : list nat) (m : addr -> V) : option (addr -> V) :=
  match parallel zero plus (current_tasks Ns tab (here nbr rank) n) sched1 m, current_transfers mtab with
  | Some m1, Some ts => parallel zero plus ts sched2 m1
  | _, _ => None
  end.
(** mpi/sync_fields2d.c:474-503: sync_currents_2d_wait with several worker threads, each with its share of the (patch, boundary)
    iterations of the collapse(2) loop; all messages have arrived *)
Definition unpack_threads (tab : list (nat * list (Z * Z * Z))) (shares : list (list (nat * nat))) : list (list op) :=
  map (flat_map (fun pb => match away nbr rank (fst pb) (snd pb) with
    | Some _ => unpack_ops (unpack_pairs (row_of tab (snd pb)) (fst pb) (snd pb)) | None => [] end)) shares.
End Remote.
