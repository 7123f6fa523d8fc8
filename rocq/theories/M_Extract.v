(** Model of [ExtractSpeciesDensity] (src/lambdapic/callback/utils.py:240-464): process 0 assembles the density of a species
    from the patches of all processes in its array [density].
    Cells are index vectors [list Z] as in M_Slices, so one model serves two and three dimensions; the per-patch densities
    (callback/hdf5.py:509-554) are arbitrary functions of the cells, what they contain is C46.
    A message is the contiguous array that was sent; a receive overwrites as many leading elements of the buffer as the
    message has (MPI), the rest of the buffer keeps what it had. *)
From Verif Require Import Base M_Layout M_Slices.
Local Open Scope Z_scope.
Local Open Scope list_scope.

Inductive outcome (A : Type) := Done (a : A) | KeyErr | ShapeErr | Hang.
Arguments Done {A}. Arguments KeyErr {A}. Arguments ShapeErr {A}. Arguments Hang {A}.

(** C order: number of elements of a shape, offset of a cell, cell of an offset *)
Fixpoint size_of (shape : list Z) : Z := match shape with [] => 1 | n :: ns => n * size_of ns end.
Fixpoint offset (shape cell : list Z) : Z :=
  match shape, cell with n :: ns, x :: xs => x * size_of ns + offset ns xs | _, _ => 0 end.
Fixpoint cell_at (shape : list Z) (k : Z) : list Z :=
  match shape with [] => [] | n :: ns => k / size_of ns :: cell_at ns (k mod size_of ns) end.

(** [for ipatch_x in range(npatch_x): for ipatch_y in range(npatch_y): ...] *)
Fixpoint positions (npatch : list Z) : list (list Z) :=
  match npatch with [] => [[]] | n :: ns => flat_map (fun x => map (cons x) (positions ns)) (zseq n) end.
Fixpoint pos_eqb (a b : list Z) : bool :=
  match a, b with [], [] => true | x :: a', y :: b' => (x =? y) && pos_eqb a' b' | _, _ => false end.

Section Extract.
Context {V : Type} (zero nan : V).
Notation arr := (list Z -> V).
(** a patch: global index, position in the grid of patches, density on its own cells *)
Record epatch := mkEP { e_index : Z; e_pos : list Z; e_data : arr }.

Variables (npatch psizes msizes : list Z).    (** patches per axis, cells per patch, stored cells per patch (with guards) *)
Variable ss : option (list nslice).           (** the normalised slice, if any *)
Variable masked : bool.                       (** the simulation has a [domain_mask] (simulation/_mask_simulation.py:75-83) *)

(** [x_info], [y_info] (utils.py:318-319, 331-332), and the fixed box of a patch when there is no slice (346-347, 353-354) *)
Fixpoint whole (psizes pos : list Z) : list (Z * Z * Z * Z) :=
  match psizes, pos with sz :: szs, c :: cs => (0, sz, c * sz, sz) :: whole szs cs | _, _ => [] end.
Definition info (pos : list Z) : option (list (Z * Z * Z * Z)) :=
  match ss with Some ss => slices_info ss psizes pos | None => Some (whole psizes pos) end.
Definition steps : list Z := match ss with Some ss => map n_step ss | None => map (fun _ => 1) psizes end.
Definition nums (l : list (Z * Z * Z * Z)) : list Z := map snd l.

(** [density_per_patch[ip]] (hdf5.py:509-554): the selected cells of the patch, as an array of its own *)
Fixpoint picked (steps : list Z) (l : list (Z * Z * Z * Z)) (k : list Z) : list Z :=
  match steps, l, k with st :: sts, (lf, _, _, _) :: l', x :: k' => lf + x * st :: picked sts l' k' | _, _, _ => [] end.
Definition selected (p : epatch) (l : list (Z * Z * Z * Z)) : arr := fun k => e_data p (picked steps l k).
Definition shape_ok (l : list (Z * Z * Z * Z)) : bool :=
  match ss with Some ss => extents_ok ss msizes l | None => true end.

(** [self.density[out_x:out_x+num_x, ...] = a] *)
Fixpoint minus_start (l : list (Z * Z * Z * Z)) (j : list Z) : list Z :=
  match l, j with (_, _, o, _) :: l', x :: j' => x - o :: minus_start l' j' | _, _ => [] end.
Definition assign (l : list (Z * Z * Z * Z)) (a out : arr) : arr := fun j => if in_box l j then a (minus_start l j) else out j.

(** the patches of process 0 (utils.py:316-325, 344-348) *)
Definition local_step (acc : outcome arr) (p : epatch) : outcome arr :=
  match acc with
  | Done out => match info (e_pos p) with
                | None => Done out
                | Some l => if shape_ok l then Done (assign l (selected p l) out) else ShapeErr
                end
  | e => e
  end.

(** gathered dictionary from positions to indices, the last entry wins (utils.py:304-307); indices of process 0 (308) *)
Definition index_at (ranks : list (list epatch)) (pos : list Z) : option Z :=
  match find (fun p => pos_eqb (e_pos p) pos) (rev (concat ranks)) with Some p => Some (e_index p) | None => None end.
Definition is_local (root : list epatch) (index : Z) : bool := existsb (fun p => e_index p =? index) root.
(** [Recv(buf, tag=index)]: the message another process sent with that tag (utils.py:372-378); patches outside the selection
    send nothing *)
Definition sends (p : epatch) : bool := match info (e_pos p) with Some _ => true | None => false end.
Definition message (others : list (list epatch)) (index : Z) : option epatch :=
  find (fun p => (e_index p =? index) && sends p) (concat others).
Definition receive (p : epatch) (l : list (Z * Z * Z * Z)) (buf : Z -> V) : Z -> V :=
  fun k => if (0 <=? k) && (k <? size_of (nums l)) then selected p l (cell_at (nums l) k) else buf k.

(** one turn of the nested loop (utils.py:328-344, 351-366): array and buffer *)
Definition remote_step (ranks : list (list epatch)) (acc : outcome (arr * (Z -> V))) (pos : list Z) : outcome (arr * (Z -> V)) :=
  match acc with
  | Done (out, buf) =>
      match info pos with
      | None => Done (out, buf)
      | Some l =>
          match index_at ranks pos with
          | None => if masked then Done (out, buf) else KeyErr
          | Some index =>
              if is_local (hd [] ranks) index then Done (out, buf)
              else match message (tl ranks) index with
                   | None => Hang
                   | Some p =>
                       let buf' := match info (e_pos p) with Some l' => receive p l' buf | None => buf end in
                       Done (assign l (fun k => buf' (offset psizes k)) out, buf')
                   end
          end
      end
  | e => e
  end.

(** [self.density[~sim.domain_mask] = nan] (utils.py:368-369): a boolean index must have the shape of the array *)
Definition inside (ranks : list (list epatch)) (g : list Z) : bool :=
  existsb (fun p => pos_eqb (e_pos p) (map (fun xs => fst xs / snd xs) (combine g psizes))) (concat ranks).

Definition density_shape : list Z :=
  match ss with Some ss => out_shape ss | None => map (fun ns => fst ns * snd ns) (combine npatch psizes) end.
Definition domain_shape : list Z := map (fun ns => fst ns * snd ns) (combine npatch psizes).
Definition mask_step (ranks : list (list epatch)) (out : arr) : outcome arr :=
  if masked then
    if pos_eqb density_shape domain_shape then Done (fun j => if inside ranks j then out j else nan) else ShapeErr
  else Done out.

(** one call of [_write_2d] / [_write_3d] on process 0, [old] is the array as the previous call left it *)
Definition extract (ranks : list (list epatch)) (old : arr) : outcome arr :=
  match fold_left local_step (hd [] ranks) (Done old) with
  | Done out =>
      match fold_left (remote_step ranks) (positions npatch) (Done (out, fun _ => zero)) with
      | Done (out', _) => mask_step ranks out'
      | KeyErr => KeyErr | ShapeErr => ShapeErr | Hang => Hang
      end
  | KeyErr => KeyErr | ShapeErr => ShapeErr | Hang => Hang
  end.
End Extract.
Arguments epatch : clear implicits.
Arguments mkEP {V}. Arguments e_index {V}. Arguments e_pos {V}. Arguments e_data {V}.
