(** Model of the patch layout: neighbour tables, owner tables, absorbing layers and patch placement.
    2D and 3D share one model: coordinates, offsets and axes are lists with one entry per axis. *)
From Verif Require Import Base.
From Coq Require Import QArith.
Local Open Scope list_scope.
Local Open Scope Z_scope.

(** simulation.py:74-77, 107-110: boundary condition of a side *)
Inductive bc := Pml | Periodic.
Definition bc_eqb (a b : bc) : bool := match a, b with Pml, Pml => true | Periodic, Periodic => true | _, _ => false end.
(** number of patches and the conditions of the lower and upper side of one axis *)
Record axis := mkAxis { ax_n : Z; ax_lo : bc; ax_hi : bc }.

(** patch.py:24-35: Boundary2D, as offsets (dx, dy), in enum order; names encode the offsets
    (patch.py:456-464 lists the same pairs; set_neighbor_index stores by name) *)
Definition bounds2 : list (list Z) :=
  [[-1; 0]; [1; 0]; [0; -1]; [0; 1]; [-1; -1]; [1; -1]; [-1; 1]; [1; 1]].
(** sync_particles_2d.c:25-34 (the same table in the four 2D C files): index of the opposite boundary *)
Definition opposite2 : list nat := [1; 0; 3; 2; 7; 6; 5; 4]%nat.
(** patch.py:37-69: Boundary3D in enum order *)
Definition bounds3 : list (list Z) :=
  [[-1;0;0]; [1;0;0]; [0;-1;0]; [0;1;0]; [0;0;-1]; [0;0;1];
   [-1;-1;0]; [-1;1;0]; [-1;0;-1]; [-1;0;1]; [1;-1;0]; [1;1;0]; [1;0;-1]; [1;0;1];
   [0;-1;-1]; [0;-1;1]; [0;1;-1]; [0;1;1];
   [-1;-1;-1]; [-1;-1;1]; [-1;1;-1]; [-1;1;1]; [1;-1;-1]; [1;-1;1]; [1;1;-1]; [1;1;1]].
(** sync_particles_3d.c (patch and mpi), sync_fields3d.c (patch and mpi): OPPOSITE_BOUNDARY *)
Definition opposite3 : list nat :=
  [1; 0; 3; 2; 5; 4;  11; 10; 13; 12; 7; 6; 9; 8; 17; 16; 15; 14;  25; 24; 23; 22; 21; 20; 19; 18]%nat.

(** patch.py:482-500, 554-582: wrapping one coordinate *)
Definition wrap (a : axis) (i : Z) : option Z :=
  if i <? 0 then (if bc_eqb (ax_lo a) Periodic then Some (ax_n a - 1) else None)
  else if ax_n a <=? i then (if bc_eqb (ax_hi a) Periodic then Some 0 else None)
  else Some i.
Fixpoint wrap_all (axes : list axis) (c : list Z) : option (list Z) :=
  match axes, c with
  | a :: axes', i :: c' => match wrap a i, wrap_all axes' c' with Some k, Some r => Some (k :: r) | _, _ => None end
  | _, _ => Some []
  end.
Fixpoint add (a b : list Z) : list Z := match a, b with x :: a', y :: b' => (x + y) :: add a' b' | _, _ => [] end.
Definition neg (a : list Z) : list Z := map Z.opp a.

(** python dictionaries with tuple keys: patch_index_map *)
Definition list_eqb (a b : list Z) : bool := if list_eq_dec Z.eq_dec a b then true else false.
Definition lookup {V} (k : list Z) (m : list (list Z * V)) : option V :=
  match find (fun e => list_eqb (fst e) k) m with Some e => Some (snd e) | None => None end.
Definition prod (axes : list axis) : Z := fold_right (fun a r => ax_n a * r) 1 axes.

(** patch.py:476-507, 548-592: neighbour of a patch in one direction; KeyErr: KeyError raised *)
Inductive nres := Nb (n : option Z) | KeyErr.
Definition neighbor (axes : list axis) (m : list (list Z * Z)) (c off : list Z) : nres :=
  match wrap_all axes (add c off) with
  | None => Nb None
  | Some c' => match lookup c' m with
               | Some ix => Nb (Some ix)
               | None => if Z.of_nat (List.length m) =? prod axes then KeyErr else Nb None
               end
  end.

(** simulation.py:480-499, 1388-1404: the patches of a rectangular domain, in creation order, with their index *)
Definition zseq (n : Z) : list Z := map Z.of_nat (seq 0 (Z.to_nat n)).
Definition rect2 (npx npy : Z) : list (list Z * Z) :=
  flat_map (fun j => map (fun i => ([i; j], i + j * npx)) (zseq npx)) (zseq npy).
Definition rect3 (npx npy npz : Z) : list (list Z * Z) :=
  flat_map (fun k => flat_map (fun j => map (fun i => ([i; j; k], i + j * npx + k * npx * npy)) (zseq npx)) (zseq npy)) (zseq npz).
(** _mask_simulation.py:38-58: patches whose centre satisfies the mask, numbered consecutively *)
Definition mask_coords (npx npy : Z) (mask : Z -> Z -> bool) : list (list Z) :=
  flat_map (fun j => flat_map (fun i => if mask i j then [[i; j]] else []) (zseq npx)) (zseq npy).
Definition masked2 (npx npy : Z) (mask : Z -> Z -> bool) : list (list Z * Z) :=
  let cs := mask_coords npx npy mask in combine cs (map Z.of_nat (seq 0 (List.length cs))).

(** ** Owner tables *)
Record patch := mkPatch { p_index : Z; p_rank : Z }.
Definition zassoc (k : Z) (m : list (Z * Z)) : option Z :=
  match find (fun e => fst e =? k) m with Some e => Some (snd e) | None => None end.
Inductive rres := Rank (r : option Z) | RankErr.   (** RankErr: KeyError / IndexError *)
(** patch.py:594-616: [pmap] with the entries of the given patches added (the latest entry wins) *)
Definition neighbor_rank_2d (patches : list patch) (pmap : list (Z * Z)) (p : patch) (nb : option Z) : rres :=
  match nb with
  | None => Rank None
  | Some n => match zassoc n (rev (map (fun q => (p_index q, p_rank q)) patches) ++ pmap) with
              | None => RankErr
              | Some r => Rank (if r =? p_rank p then None else Some r)
              end
  end.
(** patch.py:618-638: the 3D version looks the neighbour up by position in the given list instead *)
Definition neighbor_rank_3d (patches : list patch) (pmap : list (Z * Z)) (p : patch) (nb : option Z) : rres :=
  match nb with
  | None => Rank None
  | Some n => match nth_error patches (Z.to_nat n) with
              | None => RankErr
              | Some q => Rank (if p_rank q =? p_rank p then None else Some (p_rank q))
              end
  end.
(** patch.py:641-667: position of the neighbour in the local list *)
Fixpoint index_of (n : Z) (l : list Z) : option nat :=
  match l with
  | [] => None
  | x :: l' => if x =? n then Some 0%nat else option_map S (index_of n l')
  end.
Definition neighbor_ipatch (local : list patch) (nb : option Z) : option nat :=
  match nb with None => None | Some n => index_of n (map p_index local) end.

(** ** Absorbing layers: boundary/utils.py get_pml classes; patch.py:283-298, 392-397 *)
Inductive pml_side := PXmin | PXmax | PYmin | PYmax | PZmin | PZmax.
Definition is_pmlx (s : pml_side) : bool := match s with PXmin | PXmax => true | _ => false end.
Definition add_pml2 (nx ny th : Z) (s : pml_side) (l : option (list pml_side)) : option (list pml_side) :=
  match l with
  | None => None
  | Some l => if (th <=? nx) && (th <=? ny) && (List.length l <? 2)%nat &&
                 (match l with [s0] => xorb (is_pmlx s0) (is_pmlx s) | _ => true end)
              then Some (l ++ [s]) else None
  end.
Definition add_pml3 (nx ny th : Z) (s : pml_side) (l : option (list pml_side)) : option (list pml_side) :=
  match l with
  | None => None
  | Some l => if (th <=? nx) && (th <=? ny) && (List.length l <? 3)%nat then Some (l ++ [s]) else None
  end.
Definition when {A} (b : bool) (f : A -> A) (x : A) : A := if b then f x else x.
(** simulation.py:450-464 *)
Definition init_pml2 (ax ay : axis) (nx ny th : Z) (i j : Z) : option (list pml_side) :=
  when ((j =? ax_n ay - 1) && bc_eqb (ax_hi ay) Pml) (add_pml2 nx ny th PYmax)
 (when ((j =? 0) && bc_eqb (ax_lo ay) Pml) (add_pml2 nx ny th PYmin)
 (when ((i =? ax_n ax - 1) && bc_eqb (ax_hi ax) Pml) (add_pml2 nx ny th PXmax)
 (when ((i =? 0) && bc_eqb (ax_lo ax) Pml) (add_pml2 nx ny th PXmin) (Some [])))).
(** simulation.py:1350-1368 *)
Definition init_pml3 (ax ay az : axis) (nx ny th : Z) (i j k : Z) : option (list pml_side) :=
  when ((k =? ax_n az - 1) && bc_eqb (ax_hi az) Pml) (add_pml3 nx ny th PZmax)
 (when ((k =? 0) && bc_eqb (ax_lo az) Pml) (add_pml3 nx ny th PZmin)
 (when ((j =? ax_n ay - 1) && bc_eqb (ax_hi ay) Pml) (add_pml3 nx ny th PYmax)
 (when ((j =? 0) && bc_eqb (ax_lo ay) Pml) (add_pml3 nx ny th PYmin)
 (when ((i =? ax_n ax - 1) && bc_eqb (ax_hi ax) Pml) (add_pml3 nx ny th PXmax)
 (when ((i =? 0) && bc_eqb (ax_lo ax) Pml) (add_pml3 nx ny th PXmin) (Some [])))))).
(** _mask_simulation.py:84-102: by missing face neighbour *)
Definition missing (r : nres) : bool := match r with Nb None => true | _ => false end.
Definition init_pml_mask (nb : list Z -> nres) (nx ny th : Z) : option (list pml_side) :=
  when (missing (nb [0; 1])) (add_pml2 nx ny th PYmax)
 (when (missing (nb [0; -1])) (add_pml2 nx ny th PYmin)
 (when (missing (nb [1; 0])) (add_pml2 nx ny th PXmax)
 (when (missing (nb [-1; 0])) (add_pml2 nx ny th PXmin) (Some [])))).

(** ** Placement: simulation.py:208-213 (L = n*dx, cells per patch n // npatch), 481 (x0 = i*L/npatch), patch.py:273 (axis) *)
Definition cells_per_patch (n np : Z) : Z := n / np.
Definition patch_x0 (n np i : Z) (dx : Q) : Q := inject_Z i * (inject_Z n * dx) / inject_Z np.
Definition patch_axis (n np i l : Z) (dx : Q) : Q := inject_Z l * dx + patch_x0 n np i dx.
(** patch.py:105-121: bounds of a patch for particles, [th] = thickness of the absorbing layer on that side (0: none) *)
Definition patch_xmin (n np i th : Z) (dx : Q) : Q := patch_x0 n np i dx + inject_Z th * dx.
Definition patch_xmax (n np i th : Z) (dx : Q) : Q :=
  patch_x0 n np i dx + (inject_Z (cells_per_patch n np) - 1) * dx - inject_Z th * dx.
