(** Model of the particle output and of the field gathering helper
    (src/lambdapic/callback/hdf5.py:616-700, src/lambdapic/callback/utils.py:50-237). *)
From Verif Require Import Base.

(* ------------------------------------------------------------------ *)
(** * SaveParticlesToHDF5 (hdf5.py:657-700) *)

(** One species in one patch: is_dead flags and, per attribute name (a number), its column. *)
Record ppatch (V : Type) := mkPP { pp_dead : list bool; pp_attr : nat -> list V }.
Arguments mkPP {V}. Arguments pp_dead {V}. Arguments pp_attr {V}.

Section SaveParticles.
Context {V : Type} (zero : V).

(** [is_alive.sum()] (line 671) *)
Definition n_alive (p : ppatch V) : nat := countb negb (pp_dead p).

(** [data[is_alive]]: boolean-mask indexing. *)
Fixpoint compress (mask : list bool) (data : list V) : list V :=
  match mask, data with
  | d :: ms, v :: vs => if negb d then v :: compress ms vs else compress ms vs
  | _, _ => []
  end.

(** One assignment [dset[start:start+n] = values] on dataset [w_attr]. *)
Record wop := mkW { w_attr : nat; w_start : nat; w_len : nat; w_vals : list V }.

(** lines 686-695: the assignments of one rank, in program order; attribute [id] is just one more
    dataset (line 694) and is included in [attrs]. *)
Fixpoint rank_writes (attrs : list nat) (start : nat) (ps : list (ppatch V)) : list wop :=
  match ps with
  | [] => []
  | p :: ps' =>
      map (fun a => mkW a start (n_alive p) (compress (pp_dead p) (pp_attr p a))) attrs
      ++ rank_writes attrs (start + n_alive p) ps'
  end.

(** lines 671-685: allgather of the per-patch counts and the rank's first row. *)
Definition rank_start (ranks : list (list (ppatch V))) (r : nat) : nat :=
  sumn (map (fun ps => sumn (map n_alive ps)) (firstn r ranks)).
Definition all_writes (attrs : list nat) (ranks : list (list (ppatch V))) : list wop :=
  flat_map (fun r => rank_writes attrs (rank_start ranks r) (nth r ranks [])) (seq 0 (length ranks)).

(** Array assignment of a segment. *)
Definition put_seg (start : nat) (vals arr : list V) : list V :=
  firstn start arr ++ vals ++ skipn (start + length vals) arr.

(** The file: dataset of each attribute. [None]: h5py raised (shape mismatch or out of range). *)
Definition apply_w (w : wop) (file : nat -> list V) : option (nat -> list V) :=
  if (length (w_vals w) =? w_len w) && (w_start w + w_len w <=? length (file (w_attr w)))
  then Some (fun a => if a =? w_attr w then put_seg (w_start w) (w_vals w) (file a) else file a)
  else None.
Fixpoint apply_ws (ws : list wop) (file : nat -> list V) : option (nat -> list V) :=
  match ws with
  | [] => Some file
  | w :: ws' => match apply_w w file with Some f' => apply_ws ws' f' | None => None end
  end.

(** lines 677-682: the root creates zeroed datasets of the total length. *)
Definition fresh_file (ranks : list (list (ppatch V))) : nat -> list V :=
  fun _ => repeat zero (sumn (map (fun ps => sumn (map n_alive ps)) ranks)).
End SaveParticles.

(* ------------------------------------------------------------------ *)
(** * get_fields_2d (utils.py:50-124) *)

Inductive outcome (A : Type) := Done (a : A) | KeyErr | ShapeErr | Hang.
Arguments Done {A}. Arguments KeyErr {A}. Arguments ShapeErr {A}. Arguments Hang {A}.

(** Patch as seen by the helper: global index, grid position, stored array with guards
    (interior cell (i,j) is stored at (i,j), fields.py). *)
Record fpatch (V : Type) := mkFP { f_index : nat; f_pos : nat * nat; f_data : nat -> nat -> V }.
Arguments mkFP {V}. Arguments f_index {V}. Arguments f_pos {V}. Arguments f_data {V}.

Section Gather2D.
Context {V : Type} (zero nan : V).
Definition pos_eqb (a b : nat * nat) : bool := (fst a =? fst b) && (snd a =? snd b).

(** [index_info] gathered and merged in one dict; the last entry of a key wins (lines 79-83). *)
Definition index_at (ranks : list (list (fpatch V))) (pos : nat * nat) : option nat :=
  match find (fun p => pos_eqb (f_pos p) pos) (rev (concat ranks)) with
  | Some p => Some (f_index p) | None => None
  end.
(** [local_patches] of the root (line 84), last entry wins. *)
Definition find_local (root : list (fpatch V)) (index : nat) : option (fpatch V) :=
  find (fun p => f_index p =? index) (rev root).
(** [Recv(tag=index)] from any source: the message some other rank posted with that tag. *)
Definition recv (others : list (list (fpatch V))) (index : nat) : option (fpatch V) :=
  find (fun p => f_index p =? index) (concat others).

(** [field_[s] = array[:-2*ng, :-2*ng]] (lines 98-107); with ng = 0 the right side is empty. *)
Definition put_patch (nxp nyp ng : nat) (pos : nat * nat) (data : nat -> nat -> V) (out : nat -> nat -> V)
  : outcome (nat -> nat -> V) :=
  if ng =? 0 then ShapeErr else
  Done (fun x y =>
    if (fst pos * nxp <=? x) && (x <? fst pos * nxp + nxp) && (snd pos * nyp <=? y) && (y <? snd pos * nyp + nyp)
    then data (x - fst pos * nxp) (y - snd pos * nyp) else out x y).

(** One iteration of the double loop (lines 90-107). [mask]: the simulation has a domain mask. *)
Definition gather_step (nxp nyp ng : nat) (mask : bool) (ranks : list (list (fpatch V)))
    (acc : outcome (nat -> nat -> V)) (pos : nat * nat) : outcome (nat -> nat -> V) :=
  match acc with
  | Done out =>
      match index_at ranks pos with
      | None => if mask then Done out else KeyErr
      | Some index =>
          match find_local (hd [] ranks) index with
          | Some p => put_patch nxp nyp ng pos (f_data p) out
          | None =>
              match recv (tl ranks) index with
              | Some p => put_patch nxp nyp ng pos (f_data p) out
              | None => Hang
              end
          end
      end
  | e => e
  end.

Definition grid (npx npy : nat) : list (nat * nat) :=
  flat_map (fun i => map (fun j => (i, j)) (seq 0 npy)) (seq 0 npx).

(** Rank 0's result for one field; [domain_mask] given per cell (line 109-110). *)
Definition get_fields_2d (nxp nyp npx npy ng : nat) (domain_mask : option (nat -> nat -> bool))
    (ranks : list (list (fpatch V))) : outcome (nat -> nat -> V) :=
  let hasmask := match domain_mask with Some _ => true | None => false end in
  match fold_left (gather_step nxp nyp ng hasmask ranks) (grid npx npy) (Done (fun _ _ => zero)) with
  | Done out =>
      Done (match domain_mask with
            | Some m => fun x y => if m x y then out x y else nan
            | None => out
            end)
  | e => e
  end.
End Gather2D.

(* ------------------------------------------------------------------ *)
(** * get_fields_3d (utils.py:127-237) *)

(** Positions along z are in half cells, so that [slice_at] = z2 * dz/2 may lie between nodes.
    [g_lo]/[g_hi]: the PML thickness (in cells) cut off the patch's zmin/zmax (patch.py:134-148). *)
Record gpatch (V : Type) := mkGP
  { g_index : nat; g_pos : nat * nat * nat; g_lo : nat; g_hi : nat; g_data : nat -> nat -> nat -> V }.
Arguments mkGP {V}. Arguments g_index {V}. Arguments g_pos {V}. Arguments g_lo {V}.
Arguments g_hi {V}. Arguments g_data {V}.

Section Gather3D.
Context {V : Type} (zero : V).

(** [p.zmin <= slice_at <= p.zmax] *)
Definition contains (nzp : nat) (z2 : nat) (p : gpatch V) : bool :=
  let kz := snd (g_pos p) in
  (2 * (kz * nzp + g_lo p) <=? z2) && (z2 <=? 2 * (kz * nzp + nzp - 1 - g_hi p)).
(** [iz_global = int((slice_at + dz/2)/dz)] *)
Definition iz_global (z2 : nat) : nat := (z2 + 1) / 2.

Definition pos3_eqb (a b : nat * nat * nat) : bool :=
  (fst (fst a) =? fst (fst b)) && (snd (fst a) =? snd (fst b)) && (snd a =? snd b).
Definition index3_at (nzp z2 : nat) (ranks : list (list (gpatch V))) (pos : nat * nat * nat) : option nat :=
  match find (fun p => pos3_eqb (g_pos p) pos) (rev (filter (contains nzp z2) (concat ranks))) with
  | Some p => Some (g_index p) | None => None
  end.

Definition put_plane (nxp nyp : nat) (pos : nat * nat) (data : nat -> nat -> V) (out : nat -> nat -> V) :=
  fun x y =>
    if (fst pos * nxp <=? x) && (x <? fst pos * nxp + nxp) && (snd pos * nyp <=? y) && (y <? snd pos * nyp + nyp)
    then data (x - fst pos * nxp) (y - snd pos * nyp) else out x y.

(** body of the triple loop (lines 190-208): a local patch is cut at the root's [iz_local], a
    remote one was cut by its owner at [iz_global - kz*nzp + ng] (line 222). *)
Definition gather3_step (nxp nyp nzp ng z2 : nat) (ranks : list (list (gpatch V)))
    (acc : outcome (nat -> nat -> V)) (pos : nat * nat * nat) : outcome (nat -> nat -> V) :=
  match acc with
  | Done out =>
      match index3_at nzp z2 ranks pos with
      | None => Done out
      | Some index =>
          match find (fun p => g_index p =? index) (rev (hd [] ranks)) with
          | Some p =>
              let iz := iz_global z2 - iz_global z2 / nzp * nzp in
              Done (put_plane nxp nyp (fst pos) (fun x y => g_data p x y iz) out)
          | None =>
              match find (fun p => g_index p =? index) (filter (contains nzp z2) (concat (tl ranks))) with
              | Some p =>
                  let iz := iz_global z2 - snd (g_pos p) * nzp + ng in
                  Done (put_plane nxp nyp (fst pos) (fun x y => g_data p x y iz) out)
              | None => Hang
              end
          end
      end
  | e => e
  end.
Definition grid3 (npx npy npz : nat) : list (nat * nat * nat) :=
  flat_map (fun i => flat_map (fun j => map (fun k => (i, j, k)) (seq 0 npz)) (seq 0 npy)) (seq 0 npx).
Definition get_fields_3d (nxp nyp nzp npx npy npz ng z2 : nat) (ranks : list (list (gpatch V)))
  : outcome (nat -> nat -> V) :=
  fold_left (gather3_step nxp nyp nzp ng z2 ranks) (grid3 npx npy npz) (Done (fun _ _ => zero)).
End Gather3D.
