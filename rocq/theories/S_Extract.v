(** Vocabulary for C103 and C104: the density array assembled on process 0. *)
From Verif Require Import Base M_Layout M_Slices S_Slices M_Extract.
Local Open Scope Z_scope.
Local Open Scope list_scope.

(** Cell c of a patch of psizes cells; its number in the whole domain when the patch is at position pos. *)
Definition in_patch (psizes c : list Z) : Prop := Forall2 (fun sz x => 0 <= x < sz) psizes c.
Fixpoint global (psizes pos c : list Z) : list Z :=
  match psizes, pos, c with sz :: szs, p :: ps, x :: xs => p * sz + x :: global szs ps xs | _, _, _ => [] end.
(** Cells of the whole domain. *)
Definition in_domain (npatch psizes g : list Z) : Prop := Forall2 (fun d x => 0 <= x < d) (map (fun ns => fst ns * snd ns) (combine npatch psizes)) g.

(** The patches of all processes: every one at a position of the grid of patches, no two at the same position or with the
    same index; without a mask no position is missing. *)
Record layout_ok {V} (npatch psizes : list Z) (masked : bool) (ranks : list (list (epatch V))) : Prop := mkLayout {
  ly_len : length psizes = length npatch;
  ly_sizes : Forall (fun sz => 0 < sz) psizes;
  ly_in : forall p, In p (concat ranks) -> Forall2 (fun n x => 0 <= x < n) npatch (e_pos p);
  ly_pos : NoDup (map e_pos (concat ranks));
  ly_index : NoDup (map e_index (concat ranks));
  ly_all : masked = false -> forall pos, Forall2 (fun n x => 0 <= x < n) npatch pos -> exists p, In p (concat ranks) /\ e_pos p = pos }.

(** Selections that are one piece of memory in every patch: single cells on the leading axes, anything on the next one, all
    cells of the remaining ones. *)
Definition all_cells_of (d : Z) (s : nslice) : Prop := n_start s = 0 /\ n_stop s = d /\ n_step s = 1.
Inductive unbroken : list Z -> list nslice -> Prop :=
| ub_any d s dims ss : Forall2 all_cells_of dims ss -> unbroken (d :: dims) (s :: ss)
| ub_one d s dims ss : n_stop s = n_start s + 1 -> unbroken dims ss -> unbroken (d :: dims) (s :: ss).
