(** Model of particle creation by QED events within one patch (src/lambdapic/core/qed/optical_depth.py:38-130,
    core/qed/inline.py:18-190, core/qed/cpu.py:59-390, core/qed/radiation.py:188-238, core/qed/pair_production.py:220-290,
    core/particles.py:146-168 and 225-262, simulation/simulation.py:979-1062).

    Simplifications: exact rational arithmetic ([Qc]); the square roots in the inverse Lorentz factors are functions given
    from outside; which particles emit and with what fraction (optical depth, chi, tables, random numbers) is an arbitrary
    decision per slot; the three dimensional kernels (the two dimensional ones copy one coordinate less); arrays are one
    list of slots per species; the lists of the modules refer to the live arrays (C48). *)
From Verif Require Import Base.
From Coq Require Import QArith Qcanon.
Local Open Scope list_scope.

Record slot := mkSlot {
  dead : bool; event : bool; delta : Qc;
  pos : Qc * Qc * Qc; ux : Qc; uy : Qc; uz : Qc; inv_gamma : Qc; wt : Qc }.
(** the arrays of each species in the patch *)
Definition world := nat -> list slot.
Definition set_arrays (t : nat) (l : list slot) (w : world) : world := fun j => if j =? t then l else w j.

(** a slot added by extend: dead (particles.py:165), event False (line 259); the numbers are NaN *)
Definition blank : slot := mkSlot true false 0 (0, 0, 0)%Qc 0 0 0 0 0.
(** a species radiates into a photon species, turns into pairs of two species, or neither *)
Inductive kind := Plain | Radiates (photon : nat) | Pairs (electron positron : nat).

Section Qed.
Open Scope Qc_scope.
(** (ux^2+uy^2+uz^2)^-0.5 and (1+ux^2+uy^2+uz^2)^-0.5 *)
Variables ig_massless ig_massive : Qc -> Qc -> Qc -> Qc.

(** ** event stage: update_tau_e / update_tau_gamma over all slots of a species, optical_depth.py:60-84 and 107-130;
    [decide k] is the outcome for slot k if it is alive: no emission (also chi below the table), or emission of a fraction *)
Definition event_slot (d : option Qc) (s : slot) : slot :=
  let set e x := mkSlot (dead s) e x (pos s) (ux s) (uy s) (uz s) (inv_gamma s) (wt s) in
  if dead s then set false 0 else match d with None => set false 0 | Some x => set true x end.
Fixpoint event_from (k : nat) (decide : nat -> option Qc) (l : list slot) : list slot :=
  match l with [] => [] | s :: l' => event_slot (decide k) s :: event_from (S k) decide l' end.
Definition event_stage (decide : nat -> option Qc) (l : list slot) : list slot := event_from 0 decide l.

(** find_event_index, inline.py:18-45 *)
Fixpoint event_index_from (k : nat) (l : list slot) : list nat :=
  match l with
  | [] => []
  | s :: l' => if negb (dead s) && event s then k :: event_index_from (S k) l' else event_index_from (S k) l'
  end.
Definition event_index (l : list slot) : list nat := event_index_from 0 l.

(** get_particle_extension_size_patches, cpu.py:379-390 *)
Definition num_to_extend (src tgt : list slot) : nat := countb event src - countb dead tgt.
(** radiation.py:210-216: with a quarter more than the present length *)
Definition make_room (n : nat) (tgt : list slot) : list slot :=
  if (0 <? n)%nat then tgt ++ repeat blank (n + length tgt / 4) else tgt.

(** [while not is_dead[idx]: idx += 1] from index k; [None]: the index ran past the end of the array *)
Fixpoint first_dead (l : list slot) : option nat :=
  match l with
  | [] => None
  | s :: l' => if dead s then Some 0%nat else option_map S (first_dead l')
  end.
Definition seek (l : list slot) (k : nat) : option nat := option_map (fun j => (k + j)%nat) (first_dead (skipn k l)).
(** the creation of one particle: position and weight of the emitter, f times its momentum; event and delta of the slot
    are not written *)
Definition born (massive : bool) (f : Qc) (e old : slot) : slot :=
  let x := f * ux e in let y := f * uy e in let z := f * uz e in
  mkSlot false (event old) (delta old) (pos e) x y z
    (if massive then ig_massive x y z else ig_massless x y z) (wt e).
Definition put (t k : nat) (massive : bool) (f : Qc) (e : slot) (w : world) : option (world * nat) :=
  match seek (w t) k with
  | Some j => Some (set_arrays t (upd j (born massive f e (nth j (w t) blank)) (w t)) w, j)
  | None => None
  end.
(** create_photon_inline_3d, inline.py:82-113 *)
Fixpoint create_photons (i ph k : nat) (idx : list nat) (w : world) : option world :=
  match idx with
  | [] => Some w
  | a :: idx' =>
      let e := nth a (w i) blank in
      match put ph k false (delta e) e w with
      | Some (w', k') => create_photons i ph k' idx' w'
      | None => None
      end
  end.
(** create_pair_inline_3d, inline.py:151-190 *)
Fixpoint create_pairs (i e q ke kq : nat) (idx : list nat) (w : world) : option world :=
  match idx with
  | [] => Some w
  | a :: idx' =>
      let g := nth a (w i) blank in
      match put e ke true (delta g) g w with
      | Some (w1, ke') =>
          match put q kq true (1 - delta g) (nth a (w1 i) blank) w1 with
          | Some (w2, kq') => create_pairs i e q ke' kq' idx' w2
          | None => None
          end
      | None => None
      end
  end.
(** photon_recoil_patches, cpu.py:308-330, and remove_photon_patches, cpu.py:335-347 *)
Definition recoil (s : slot) : slot :=
  if negb (dead s) && event s
  then let x := ux s * (1 - delta s) in let y := uy s * (1 - delta s) in let z := uz s * (1 - delta s) in
       mkSlot (dead s) (event s) (delta s) (pos s) x y z (ig_massive x y z) (wt s)
  else s.
Definition remove (s : slot) : slot :=
  if negb (dead s) && event s
  then mkSlot true (event s) (delta s) (pos s) (ux s) (uy s) (uz s) (inv_gamma s) (wt s) else s.

(** create_particles and reaction of NonlinearComptonLCFA, radiation.py:205-238 *)
Definition radiate (i ph : nat) (w : world) : option world :=
  let w1 := set_arrays ph (make_room (num_to_extend (w i) (w ph)) (w ph)) w in
  match create_photons i ph 0 (event_index (w1 i)) w1 with
  | Some w2 => Some (set_arrays i (map recoil (w2 i)) w2)
  | None => None
  end.
(** create_particles and reaction of NonlinearPairProductionLCFA, pair_production.py:233-290; both sizes are computed first *)
Definition make_pairs (i e q : nat) (w : world) : option world :=
  let n1 := num_to_extend (w i) (w e) in
  let n2 := num_to_extend (w i) (w q) in
  let w1 := set_arrays e (make_room n1 (w e)) w in
  let w2 := set_arrays q (make_room n2 (w1 q)) w1 in
  match create_pairs i e q 0 0 (event_index (w2 i)) w2 with
  | Some w3 => Some (set_arrays i (map remove (w3 i)) w3)
  | None => None
  end.

(** ** one step, simulation.py:979-1062: events of the enabled species in the species loop, then the creation loop.  The
    creation loop also reports which slots of which species emitted which fraction. *)
Variable kinds : nat -> kind.
Variable enabled : nat -> bool.
Definition is_qed (i : nat) : bool := match kinds i with Plain => false | _ => true end.
Fixpoint event_loop (decide : nat -> nat -> option Qc) (is_ : list nat) (w : world) : world :=
  match is_ with
  | [] => w
  | i :: is' => event_loop decide is' (if enabled i && is_qed i then set_arrays i (event_stage (decide i) (w i)) w else w)
  end.
Definition emissions (i : nat) (l : list slot) : list (nat * nat * Qc) :=
  map (fun a => (i, a, delta (nth a l blank))) (event_index l).
Definition create_species (i : nat) (w : world) : option (world * list (nat * nat * Qc)) :=
  if enabled i then
    match kinds i with
    | Plain => Some (w, [])
    | Radiates ph => match radiate i ph w with Some w' => Some (w', emissions i (w i)) | None => None end
    | Pairs e q => match make_pairs i e q w with Some w' => Some (w', emissions i (w i)) | None => None end
    end
  else Some (w, []).
Fixpoint create_loop (is_ : list nat) (w : world) : option (world * list (nat * nat * Qc)) :=
  match is_ with
  | [] => Some (w, [])
  | i :: is' =>
      match create_species i w with
      | Some (w1, l1) => match create_loop is' w1 with Some (w2, l2) => Some (w2, l1 ++ l2) | None => None end
      | None => None
      end
  end.
Definition qed_step (n : nat) (decide : nat -> nat -> option Qc) (w : world) : option (world * list (nat * nat * Qc)) :=
  create_loop (seq 0 n) (event_loop decide (seq 0 n) w).
End Qed.
