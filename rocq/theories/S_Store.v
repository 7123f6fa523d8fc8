(** Specification vocabulary for particle storage. *)
From Coq Require Import QArith String.
From Verif Require Import Base M_RunLoop M_Store.
Local Open Scope list_scope.
Local Open Scope Z_scope.

(** all arrays of the object have npart entries *)
Definition well_formed (s : store) : Prop :=
  (forall a, In a (s_attrs s) -> List.length (snd a) = s_npart s) /\ List.length (s_dead s) = s_npart s /\
  match s_event s with Some ev => List.length ev = s_npart s | None => True end.

(** everything stored about slot i: the values of all attributes and the event flag *)
Definition slot (s : store) (i : nat) : list (string * value) * option bool :=
  (map (fun a => (fst a, nth i (snd a) NaN)) (s_attrs s), option_map (fun ev => nth i ev false) (s_event s)).
Definition is_alive (s : store) (i : nat) : bool := negb (nth i (s_dead s) true).
Definition alive_slots (s : store) : list (list (string * value) * option bool) :=
  map (slot s) (filter (is_alive s) (seq 0 (s_npart s))).

(** what np.argsort(is_dead) may return: a permutation of the slots putting the alive ones first *)
Definition sorts_dead (dead : list bool) (idx : list nat) : Prop :=
  Permutation idx (seq 0 (List.length dead)) /\
  forall i j, (i < j < List.length dead)%nat -> nth (nth i idx 0%nat) dead true = true -> nth (nth j idx 0%nat) dead true = true.

(** identifiers of the alive particles of all patches, and of all slots *)
Definition alive_ids (st : pool) : list Z := flat_map (fun p => map fst (filter (fun s => negb (snd s)) (ps_slots p))) st.
Definition slot_ids (st : pool) : list Z := flat_map (fun p => map fst (ps_slots p)) st.
(** patches as created at start-up: distinct (rank, patch) keys within the ranges of the constructor's assertion, nothing stored *)
Definition fresh_pool (st : pool) : Prop :=
  NoDup (map (fun p => (ps_rank p, ps_ipatch p)) st) /\
  forall p, In p st -> 0 <= ps_rank p < 2 ^ 14 /\ 0 <= ps_ipatch p < 2 ^ 18 /\ ps_created p = 0 /\ ps_slots p = [].
Definition is_create (o : idop) : bool := match o with OCreate _ _ => true | _ => false end.
Definition is_migrate (o : idop) : bool := match o with OMigrate _ _ _ _ => true | _ => false end.
(** the (identifier, dead) pairs of a particle object, as used by the whole-simulation model *)
Definition id_of (v : value) : Z := match v with Id z => z | _ => 0 end.
Definition ids_of (s : store) : list Z :=
  match find (fun a => (fst a =? "_id")%string) (s_attrs s) with Some a => map id_of (snd a) | None => [] end.
Definition view (s : store) : pslots := mkPs (s_rank s) (s_ipatch s) (s_created s) (combine (ids_of s) (s_dead s)).
Definition has_ids (s : store) : Prop := exists a, find (fun a => (fst a =? "_id")%string) (s_attrs s) = Some a.
