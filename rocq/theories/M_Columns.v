(** Model of the choice of the columns of a particle output (src/lambdapic/callback/hdf5.py:642-692, SaveParticlesToHDF5).  A list
    object is a list of names; where the code changes a list of its caller, the list after the call is part of the result. *)
From Coq Require Import String.
From Verif Require Import Base.
Local Open Scope string_scope.
Local Open Scope list_scope.

Definition mem (a : string) (l : list string) : bool := existsb (String.eqb a) l.
(** list.remove *)
Fixpoint remove1 (a : string) (l : list string) : list string :=
  match l with [] => [] | b :: l' => if String.eqb a b then l' else b :: remove1 a l' end.
(** hdf5.py:656-657, 662-663 *)
Definition without_id (l : list string) : list string := if mem "id" l then remove1 "id" l else l.

Inductive error := ValueError | AttributeError.
Inductive result (A : Type) := Done (a : A) | Raised (e : error).
Arguments Done {A}. Arguments Raised {A}.
(** hdf5.py:676-678: f.create_dataset of each name; [file] are the names present, the newest last.  h5py refuses a name twice. *)
Fixpoint create (names file : list string) : result (list string) :=
  match names with [] => Done file | a :: names' => if mem a file then Raised ValueError else create names' (file ++ [a]) end.
(** hdf5.py:687-691: getattr of each name ([has]: what the particles have), then their identifiers.  Result: the names of the
    datasets that were written *)
Fixpoint fill (has : list string) (names : list string) : result (list string) :=
  match names with
  | [] => Done ["id"]
  | a :: names' => if mem a has then match fill has names' with Done l => Done (a :: l) | Raised e => Raised e end else Raised AttributeError
  end.

(** the callback object: self.attrs *)
Definition callback := option (list string).
(** hdf5.py:651-657: self.attrs is the list object of the caller; second result: that list afterwards *)
Definition construct (attrs : option (list string)) : callback * option (list string) := (option_map without_id attrs, option_map without_id attrs).
(** hdf5.py:659-692: one output.  Results: the object, particles.attrs of the first patch afterwards (the same list object if no
    names were given), the datasets of the file *)
Definition output (cb : callback) (particle_attrs has : list string) : callback * list string * result (list string) :=
  let names := match cb with None => without_id particle_attrs | Some l => l end in
  (Some names, match cb with None => names | Some _ => particle_attrs end,
   match create (names ++ ["id"]) [] with Raised e => Raised e | Done _ => fill has names end).
