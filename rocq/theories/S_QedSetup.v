(** Vocabulary for C117: proper use of species objects. *)
From Verif Require Import Base M_Qed M_QedSetup.
Local Open Scope list_scope.

(** no species object is added twice or to two simulations *)
Definition own_species (p : process) : Prop := NoDup (concat (sims p)).
Definition members (p : process) (s : nat) : list nat := nth s (sims p) [].
(** the species into which a species of the simulation emits belong to the same simulation *)
Definition complete (p : process) (s : nat) : Prop := forall a b, In a (members p s) ->
  o_photon (get (objects p) a) = Some b \/ o_electron (get (objects p) a) = Some b \/ o_positron (get (objects p) a) = Some b -> In b (members p s).
(** the electrons of pairs are objects of class Electron itself *)
Definition true_electrons (p : process) (s : nat) : Prop := forall a e, In a (members p s) ->
  o_electron (get (objects p) a) = Some e -> o_class (get (objects p) e) = CElectron.
Definition kinds_of (ks : list kind) (i : nat) : kind := nth i ks Plain.
(** what the modules of species [a] should do, given the species of its simulation *)
Definition as_asked (p : process) (s : nat) (a : nat) (k : kind) : Prop :=
  let o := get (objects p) a in
  match k with
  | Radiates ph => o_radiation o = Photons /\ exists b, o_photon o = Some b /\ nth_error (members p s) ph = Some b /\
                   o_class (get (objects p) b) = CPhoton /\ o_charge (get (objects p) b) = 0%Z
  | Pairs e q => exists b c, o_electron o = Some b /\ o_positron o = Some c /\ nth_error (members p s) e = Some b /\ nth_error (members p s) q = Some c /\
                 o_charge (get (objects p) b) = (-1)%Z /\ o_charge (get (objects p) c) = 1%Z
  | Plain => (isinstance (o_class o) CElectron = true -> o_radiation o = NoRadiation) /\
             (isinstance (o_class o) CPhoton = true -> o_electron o = None \/ o_positron o = None)
  end.
