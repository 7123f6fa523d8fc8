(** Model of setting up radiation and pair creation (core/species.py:51-258, simulation/simulation.py:528-557 and 657-688,
    core/qed/radiation.py:48-56 and 113-124, core/qed/pair_production.py:46-54 and 107-121): species objects with their
    classes, set_photon, set_bw_pair, add_species of several simulations of one process, and the modules made when a
    simulation is initialised.

    Simplifications: only the attributes that matter for the setup; classes derived by users are left out; the process has
    at least one patch (otherwise no list is built and no index checked); an exception is [None], whatever its type. *)
From Verif Require Import Base M_Qed.
Local Open Scope list_scope.
Local Open Scope Z_scope.

Inductive cls := CSpecies | CElectron | CPositron | CProton | CPhoton.
(** isinstance along the class statements, species.py:51, 185, 211, 216, 224: Positron derives from Electron *)
Definition isinstance (c d : cls) : bool :=
  match d with
  | CSpecies => true
  | CElectron => match c with CElectron | CPositron => true | _ => false end
  | CPositron => match c with CPositron => true | _ => false end
  | CProton => match c with CProton => true | _ => false end
  | CPhoton => match c with CPhoton => true | _ => false end
  end.
(** radiation of Electron and Positron, species.py:187 *)
Inductive radiation := NoRadiation | LL | Photons.
Record obj := mkObj { o_class : cls; o_charge : Z; o_radiation : radiation; o_polarized : bool;
                      o_photon : option nat; o_electron : option nat; o_positron : option nat; o_ispec : option nat }.
(** all species objects ever made, and the species of each simulation *)
Record process := mkProcess { objects : list obj; sims : list (list nat) }.
Definition no_obj : obj := mkObj CSpecies 0 NoRadiation false None None None None.
Definition get (h : list obj) (a : nat) : obj := nth a h no_obj.

(** the charges of the classes, species.py:189, 213, 218, 226; only a plain Species takes one *)
Definition charge_of_class (c : cls) (z : Z) : Z :=
  match c with CSpecies => z | CElectron => -1 | CPositron => 1 | CProton => 1 | CPhoton => 0 end.
Definition create (c : cls) (z : Z) (r : radiation) (polarized : bool) : obj :=
  mkObj c (charge_of_class c z) (if isinstance c CElectron then r else NoRadiation) polarized None None None None.
Definition with_photon (b : nat) (o : obj) : obj := mkObj (o_class o) (o_charge o) (o_radiation o) (o_polarized o) (Some b) (o_electron o) (o_positron o) (o_ispec o).
Definition with_pair (e q : nat) (o : obj) : obj := mkObj (o_class o) (o_charge o) (o_radiation o) (o_polarized o) (o_photon o) (Some e) (Some q) (o_ispec o).
Definition with_ispec (i : nat) (o : obj) : obj := mkObj (o_class o) (o_charge o) (o_radiation o) (o_polarized o) (o_photon o) (o_electron o) (o_positron o) (Some i).
(** for ispec, s in enumerate(self.species): s.ispec = ispec, simulation.py:556-557 *)
Fixpoint number_from (k : nat) (l : list nat) (h : list obj) : list obj :=
  match l with [] => h | a :: l' => number_from (S k) l' (upd a (with_ispec k (get h a)) h) end.

Inductive command :=
| New (c : cls) (charge : Z) (r : radiation) (polarized : bool)
| SetPhoton (a b : nat)
| SetPair (a e q : nat)
| NewSim
| AddSpecies (s : nat) (l : list nat).
Definition exec (c : command) (p : process) : option process :=
  let h := objects p in let known := fun a => (a <? length h)%nat in
  match c with
  | New c z r pol => Some (mkProcess (h ++ [create c z r pol]) (sims p))
  (* species.py:193-197; other classes have no such method *)
  | SetPhoton a b =>
      if known a && known b && isinstance (o_class (get h a)) CElectron
      then match o_radiation (get h a) with Photons => Some (mkProcess (upd a (with_photon b (get h a)) h) (sims p)) | _ => None end
      else None
  (* species.py:236-240 *)
  | SetPair a e q =>
      if known a && known e && known q && isinstance (o_class (get h a)) CPhoton
      then Some (mkProcess (upd a (with_pair e q (get h a)) h) (sims p)) else None
  | NewSim => Some (mkProcess h (sims p ++ [[]]))
  (* simulation.py:528-557 *)
  | AddSpecies s l =>
      if (s <? length (sims p))%nat && forallb known l
      then let all := nth s (sims p) [] ++ l in Some (mkProcess (number_from 0 all h) (upd s all (sims p))) else None
  end.
Fixpoint run (cs : list command) (p : process) : option process :=
  match cs with [] => Some p | c :: cs' => match exec c p with Some p' => run cs' p' | None => None end end.
Definition fresh : process := mkProcess [] [].

(** create_particles: whether the particles have tau, chi, delta and event; species.py:199-208 and 242-248 *)
Definition qed_storage (o : obj) : bool :=
  match o_class o with
  | CElectron | CPositron => match o_photon o with Some _ => true | None => false end
  | CPhoton => match o_electron o with Some _ => true | None => false end
  | _ => false
  end.
(** the index [i] of a species of a simulation with [n] species: list[i] of an object that has an index *)
Definition index_of (n : nat) (o : obj) : option nat :=
  match o_ispec o with Some i => if (i <? n)%nat then Some i else None | None => None end.
(** simulation.py:667-679 with NonlinearComptonLCFA.__init__, radiation.py:113-124 *)
Definition init_radiation (h : list obj) (n : nat) (o : obj) : option (option nat) :=
  if isinstance (o_class o) CElectron then
    match o_radiation o with
    | NoRadiation => Some None
    | LL => None
    | Photons =>
        match o_photon o with
        | Some b => if isinstance (o_class (get h b)) CPhoton
                    then if qed_storage o then option_map Some (index_of n (get h b)) else None
                    else None
        | None => None
        end
    end
  else Some None.
(** simulation.py:681-688 with NonlinearPairProductionLCFA.__init__, pair_production.py:107-121 *)
Definition init_pairs (h : list obj) (n : nat) (o : obj) : option (option (nat * nat)) :=
  if isinstance (o_class o) CPhoton then
    match o_electron o, o_positron o with
    | Some e, Some q =>
        if isinstance (o_class (get h e)) CElectron && isinstance (o_class (get h q)) CPositron then
          match index_of n (get h e), index_of n (get h q) with
          | Some i, Some j => if qed_storage o then Some (Some (i, j)) else None
          | _, _ => None
          end
        else None
    | _, _ => Some None
    end
  else Some None.
Definition init_one (h : list obj) (n : nat) (a : nat) : option kind :=
  match init_radiation h n (get h a), init_pairs h n (get h a) with
  | Some (Some ph), Some _ => Some (Radiates ph)
  | Some None, Some (Some (e, q)) => Some (Pairs e q)
  | Some None, Some None => Some Plain
  | _, _ => None
  end.
Fixpoint init_all (h : list obj) (n : nat) (l : list nat) : option (list kind) :=
  match l with
  | [] => Some []
  | a :: l' => match init_one h n a, init_all h n l' with Some k, Some ks => Some (k :: ks) | _, _ => None end
  end.
(** Simulation._init_qed *)
Definition init_qed (p : process) (s : nat) : option (list kind) :=
  let l := nth s (sims p) [] in init_all (objects p) (length l) l.
