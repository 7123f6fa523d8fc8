(** C117: an accepted QED setup does what was asked for. *)
From Coq Require Import QArith Qcanon Permutation.
From Verif Require Import Base M_Qed S_Qed M_QedSetup S_QedSetup P_QedSetup Properties_Qed.
Local Open Scope list_scope.
Local Open Scope nat_scope.

(** If every object is added once, targets are species of the same simulation and electrons of pairs are plain [Electron]s, then
    every setup that initialises emits into the photon species given, turns photons into the two species given, which carry
    charges -1 and +1, and leaves nothing out.  Missing: the three conditions are not checked by the code. *)
Theorem C117_as_asked_partial : forall cs p s ks, run cs fresh = Some p -> own_species p -> complete p s -> true_electrons p s -> init_qed p s = Some ks ->
  length ks = length (members p s) /\ forall i a, nth_error (members p s) i = Some a -> as_asked p s a (kinds_of ks i).
Proof.
  intros cs p s ks R O C T E. destruct (setup_ok p s (good_run cs fresh p good_fresh R) O C T ks E) as (L & _ & A). split; assumption.
Qed.
(** Then the creation of particles never runs past an array and conserves momentum, whatever is decided. *)
Theorem C117_step_partial : forall cs p s ks igl igm enabled decide w, run cs fresh = Some p -> own_species p -> complete p s -> true_electrons p s -> init_qed p s = Some ks ->
  exists w' l, qed_step igl igm (kinds_of ks) enabled (length (members p s)) decide w = Some (w', l) /\
  total_momentum (length (members p s)) w' = total_momentum (length (members p s)) w.
Proof.
  intros cs p s ks igl igm enabled decide w R O C T E. destruct (setup_ok p s (good_run cs fresh p good_fresh R) O C T ks E) as (_ & Sn & _).
  destruct (C37_step igl igm (kinds_of ks) enabled _ decide w Sn) as (w' & H & M). eexists. eexists. split; [exact H|exact M].
Qed.
(** the indices are those of the simulation, after any history of calls *)
Theorem C117_indices : forall cs p s k a, run cs fresh = Some p -> own_species p -> nth_error (members p s) k = Some a -> o_ispec (get (objects p) a) = Some k.
Proof. intros cs p s k a R O E. exact (g_index p (good_run cs fresh p good_fresh R) O s k a E). Qed.

(** electrons and positrons radiate into photons, photons turn into electrons and positrons; a second simulation has its own *)
Definition done (cs : list command) : process := match run cs fresh with Some p => p | None => fresh end.
Local Ltac after cs := let p := eval vm_compute in (done cs) in exists p.
Definition usual : list command :=
  [NewSim; New CElectron 0 Photons false; New CPositron 0 Photons true; New CPhoton 0 NoRadiation false; New CProton 0 NoRadiation false;
   SetPhoton 0 2; SetPhoton 1 2; SetPair 2 0 1; AddSpecies 0 [3; 0]; AddSpecies 0 [1; 2]; NewSim; New CElectron 0 NoRadiation false; AddSpecies 1 [4]].
Example C117_example : exists p, run usual fresh = Some p /\ own_species p /\ complete p 0 /\ true_electrons p 0 /\
  init_qed p 0 = Some [Plain; Radiates 3; Radiates 3; Pairs 1 2] /\ init_qed p 1 = Some [Plain].
Proof.
  after usual. split; [vm_compute; reflexivity|]. split.
  { unfold own_species. cbn. repeat (constructor; [cbn; intuition discriminate|]). constructor. }
  split; [|split].
  - intros a b. cbn. intros [<-|[<-|[<-|[<-|[]]]]]; cbn; intuition (try discriminate); match goal with H : Some _ = Some _ |- _ => injection H as <- end; auto.
  - intros a e. cbn. intros [<-|[<-|[<-|[<-|[]]]]]; cbn; intro H; try discriminate H. injection H as <-. reflexivity.
  - split; vm_compute; reflexivity.
Qed.

(** Refuted without [true_electrons]: a Positron is an Electron for isinstance, so that pairs of two positron species are
    accepted, although set_bw_pair and the check name an electron. *)
Definition two_positrons : list command :=
  [NewSim; New CPhoton 0 NoRadiation false; New CPositron 0 NoRadiation false; New CPositron 0 NoRadiation false; SetPair 0 1 2; AddSpecies 0 [0; 1; 2]].
Theorem C117_two_positrons_refuted : exists cs p e q b c, run cs fresh = Some p /\ own_species p /\ complete p 0 /\
  init_qed p 0 = Some [Pairs e q; Plain; Plain] /\ nth_error (members p 0) e = Some b /\ nth_error (members p 0) q = Some c /\
  (o_charge (get (objects p) b) + o_charge (get (objects p) c) = 2)%Z.
Proof.
  exists two_positrons. after two_positrons. exists 1, 2, 1, 2. split; [vm_compute; reflexivity|]. split.
  { unfold own_species. cbn. repeat (constructor; [cbn; intuition discriminate|]). constructor. }
  split; [|repeat split].
  intros a b. cbn. intros [<-|[<-|[<-|[]]]]; cbn; intuition (try discriminate); match goal with H : Some _ = Some _ |- _ => injection H as <- end; auto.
Qed.

(** Refuted without [own_species]: adding the photons to a second simulation renumbers them, and the first simulation,
    initialised afterwards, writes its photons into the electrons. *)
Definition shared : list command :=
  [NewSim; NewSim; New CElectron 0 Photons false; New CPhoton 0 NoRadiation false; SetPhoton 0 1; AddSpecies 0 [0; 1]; AddSpecies 1 [1]].
Theorem C117_shared_photon_refuted : exists cs p w, run cs fresh = Some p /\ members p 0 = [0; 1] /\ o_photon (get (objects p) 0) = Some 1 /\ complete p 0 /\
  init_qed p 0 = Some [Radiates 0; Plain] /\
  length (S_Qed.alive (w 0)) = 1 /\
  match qed_step (fun _ _ _ => 1%Qc) (fun _ _ _ => 1%Qc) (kinds_of [Radiates 0; Plain]) (fun _ => true) 2 (fun _ _ => Some (Q2Qc (1 # 4))) w with
  | Some (w', l) => length l = 1 /\ length (S_Qed.alive (w' 0)) = 2 /\ length (S_Qed.alive (w' 1)) = 0
  | None => False
  end.
Proof.
  exists shared. after shared. exists (fun i => match i with 0 => [demo_slot false 4] | _ => [] end).
  split; [vm_compute; reflexivity|]. split; [reflexivity|]. split; [reflexivity|]. split.
  - intros a b. cbn. intros [<-|[<-|[]]]; cbn; intuition (try discriminate); match goal with H : Some _ = Some _ |- _ => injection H as <- end; auto.
  - split; [reflexivity|]. split; [reflexivity|]. vm_compute. auto.
Qed.

(** Refuted without [complete]: the photons belong to another simulation; the emission goes into the protons. *)
Definition foreign : list command :=
  [NewSim; NewSim; New CElectron 0 Photons false; New CProton 0 NoRadiation false; New CPhoton 0 NoRadiation false; New CProton 0 NoRadiation false;
   SetPhoton 0 2; AddSpecies 1 [3; 2]; AddSpecies 0 [0; 1]].
Theorem C117_foreign_photon_refuted : exists cs p, run cs fresh = Some p /\ own_species p /\ members p 0 = [0; 1] /\
  init_qed p 0 = Some [Radiates 1; Plain] /\ o_class (get (objects p) 1) = CProton.
Proof.
  exists foreign. after foreign. split; [vm_compute; reflexivity|]. split; [|repeat split].
  unfold own_species. cbn. repeat (constructor; [cbn; intuition discriminate|]). constructor.
Qed.

(** The documented radiation="ll" never initialises. *)
Theorem C117_ll_refuted : forall cs p s a, run cs fresh = Some p -> In a (members p s) -> isinstance (o_class (get (objects p) a)) CElectron = true ->
  o_radiation (get (objects p) a) = LL -> init_qed p s = None.
Proof.
  intros cs p s a R I Ec Er. unfold init_qed. fold (members p s). generalize (length (members p s)) at 1. intro n. revert I. generalize (members p s). intro l.
  induction l as [|b l IH]; intro I; [destruct I|]. cbn [init_all]. destruct I as [->|I].
  - unfold init_one, init_radiation. rewrite Ec, Er. reflexivity.
  - rewrite (IH I). destruct (init_one _ _ b); reflexivity.
Qed.
Example C117_ll_example : exists p, run [NewSim; New CElectron 0 LL false; AddSpecies 0 [0]] fresh = Some p /\ In 0 (members p 0) /\ isinstance (o_class (get (objects p) 0)) CElectron = true /\ o_radiation (get (objects p) 0) = LL.
Proof. eexists. split; [reflexivity|]. repeat split. left. reflexivity. Qed.
Print Assumptions C117_as_asked_partial.
Print Assumptions C117_step_partial.
Print Assumptions C117_indices.
Print Assumptions C117_two_positrons_refuted.
Print Assumptions C117_shared_photon_refuted.
Print Assumptions C117_foreign_photon_refuted.
Print Assumptions C117_ll_refuted.
