(** C37 (QED emission: one particle per event, momentum conserved) and C64 (pairs into one species).
    Closed under the global context. *)
From Verif Require Import Base M_Qed S_Qed P_Qed P_Qed2.
From Coq Require Import QArith Qcanon Permutation.
Local Open Scope nat_scope.
Local Open Scope list_scope.

(** Radiation, for every state of both arrays (any dead slots, any leftover flags): there is always room, the alive photons
    afterwards are those before and one per emitter with its share of momentum, photons that existed stay in their slots,
    the emitters lose the share, other species are not touched. *)
Theorem C37_one_photon_per_event :
  forall igl igm i ph w, ph <> i ->
  exists w', radiate igl igm i ph w = Some w'
  /\ alive (w' i) = map (fun s => if event s then part_of igm (1 - delta s)%Qc s else view s)
                        (filter (fun s => negb (dead s)) (w i))
  /\ Permutation (alive (w' ph)) (alive (w ph) ++ map (fun e => part_of igl (delta e) e) (emitters (w i)))
  /\ (forall k, dead (nth k (w ph) blank) = false -> nth k (w' ph) blank = nth k (w ph) blank)
  /\ (forall j, j <> i -> j <> ph -> w' j = w j).
Proof.
  intros igl igm i ph w H. destruct (radiate_spec igl igm i ph w H) as [w' [A [B [C [D [_ F]]]]]]. exists w'.
  split; [exact A|]. split; [rewrite B; apply alive_recoil|]. exact (conj C (conj D F)).
Qed.
Print Assumptions C37_one_photon_per_event.

(** Pair production: one electron and one positron per photon that converts, and that photon is gone. *)
Theorem C37_one_pair_per_event :
  forall igl igm i e q w, e <> i -> q <> i -> e <> q ->
  exists w', make_pairs igl igm i e q w = Some w'
  /\ alive (w' i) = map view (filter (fun s => negb (dead s) && negb (event s)) (w i))
  /\ Permutation (alive (w' e)) (alive (w e) ++ map (fun g => part_of igm (delta g) g) (emitters (w i)))
  /\ Permutation (alive (w' q)) (alive (w q) ++ map (fun g => part_of igm (1 - delta g)%Qc g) (emitters (w i)))
  /\ (forall k, dead (nth k (w e) blank) = false -> nth k (w' e) blank = nth k (w e) blank)
  /\ (forall k, dead (nth k (w q) blank) = false -> nth k (w' q) blank = nth k (w q) blank)
  /\ (forall j, j <> i -> j <> e -> j <> q -> w' j = w j).
Proof. exact pairs_full. Qed.
Print Assumptions C37_one_pair_per_event.

(** A whole step, any number of species with any targets, any decisions: creation never runs out of slots; the particles
    that emit are exactly the alive ones for which the event stage decided so (a particle created in this step does not),
    each once; and the total momentum of the patch is unchanged. *)
Theorem C37_step :
  forall igl igm kinds enabled n decide w, sane n kinds ->
  exists w', qed_step igl igm kinds enabled n decide w =
             Some (w', flat_map (fun i => if enabled i && is_qed kinds i then decided i (decide i) (w i) else []) (seq 0 n))
          /\ total_momentum n w' = total_momentum n w.
Proof. intros igl igm kinds enabled n decide w H. exact (qed_step_spec igl igm kinds enabled n H decide w). Qed.
Print Assumptions C37_step.

(** electrons (0) radiate into photons (1), photons make electrons and positrons (2), positrons radiate too *)
Definition demo_kinds (i : nat) : kind := match i with 0 => Radiates 1 | 1 => Pairs 0 2 | 2 => Radiates 1 | _ => Plain end.
Definition demo_slot (d : bool) (u : Z) : slot := mkSlot d true (Q2Qc 0) (0, 0, 0)%Qc (Q2Qc (inject_Z u)) 0%Qc 0%Qc 1%Qc (Q2Qc 2).
Definition demo_world : world := fun i =>
  match i with
  | 0 => [demo_slot true 7; demo_slot false 10; demo_slot false 20]
  | 1 => [demo_slot false 8; demo_slot true 9]
  | _ => [demo_slot false 30]
  end.
Definition demo_decide (i k : nat) : option Qc := if (i =? 0) && (k =? 1) then None else Some (Q2Qc (1 # 4)).
Definition ux_of (l : list slot) : list Q := map (fun p => this (p_ux p)) (alive l).
Definition demo_result :=
  match qed_step (fun _ _ _ => 1%Qc) (fun _ _ _ => 1%Qc) demo_kinds (fun _ => true) 3 demo_decide demo_world with
  | Some (w, l) => Some (map (fun i => ux_of (w i)) [0; 1; 2], map fst l)
  | None => None
  end.
Example C37_example :
  sane 3 demo_kinds /\
  demo_result = Some ([[2 # 1; 10 # 1; 15 # 1]; [15 # 2; 5 # 1]; [45 # 2; 6 # 1]]%Q, [(0, 2); (1, 0); (2, 0)]).
Proof.
  split.
  - intros i Hi. destruct i as [|[|[|i]]]; cbn; lia.
  - vm_compute. reflexivity.
Qed.

(** C64 fails: with the electrons and positrons of a photon species put into one species, the room is computed for each
    separately before either grows, and the search for a free slot runs past the end of the array. *)
Theorem C64_one_species_for_both_refuted :
  exists igl igm w, make_pairs igl igm 0 1 1 w = None.
Proof.
  exists (fun _ _ _ => 1%Qc), (fun _ _ _ => 1%Qc), (fun i => if i =? 0 then [demo_slot false 3] else [demo_slot true 0]).
  vm_compute. reflexivity.
Qed.
Print Assumptions C64_one_species_for_both_refuted.
