(** Theorems about species naming (C18, C54). *)
From Verif Require Import Base M_Checkpoint M_Names S_Names P_Names.
Open Scope Z_scope.

(** Any sequence of add_species calls, on pairwise distinct objects, with any names: all species of the
    simulation end up with pairwise distinct names. *)
Theorem C18_names_distinct : forall (r : registry) (calls : list (list nat)),
  NoDup (species r ++ concat calls) -> NoDup (map (names r) (species r)) ->
  species (fold_left add_species calls r) = species r ++ concat calls /\
  NoDup (map (names (fold_left add_species calls r)) (species r ++ concat calls)).
Proof. intros r calls Hn Ho. split; [exact (add_all_species calls r)|exact (add_all_names calls r Hn Ho)]. Qed.
Print Assumptions C18_names_distinct.

(** One call: objects outside the call keep their names; a new object either keeps its name, exactly when no
    species before it has that name or that name with a numeric suffix, or gets its own name with a positive
    numeric suffix. *)
Theorem C18_kept_or_numbered : forall (r : registry) (a : list nat) (o : nat) (b : list nat),
  NoDup (species r ++ a ++ o :: b) ->
  let r' := add_species r (a ++ o :: b) in
  (forall x, ~ In x (a ++ o :: b) -> names r' x = names r x) /\
  (names r' o = names r o <-> ~ exists x, In x (species r ++ a) /\ clashes (names r o) (names r' x)) /\
  (names r' o = names r o \/ exists k, 1 <= k /\ names r' o = names r o ++ 46 :: dec k).
Proof.
  intros r a o b Hn r'. assert (Hn' : NoDup (a ++ o :: b)) by (now apply NoDup_app_remove_l in Hn).
  split; [intros x Hx; now apply uniquify_other|].
  assert (E : names r' o = pick (names r o) (map (names r') (species r ++ a))).
  { unfold r'. cbn [names add_species]. rewrite uniquify_at by auto. f_equal. rewrite map_app. f_equal.
    apply map_ext_in. intros x Hx. symmetry. apply uniquify_other. intro Hi. apply in_split in Hx as [u [v Es]]. rewrite Es, <- app_assoc in Hn.
    cbn [app] in Hn. apply NoDup_remove_2 in Hn. apply Hn. apply in_or_app. right. apply in_or_app. now right. }
  rewrite E. split; [|apply pick_shape]. rewrite pick_keeps. split; intros H [x Hx]; apply H.
  - destruct Hx as [Hi Hc]. exists (names r' x). split; auto. now apply in_map.
  - destruct Hx as [Hi Hc]. apply in_map_iff in Hi as [y [<- Hy]]. eauto.
Qed.
Print Assumptions C18_kept_or_numbered.

(** The species index of each object is its position in the simulation's list. *)
Theorem C18_index_is_position : forall (r : registry) (calls : list (list nat)) (i o : nat),
  calls <> [] -> NoDup (species r ++ concat calls) -> nth_error (species r ++ concat calls) i = Some o ->
  ispec (fold_left add_species calls r) o = Some i.
Proof. intros r calls i o Hc Hn He. exact (add_all_ispec calls r i o Hc Hn He). Qed.
Print Assumptions C18_index_is_position.

(** "e", "e.1", "e", "e" added in two calls: e, e.1, e.2, e.3 *)
Example C18_names_example :
  let nm := fun o : nat => match o with 1%nat => [101; 46; 49] | _ => [101] end in
  let r := Registry [] nm (fun _ => None) in
  NoDup ([] ++ concat [[0; 1]; [2; 3]]%nat) /\
  map (names (fold_left add_species [[0; 1]; [2; 3]]%nat r)) [0; 1; 2; 3]%nat = [[101]; [101; 46; 49]; [101; 46; 50]; [101; 46; 51]] /\
  map (ispec (fold_left add_species [[0; 1]; [2; 3]]%nat r)) [0; 1; 2; 3]%nat = [Some 0; Some 1; Some 2; Some 3]%nat.
Proof. split; [|split; reflexivity]. cbn. repeat (constructor; [cbn; lia|]). constructor. Qed.

(** The stronger reading fails. *)
Definition kept_when_free : Prop := forall (r : registry) (o : nat),
  ~ In o (species r) -> NoDup (species r) -> NoDup (map (names r) (species r)) ->
  ~ In (names r o) (map (names r) (species r)) -> names (add_species r [o]) o = names r o.
(** A species called "e" is renamed to "e.2" although the only other species is called "e.1". *)
Theorem C54_free_name_not_kept_refuted : ~ kept_when_free.
Proof.
  intro H. specialize (H (Registry [0%nat] (fun o => match o with O => [101; 46; 49] | _ => [101] end) (fun _ => None)) 1%nat).
  cbn [species names] in H. assert (E : [101; 46; 50] = [101]) by (apply H; cbn; try tauto; repeat constructor; cbn; try tauto; intros [?|[]]; discriminate).
  discriminate.
Qed.
Print Assumptions C54_free_name_not_kept_refuted.

Definition distinct_for_repeated_objects : Prop := forall (r : registry) (news : list nat) (i j : nat) (o p : nat),
  NoDup (map (names r) (species r)) ->
  nth_error (species (add_species r news)) i = Some o -> nth_error (species (add_species r news)) j = Some p -> i <> j ->
  names (add_species r news) o <> names (add_species r news) p.
(** Adding the same object a second time gives two list entries with one name. *)
Theorem C54_same_object_twice_refuted : ~ distinct_for_repeated_objects.
Proof.
  intro H. apply (H (Registry [0%nat] (fun _ => [101]) (fun _ => None)) [0%nat] 0%nat 1%nat 0%nat 0%nat); auto.
  cbn. repeat constructor. cbn. tauto.
Qed.
Print Assumptions C54_same_object_twice_refuted.
