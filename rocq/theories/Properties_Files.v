(** C129 and C130: what the callbacks of a run write into one directory. *)
From Verif Require Import Base M_Checkpoint M_Files S_Files P_Checkpoint P_Files.
Local Open Scope list_scope.
Local Open Scope Z_scope.

(** ** which outputs share a file name: only the density of a species "s_particles" and the particles of "s", at the same step *)
Theorem C129_names : forall o o', 0 <= step_of o -> 0 <= step_of o' -> filename o = filename o' ->
  o = o' \/ exists s t, (o = ODensity (s ++ suffix) t /\ o' = OParticles s t) \/ (o = OParticles s t /\ o' = ODensity (s ++ suffix) t).
Proof. exact names. Qed.

(** ** if no species is called like another one followed by "_particles", every output of a run can be read back after it, from
    whatever the directory held before *)
Theorem C129_kept : forall A (d : folder A) ws, NoDup (map fst ws) -> Forall (fun o => 0 <= step_of o) (map fst ws) -> no_suffix (map fst ws) ->
  forall o v, In (o, v) ws -> read_file A (save_all A d ws) (filename o) = Some v.
Proof.
  intros A d ws N P S o v I. apply (all_kept ws d) with (w := (o, v)); [|exact I]. clear I o v.
  induction ws as [|[o v] ws IH]; [constructor|]. cbn [map fst] in *. inversion N as [|? ? N1 N2]; inversion P as [|? ? P1 P2]; subst. constructor.
  - intro I. apply in_map_iff in I. destruct I as ([o' v'] & E & I). cbn [fst] in E. pose proof (in_map fst _ _ I) as I'. cbn [fst] in I'. rewrite Forall_forall in P2.
    destruct (names o o' P1 (P2 _ I') (eq_sym E)) as [->|(s & t & [[-> ->]|[-> ->]])].
    + contradiction.
    + apply (S s t). split; [left; reflexivity|right; exact I'].
    + apply (S s t). split; [right; exact I'|left; reflexivity].
  - apply IH; [exact N2|exact P2|]. intros s t [I1 I2]. apply (S s t). split; right; assumption.
Qed.
(** a case: fields, densities, particles, a plot and a checkpoint of two steps *)
Definition electron : list Z := [101].
Example C129_case : let ws := [(OFields 100, 1); (ODensity electron 100, 2); (OParticles electron 100, 3); (OPlot 100, 4); (OCheckpoint 100, 5); (OFields 1000000, 6); (OFields 200, 7)] in
  map (fun w => read_file Z (save_all Z [] ws) (filename (fst w))) ws = map Some [1; 2; 3; 4; 5; 6; 7] /\ no_suffix (map fst ws).
Proof.
  split; [vm_compute; reflexivity|]. intros s t [I _]. cbn [map fst In] in I.
  repeat (destruct I as [I|I]; [try discriminate I; injection I as I _; destruct s as [|x [|y s]]; discriminate|]). contradiction.
Qed.

(** ** C130: with any species names some outputs are lost *)
(** two species "e" and "e_particles": the particles of the first are replaced by the density of the second *)
Theorem C130_lost_refuted : forall t, 0 <= t ->
  electron <> electron ++ suffix /\
  forall A (d : folder A) particles density, density <> particles ->
    read_file A (save_all A d [(OParticles electron t, particles); (ODensity (electron ++ suffix) t, density)]) (filename (OParticles electron t)) <> Some particles.
Proof.
  intros t Ht. split; [discriminate|]. intros A d particles density N. unfold save_all. cbn [fold_left]. rewrite particles_as_density.
  rewrite (read_write _ (ODensity (electron ++ suffix) t, density)). cbn [snd]. congruence.
Qed.
(** two callbacks of the same kind in one directory, here for two sets of fields: the first file is replaced *)
Theorem C130_same_kind_refuted : forall A (d : folder A) t first second, second <> first ->
  read_file A (save_all A d [(OFields t, first); (OFields t, second)]) (filename (OFields t)) <> Some first.
Proof. intros A d t first second N. unfold save_all. cbn [fold_left]. rewrite (read_write _ (OFields t, second)). cbn [snd]. congruence. Qed.

Print Assumptions C129_names.
Print Assumptions C129_kept.
Print Assumptions C130_lost_refuted.
Print Assumptions C130_same_kind_refuted.
