(** C40 (initial filling), C71 (empty cells, momentum profile).  Closed under the global context. *)
From Verif Require Import Base M_Fill S_Fill P_Fill.
From Coq Require Import QArith.
Local Open Scope nat_scope.
Local Open Scope list_scope.

(** The number of particles allocated is the number written; the arrays are cut into one block per cell, of the length asked
    for, with positions inside of the cell and equal weights. *)
Theorem C40_filling :
  forall density density_min ppc_func rand ds axes,
  let dense := dense density density_min in let ppc := ppc ppc_func in let n := asked dense ppc in
  (forall i, (0 <= rand i)%Q /\ (rand i < 1)%Q) ->
  Forall (fun d => 0 < d)%Q ds -> length axes = length ds -> populated dense ppc axes ->
  exists pos w, create density density_min ppc_func rand ds axes = Ok (pos, w)
    /\ num_macro density density_min ppc_func axes = Z.of_nat (list_sum (map n (cells axes)))
    /\ length pos = length ds /\ length w = list_sum (map n (cells axes))
    /\ (forall k d a, nth_error ds k = Some d -> nth_error pos k = Some a ->
          length a = length w /\ by_cell n (in_cell k d) (cells axes) a)
    /\ by_cell n (weight density ppc ds) (cells axes) w.
Proof. intros. apply create_ok; assumption. Qed.
Print Assumptions C40_filling.

(** The weights of a cell sum to density times volume, hence those of the patch to the particles of its dense cells. *)
Theorem C40_weights :
  forall density density_min ppc_func rand ds axes,
  let dense := dense density density_min in let ppc := ppc ppc_func in let n := asked dense ppc in
  (forall i, (0 <= rand i)%Q /\ (rand i < 1)%Q) ->
  Forall (fun d => 0 < d)%Q ds -> length axes = length ds -> populated dense ppc axes ->
  (forall c b, In c (cells axes) -> length b = n c -> Forall (weight density ppc ds c) b ->
     (total b == real_particles density dense ds c)%Q) /\
  exists pos w, create density density_min ppc_func rand ds axes = Ok (pos, w)
    /\ (total w == total (map (real_particles density dense ds) (cells axes)))%Q.
Proof.
  intros density density_min ppc_func rand ds axes dense ppc n H1 H2 H3 H4. split.
  - intros c b Hc. apply cell_total. apply H4, Hc.
  - destruct (create_ok density density_min ppc_func rand H1 ds axes H2 H3 H4) as [pos [w [E1 [_ [_ [_ [_ E2]]]]]]].
    exists pos, w. split; [exact E1|]. apply (all_total density density_min ppc_func ds _ w H4 E2).
Qed.
Print Assumptions C40_weights.

(** three cells along x, two along y; two particles in each cell with density above the threshold *)
Definition demo_axes : list (list Q) := [[0; 1; 2]; [0; 1]]%Q.
Definition demo_density (c : cell) : Q := nth 0 c 0%Q.
Example C40_example :
  populated (dense demo_density 0) (ppc (fun _ => 2%Q)) demo_axes /\
  match create demo_density 0 (fun _ => 2%Q) (fun i => (1 # 2)%Q) [1; 1]%Q demo_axes with
  | Ok (pos, w) => (map (map Qred) pos, map Qred w)
  | Raise _ => ([], [])
  end = ([[1; 1; 1; 1; 2; 2; 2; 2]; [0; 0; 1; 1; 0; 0; 1; 1]], [1#2; 1#2; 1#2; 1#2; 1; 1; 1; 1])%Q.
Proof. split; [intros c _ _; vm_compute; discriminate|vm_compute; reflexivity]. Qed.

(** C71 fails: a dense cell without particles (the default of ppc) divides by zero, and the momentum profile has no effect. *)
Theorem C71_zero_particles_refuted :
  forall density density_min rand ds x y, length ds = 2 -> dense density density_min [x; y] = true ->
  create density density_min (fun _ => 0%Q) rand ds [[x]; [y]] = Raise ZeroDivision.
Proof.
  intros density density_min rand ds x y Hl H. destruct ds as [|d1 [|d2 [|d3 ds]]]; try discriminate Hl.
  unfold create, num_macro, fill. cbn [cells flat_map map app fold_left]. rewrite H. cbn [ppc]. change (Z.quot (Qnum 0) (QDen 0)) with 0%Z.
  cbn [Z.add Z.ltb Z.compare Z.to_nat repeat bind]. unfold fill_cell. rewrite H. reflexivity.
Qed.
Print Assumptions C71_zero_particles_refuted.
Theorem C71_momentum_profile_refuted :
  forall density density_min ppc_func rand momentum ds axes pos w u,
  create_species density density_min ppc_func rand momentum ds axes = Ok (pos, w, u) -> Forall (fun x => x = 0%Q) u.
Proof.
  intros density density_min ppc_func rand momentum ds axes pos w u H. unfold create_species in H.
  destruct (create density density_min ppc_func rand ds axes) as [[p v]|e]; [|discriminate H]. cbn [bind] in H.
  assert (u = repeat 0%Q (length v)) by congruence. subst u. apply Forall_forall. intros x Hx. exact (repeat_spec _ _ _ Hx).
Qed.
Print Assumptions C71_momentum_profile_refuted.
