(** C33-C35, C42: collision pairing, species pairs, density statistics.  Vocabulary: S_Pairing. *)
From Verif Require Import Base M_Pairing S_Pairing P_Pairing M_Debye S_Debye P_Debye.
From Coq Require Import QArith.
Local Open Scope nat_scope.

(** C33, even number of live particles in the cell: the ends of all pairs are exactly the live slots,
    each once, whatever the shuffle; the ends of a pair differ; weights are not corrected. *)
Theorem C33_even_cell_pairs_everyone_once :
  forall dead start stop idx,
  Permutation idx (seq start (stop - start)) ->
  Nat.even (length (live dead start stop)) = true ->
  let ps := intra_pairs dead start stop idx in
  Permutation (ends ps) (live dead start stop) /\
  (forall p, In p ps -> p_1 p <> p_2 p /\ p_w p = 1%Q /\ p_dt p = length (live dead start stop) - 1).
Proof. exact intra_even_ok. Qed.

(** C33, odd number (at least three): exactly one live particle is used twice; its two pairs are the
    ones with halved weights, so that its weights sum to one. *)
Theorem C33_odd_cell_reuses_one_particle :
  forall dead start stop idx,
  Permutation idx (seq start (stop - start)) ->
  Nat.odd (length (live dead start stop)) = true -> 2 <= length (live dead start stop) ->
  let ps := intra_pairs dead start stop idx in
  exists a, In a (live dead start stop) /\ Permutation (ends ps) (a :: live dead start stop) /\
  (forall p, In p ps -> p_1 p <> p_2 p /\ p_w p = (if has_end a p then (1 # 2)%Q else 1%Q) /\
                        p_dt p = length (live dead start stop)).
Proof. exact intra_odd_ok. Qed.

(** C33: a lonely particle collides with nobody. *)
Theorem C33_single_particle_no_pair :
  forall dead start stop idx, length (live dead start stop) = 1 -> intra_pairs dead start stop idx = [].
Proof. exact intra_single. Qed.

Example ex_C33 :
  let d := [false; true; false; false; true; false; false; false] in
  map (fun p => (p_1 p, p_2 p)) (intra_pairs d 1 8 [4; 7; 1; 2; 6; 3; 5]) = [(7, 2); (6, 3); (5, 7)] /\
  map p_w (intra_pairs d 1 8 [4; 7; 1; 2; 6; 3; 5]) = [1 # 2; 1; 1 # 2]%Q /\
  live d 1 8 = [2; 3; 5; 6; 7].
Proof. vm_compute. repeat split; reflexivity. Qed.

(** C34, species 1 at least as numerous in the cell: every live particle of species 1 collides exactly
    once, only live particles of species 2 take part, each is used n1/n2 or n1/n2+1 times and its
    weight corrections add up to one. *)
Theorem C34_first_species_larger :
  forall dead1 start1 stop1 dead2 start2 stop2 idx,
  Permutation idx (seq start1 (stop1 - start1)) ->
  0 < length (live dead2 start2 stop2) <= length (live dead1 start1 stop1) ->
  let ps := inter_pairs dead1 start1 stop1 dead2 start2 stop2 idx in
  let n1 := length (live dead1 start1 stop1) in let n2 := length (live dead2 start2 stop2) in
  Permutation (map p_1 ps) (live dead1 start1 stop1) /\
  (forall p, In p ps -> In (p_2 p) (live dead2 start2 stop2) /\ p_dt p = n1) /\
  (forall b, In b (live dead2 start2 stop2) ->
     n1 / n2 <= countb (fun p => p_2 p =? b) ps <= n1 / n2 + 1 /\
     (qsum (map p_w (filter (fun p => (p_2 p =? b)%nat) ps)) == 1)%Q).
Proof. exact inter_side1. Qed.

(** C34, species 2 more numerous: the mirror image. *)
Theorem C34_second_species_larger :
  forall dead1 start1 stop1 dead2 start2 stop2 idx,
  Permutation idx (seq start2 (stop2 - start2)) ->
  0 < length (live dead1 start1 stop1) < length (live dead2 start2 stop2) ->
  let ps := inter_pairs dead1 start1 stop1 dead2 start2 stop2 idx in
  let n1 := length (live dead1 start1 stop1) in let n2 := length (live dead2 start2 stop2) in
  Permutation (map p_2 ps) (live dead2 start2 stop2) /\
  (forall p, In p ps -> In (p_1 p) (live dead1 start1 stop1) /\ p_dt p = n2) /\
  (forall a, In a (live dead1 start1 stop1) ->
     n2 / n1 <= countb (fun p => p_1 p =? a) ps <= n2 / n1 + 1 /\
     (qsum (map p_w (filter (fun p => (p_1 p =? a)%nat) ps)) == 1)%Q).
Proof. exact inter_side2. Qed.

(** C34: no pair when one side of the cell is empty. *)
Theorem C34_no_pair_when_one_side_empty :
  forall dead1 start1 stop1 dead2 start2 stop2 idx,
  live dead1 start1 stop1 = [] \/ live dead2 start2 stop2 = [] ->
  inter_pairs dead1 start1 stop1 dead2 start2 stop2 idx = [].
Proof. exact inter_none. Qed.

Example ex_C34 :
  let ps := inter_pairs [true; false; false] 0 3 [false; false; true; false; false; false] 1 6 [3; 5; 2; 4; 1] in
  map (fun p => (p_1 p, p_2 p)) ps = [(1, 3); (2, 5); (1, 4); (2, 1)] /\ map p_w ps = [1 # 2; 1 # 2; 1 # 2; 1 # 2]%Q.
Proof. vm_compute. split; reflexivity. Qed.

(** C35: the list of colliding pairs has no repetition and holds exactly the pairs of species that
    are together in some group, and those with themselves that some group lists twice. *)
Theorem C35_species_pairs :
  forall groups,
  NoDup (collisions groups) /\
  forall a b, In (a, b) (collisions groups) <->
    (a < b /\ exists g, In g groups /\ In a g /\ In b g) \/
    (a = b /\ exists g, In g groups /\ 2 <= count_occ Nat.eq_dec g a).
Proof. exact collisions_spec. Qed.

(** C35: enabling/disabling changes exactly the named pair (in either order of the two species) and
    rejects pairs that do not collide; a step treats exactly the enabled pairs. *)
Theorem C35_enable_disable :
  forall cs en v s1 s2,
  let p := if s1 <? s2 then (s1, s2) else (s2, s1) in
  (In p cs -> exists en', set_enabled cs en v s1 s2 = Some en' /\ en' p = v /\ forall q, q <> p -> en' q = en q) /\
  (~ In p cs -> set_enabled cs en v s1 s2 = None).
Proof. exact set_enabled_spec. Qed.
Theorem C35_step_treats_enabled_pairs :
  forall groups en p, In p (treated (collisions groups) en) <-> In p (collisions groups) /\ en p = true.
Proof. intros groups en p. exact (filter_In en p (collisions groups)). Qed.

Example ex_C35 : collisions [[1; 0; 1]; [0; 2]; [1; 0]] = [(0, 1); (1, 1); (0, 2)].
Proof. reflexivity. Qed.

(** C42 refuted: with the same particles in every step (one cold species, density 1) the screening
    value changes from each step to the next, because the density accumulator is never cleared. *)
Theorem C42_density_history_refuted :
  forall g : Q -> Q,
  (forall x y, (x == y)%Q -> (g x == g y)%Q) -> (forall x y, (0 < x)%Q -> (x < y)%Q -> (g x < g y)%Q) ->
  exists cs, forall k, exists v1 v2,
    c_inv (repeat_steps (S k) (debye_step g cs) debye_init) = Fin v1 /\
    c_inv (repeat_steps (S (S k)) (debye_step g cs) debye_init) = Fin v2 /\ (v1 < v2)%Q.
Proof. exact debye_history_witness. Qed.

(** C42: the density used in step k is k times the density of the cell. *)
Theorem C42_density_grows_linearly_refuted :
  forall g cs k, (c_dens (repeat_steps k (debye_step g cs) debye_init) == inject_Z (Z.of_nat k) * qtot cs)%Q.
Proof. exact dens_grows. Qed.

(** C42 partial: where the unconstrained value does not exceed the limit of the true density, the
    result depends on the particles of the step only.  Missing: cells limited by density. *)
Theorem C42_unconstrained_cells_partial :
  forall g c cs st q,
  (forall x y, (x <= y)%Q -> (g x <= g y)%Q) -> (0 <= c_dens st)%Q ->
  c_inv (accumulate (c :: cs) debye_init) = Fin q -> (q <= g (qtot (c :: cs)))%Q ->
  c_inv (debye_step g (c :: cs) st) = Fin q.
Proof. exact unconstrained. Qed.

Example ex_C42 : c_inv (debye_step (fun n => n) [(Fin (1 # 2), 3%Q); (Fin (1 # 4), 2%Q)] (mkCell Inf 100)) = Fin (6 # 8).
Proof. reflexivity. Qed.

Print Assumptions C33_even_cell_pairs_everyone_once.
Print Assumptions C33_odd_cell_reuses_one_particle.
Print Assumptions C33_single_particle_no_pair.
Print Assumptions C34_first_species_larger.
Print Assumptions C34_second_species_larger.
Print Assumptions C34_no_pair_when_one_side_empty.
Print Assumptions C35_species_pairs.
Print Assumptions C35_enable_disable.
Print Assumptions C35_step_treats_enabled_pairs.
Print Assumptions C42_density_history_refuted.
Print Assumptions C42_density_grows_linearly_refuted.
Print Assumptions C42_unconstrained_cells_partial.
