(** C36: binary collisions.  Vocabulary: S_Collision, S_Push ([gamma], [vadd], [vscale], [norm2]), S_Pairing ([live]).
    Numbers are reals; momenta are in units of m c, energies in units of m c^2. *)
From Coq Require Import QArith Reals Qreals Lra.
From Verif Require Import Base M_Push S_Push P_Boris M_Pairing S_Pairing M_Collision S_Collision P_Collision P_Collision2 P_Collision3.
Local Open Scope R_scope.

(** One collision of two particles of the same weight, whatever their masses, charges, momenta, the Coulomb logarithm
    (given, or computed when not positive), the corrections of the pairing and the random numbers: total momentum and
    total energy are kept, weights are kept, and the stored inverse gammas are those of the stored momenta. *)
Theorem C36_collision_conserves :
  forall c epsilon_0 h m1 q1 m2 q2 lnLambda debye dt_corr w_corr cell_vol dt a b rnd,
  0 < c -> 0 < epsilon_0 -> 0 < m1 -> 0 < m2 -> 0 < cell_vol -> 0 <= dt -> 0 <= dt_corr -> 0 < w_corr ->
  0 < c_w a -> 0 < c_w b -> random_ok rnd -> consistent a -> consistent b -> c_w a = c_w b ->
  let '(a', b') := collision_kernel c epsilon_0 h m1 q1 m2 q2 lnLambda debye dt_corr w_corr cell_vol dt rnd a b in
  consistent a' /\ consistent b' /\ c_w a' = c_w a /\ c_w b' = c_w b /\
  vadd (momentum m1 a') (momentum m2 b') = vadd (momentum m1 a) (momentum m2 b) /\
  energy m1 a' + energy m2 b' = energy m1 a + energy m2 b.
Proof.
  intros c e h m1 q1 m2 q2 lam deb dtc wc vol dt a b rnd C E M1 M2 V D DC W WA WB RO CA CB.
  exact (kernel_conserves c e h C E m1 q1 m2 q2 lam deb dtc wc vol dt a b rnd M1 M2 V D DC W WA WB RO CA CB).
Qed.

(** Different weights: there is an elastic scattering [ua], [ub] of the two (physical) particles, and the last random
    number decides who takes its new momentum: each takes it with a probability proportional to the weight of the
    other one, so that the expected change of the weighted momentum vanishes. *)
Theorem C36_unequal_weights :
  forall c epsilon_0 h m1 q1 m2 q2 lnLambda debye dt_corr w_corr cell_vol dt a b rnd,
  0 < c -> 0 < epsilon_0 -> 0 < m1 -> 0 < m2 -> 0 < cell_vol -> 0 <= dt -> 0 <= dt_corr -> 0 < w_corr ->
  0 < c_w a -> 0 < c_w b -> random_ok rnd -> consistent a -> consistent b ->
  exists ua ub,
  vadd (vscale m1 ua) (vscale m2 ub) = vadd (vscale m1 (c_u a)) (vscale m2 (c_u b)) /\
  m1 * gamma ua + m2 * gamma ub = m1 * gamma (c_u a) + m2 * gamma (c_u b) /\
  let '(a', b') := collision_kernel c epsilon_0 h m1 q1 m2 q2 lnLambda debye dt_corr w_corr cell_vol dt rnd a b in
  consistent a' /\ consistent b' /\ c_w a' = c_w a /\ c_w b' = c_w b /\
  c_u a' = (if Rlt_dec (snd rnd) (c_w b / Rmax (c_w a) (c_w b)) then ua else c_u a) /\
  c_u b' = (if Rlt_dec (snd rnd) (c_w a / Rmax (c_w a) (c_w b)) then ub else c_u b).
Proof.
  intros c e h m1 q1 m2 q2 lam deb dtc wc vol dt a b rnd C E M1 M2 V D DC W WA WB RO CA CB.
  exact (kernel_scatters c e h C E m1 q1 m2 q2 lam deb dtc wc vol dt a b rnd M1 M2 V D DC W WA WB RO CA CB).
Qed.

(** The collisions of a cell within one species, with the pairs its iterator makes for any shuffle and any random
    numbers: total momentum and energy of the species are kept, no slot other than the live ones of the cell changes. *)
Theorem C36_cell_within_species :
  forall c epsilon_0 h m q lnLambda debye cell_vol dt w dead start stop idx rnds ps,
  0 < c -> 0 < epsilon_0 -> 0 < m -> 0 < cell_vol -> 0 <= dt -> 0 < w ->
  Permutation idx (seq start (stop - start)) -> Forall random_ok rnds ->
  all_good w (fun i => In i (live dead start stop)) ps ->
  let ps' := intra_cell c epsilon_0 h m q lnLambda debye cell_vol dt dead start stop idx rnds ps in
  all_good w (fun i => In i (live dead start stop)) ps' /\
  total_momentum m ps' = total_momentum m ps /\ total_energy m ps' = total_energy m ps /\
  length ps' = length ps /\ (forall i, ~ In i (live dead start stop) -> nth_error ps' i = nth_error ps i).
Proof. intros c e h m q lam deb vol dt w dead a b idx rnds ps C E. exact (intra_all c e h C E m q lam deb vol dt w dead a b idx rnds ps). Qed.

(** The same between two species (the iterator shuffles the more numerous one). *)
Theorem C36_cell_between_species :
  forall c epsilon_0 h m1 q1 m2 q2 lnLambda debye cell_vol dt w d1 a1 b1 d2 a2 b2 idx rnds ps,
  0 < c -> 0 < epsilon_0 -> 0 < m1 -> 0 < m2 -> 0 < cell_vol -> 0 <= dt -> 0 < w ->
  Permutation idx (if (length (live d2 a2 b2) <=? length (live d1 a1 b1))%nat then seq a1 (b1 - a1) else seq a2 (b2 - a2)) ->
  Forall random_ok rnds ->
  all_good w (fun i => In i (live d1 a1 b1)) (fst ps) -> all_good w (fun i => In i (live d2 a2 b2)) (snd ps) ->
  let ps' := inter_cell c epsilon_0 h m1 q1 m2 q2 lnLambda debye cell_vol dt d1 a1 b1 d2 a2 b2 idx rnds ps in
  all_good w (fun i => In i (live d1 a1 b1)) (fst ps') /\ all_good w (fun i => In i (live d2 a2 b2)) (snd ps') /\
  vadd (total_momentum m1 (fst ps')) (total_momentum m2 (snd ps')) = vadd (total_momentum m1 (fst ps)) (total_momentum m2 (snd ps)) /\
  total_energy m1 (fst ps') + total_energy m2 (snd ps') = total_energy m1 (fst ps) + total_energy m2 (snd ps) /\
  (length (fst ps') = length (fst ps) /\ length (snd ps') = length (snd ps)) /\
  (forall i, ~ In i (live d1 a1 b1) -> nth_error (fst ps') i = nth_error (fst ps) i) /\
  (forall i, ~ In i (live d2 a2 b2) -> nth_error (snd ps') i = nth_error (snd ps) i).
Proof.
  intros c e h m1 q1 m2 q2 lam deb vol dt w d1 a1 b1 d2 a2 b2 idx rnds ps C E.
  exact (inter_all c e h C E m1 q1 m2 q2 lam deb vol dt w d1 a1 b1 d2 a2 b2 idx rnds ps).
Qed.

(** The scattering angle: for every path length and every random number its sine squared of the half angle lies
    between 0 and 1, so that cosine and sine belong to an angle. *)
Theorem C36_angle_well_defined :
  forall s U, 0 <= s -> 0 <= U < 1 ->
  (s < 4 -> 0 <= sin2X2 s U <= 1) /\ let '(co, si) := scattering_angle s U in co * co + si * si = 1.
Proof. intros s U S UU. split; [intro L; now apply sin2_range|exact (angle_unit s U S UU)]. Qed.


(** C36: the scattering angle is the angle between the old and the new centre-of-mass momentum, for momenta that are
    not along the z axis (see C61). *)
Theorem C36_turned_by_the_angle :
  forall p_v p p_perp co si phi,
  p_perp = (let '(x, y, _) := p_v in sqrt (x * x + y * y)) -> / 10000000000 * p < p_perp -> 0 <= p ->
  dot p_v (rotate_momentum p_v p p_perp co si phi) = co * norm2 p_v.
Proof. exact rotate_dot. Qed.

(** A collision that meets the hypotheses and does something: two charged particles reflected. *)
Example ex_C36 :
  let a := {| c_u := (3 / 4, 0, 0); c_ig := 4 / 5; c_w := 2 |} in let b := {| c_u := (- (3 / 4), 0, 0); c_ig := 4 / 5; c_w := 2 |} in
  consistent a /\ consistent b /\
  c_u (fst (collision_kernel 1 1 1 1 1 1 1 10 0 1 1 (/ 100) 1 (0, 0, 1 / 2) a b)) = (- (3 / 4), 0, 0).
Proof. exact charged_reflect. Qed.
Example ex_C36_cell :
  all_good 2 (fun i => In i (live [false; true; false; false] 0 4))
    [{| c_u := (3 / 4, 0, 0); c_ig := 4 / 5; c_w := 2 |}; {| c_u := (0, 0, 0); c_ig := 77; c_w := -1 |};
     {| c_u := (0, 3 / 4, 0); c_ig := 4 / 5; c_w := 2 |}; {| c_u := (0, 0, 0); c_ig := 1; c_w := 2 |}] /\
  map (fun j => (j_1 j, j_2 j, j_w j)) (jobs_of (intra_pairs [false; true; false; false] 0 4 [2; 1; 3; 0]%nat) [(0, 0, 0); (1 / 2, 1, 1 / 3)]) =
  map (fun p => (p_1 p, p_2 p, Q2R (p_w p))) [mkPair 2 3 (1 # 2) 3; mkPair 0 2 (1 # 2) 3].
Proof.
  split.
  - assert (sqrt (1 + 9 / 16) = 5 / 4) as S by (apply sqrt_is; lra).
    intros i a U E. cbn in U. destruct U as [<-|[<-|[<-|[]]]]; cbn [nth_error] in E; injection E as <-; split; try reflexivity;
      unfold consistent, gamma; cbn [c_u c_ig norm2].
    + rewrite (sqrt_is _ (5 / 4)); lra.
    + rewrite (sqrt_is _ (5 / 4)); lra.
    + rewrite (sqrt_is _ 1); lra.
  - reflexivity.
Qed.

(** C61, along the z axis: the angle is kept for a momentum along +z, but a momentum along -z is turned by pi minus
    the angle.  What is missing for a full proof: the code takes the direction of such a momentum to be +z. *)
Theorem C61_turned_by_the_angle_along_plus_z_partial :
  forall z p co si phi, p = Rabs z -> 0 <= z ->
  dot (0, 0, z) (rotate_momentum (0, 0, z) p 0 co si phi) = co * norm2 (0, 0, z).
Proof.
  intros z p co si phi P Z. rewrite (rotate_dot_axis z p co si phi P). destruct (Rle_dec 0 z); [ring|contradiction].
Qed.
Theorem C61_turned_the_other_way_along_minus_z_refuted :
  forall z p co si phi, p = Rabs z -> z < 0 ->
  dot (0, 0, z) (rotate_momentum (0, 0, z) p 0 co si phi) = - (co * norm2 (0, 0, z)).
Proof.
  intros z p co si phi P Z. rewrite (rotate_dot_axis z p co si phi P). destruct (Rle_dec 0 z); [lra|ring].
Qed.
(** C61: without interaction the centre-of-mass momentum is kept (again unless it is along -z). *)
Theorem C61_neutral_particles_pass_partial :
  forall c epsilon_0 d cell_vol dt lnLambda U phi,
  d_q1 d * d_q2 d = 0 -> 0 <= U < 1 ->
  / 10000000000 * d_p1_com d < d_p_perp d \/ (exists z, d_p1_com_v d = (0, 0, z) /\ d_p1_com d = z) ->
  coulomb_scattering c epsilon_0 d cell_vol dt lnLambda U phi = d_p1_com_v d.
Proof. exact neutral_keeps. Qed.
(** C61, witness: two particles without charge that meet along z bounce back. *)
Theorem C61_neutral_particles_bounce_refuted :
  let a := {| c_u := (0, 0, - (3 / 4)); c_ig := 4 / 5; c_w := 2 |} in let b := {| c_u := (0, 0, 3 / 4); c_ig := 4 / 5; c_w := 2 |} in
  consistent a /\ consistent b /\
  c_u (fst (collision_kernel 1 1 1 1 0 1 0 10 0 1 1 1 1 (1 / 2, 0, 1 / 2) a b)) = (0, 0, 3 / 4).
Proof. exact neutral_bounce. Qed.

Print Assumptions C36_collision_conserves.
Print Assumptions C36_unequal_weights.
Print Assumptions C36_cell_within_species.
Print Assumptions C36_cell_between_species.
Print Assumptions C36_angle_well_defined.
Print Assumptions C36_turned_by_the_angle.
Print Assumptions C61_turned_by_the_angle_along_plus_z_partial.
Print Assumptions C61_turned_the_other_way_along_minus_z_refuted.
Print Assumptions C61_neutral_particles_pass_partial.
Print Assumptions C61_neutral_particles_bounce_refuted.
