(** C25, and the deposition part of C24 and C60.  Vocabulary: S_Deposit.

    [fused_deposition_*] is the deposition inside the fused push, [current_deposition_cpu_*] the
    one of the staged push.  Both add to arrays that may already hold something.  Grids are
    periodic index spaces: an array with [n] points per axis, where a negative index counts from
    the end (that is where the guard cells are).  [half = 1/2] is the position at the end of the
    step, [half = -1/2] the one at its start. *)
From Coq Require Import QArith Qabs Lqa.
From Verif Require Import Base M_Deposit S_Deposit.
From Verif Require Import P_Deposit P_Deposit5 P_Deposit8 P_Deposit9.
Local Open Scope nat_scope.
Local Open Scope Q_scope.

(** ** C25: two dimensions *)

(** Every live particle adds its charge with the second-order spline weights of its position at
    the end of the step; dead and undefined particles add nothing. *)
Theorem C25_charge_density_2d : forall G dt q D ps lo len A a b,
  grid2_ok G -> ~ dt == 0 ->
  D = current_deposition_cpu_2d G dt q \/ D = fused_deposition_2d G dt q ->
  (forall p, In p (alive ps) -> slow2 G dt p /\ covers2 G dt lo len p) ->
  (0 <= a < g_nx G)%Z -> (0 <= b < g_ny G)%Z ->
  a_rho (D A ps) (at2 G a b)
  == a_rho A (at2 G a b) + qsum (density2 G dt q lo len (1#2) a b) (alive ps).
Proof.
  intros G dt q D ps lo len A a b GK DT BD H Ha Hb.
  exact (list2_rho G dt q D ps GK DT BD (fun p I => proj1 (H p I)) lo len
           (fun p I => proj2 (H p I)) A a b Ha Hb).
Qed.

(** Change of charge density plus divergence of the current is zero in every cell. *)
Theorem C25_continuity_2d : forall G dt q D ps lo len A a b,
  grid2_ok G -> ~ dt == 0 ->
  D = current_deposition_cpu_2d G dt q \/ D = fused_deposition_2d G dt q ->
  (forall p, In p (alive ps) -> slow2 G dt p /\ covers2 G dt lo len p) ->
  (0 <= a < g_nx G)%Z -> (0 <= b < g_ny G)%Z ->
  let new half := qsum (density2 G dt q lo len half a b) (alive ps) in
  let jx a b := a_jx (D A ps) (at2 G a b) - a_jx A (at2 G a b) in
  let jy a b := a_jy (D A ps) (at2 G a b) - a_jy A (at2 G a b) in
  new (1#2) - new (-1#2)
  + dt * ((jx a b - jx ((a - 1) mod g_nx G)%Z b) / g_dx G
        + (jy a b - jy a ((b - 1) mod g_ny G)%Z) / g_dy G) == 0.
Proof.
  intros G dt q D ps lo len A a b GK DT BD H Ha Hb.
  pose proof (list2_continuity G dt q D ps GK DT BD (fun p I => proj1 (H p I)) lo len
                (fun p I => proj2 (H p I)) A a b Ha Hb) as C.
  cbv zeta in C |- *. exact C.
Qed.

(** The deposited charge and current sum to those of the live particles. *)
Theorem C25_totals_2d : forall G dt q D ps A,
  grid2_ok G -> ~ dt == 0 ->
  D = current_deposition_cpu_2d G dt q \/ D = fused_deposition_2d G dt q ->
  (forall p, In p (alive ps) -> slow2 G dt p) ->
  let sumw (v : part -> Q) := q / (g_dx G * g_dy G) * qsum (fun p => p_w p * v p) (alive ps) in
  total2 G (a_rho (D A ps)) == total2 G (a_rho A) + sumw (fun _ => 1) /\
  total2 G (a_jx (D A ps)) == total2 G (a_jx A) + sumw (fun p => p_ux p * LIGHT_SPEED * p_ig p) /\
  total2 G (a_jy (D A ps)) == total2 G (a_jy A) + sumw (fun p => p_uy p * LIGHT_SPEED * p_ig p) /\
  total2 G (a_jz (D A ps)) == total2 G (a_jz A) + sumw (fun p => p_uz p * LIGHT_SPEED * p_ig p).
Proof. intros G dt q D ps A GK DT BD H. exact (list2_total G dt q D ps GK DT BD H A). Qed.

(** ** C25: three dimensions *)

(** For the staged kernel the window of the old position must stay in the array (it does not
    wrap indices past the upper end); the fused kernel has no such condition. *)
Theorem C25_charge_density_3d : forall G dt q D ps lo len A a b c,
  grid3_ok G -> ~ dt == 0 ->
  (D = current_deposition_cpu_3d G dt q /\ (forall p, In p (alive ps) -> inside3 G dt p))
  \/ D = fused_deposition_3d G dt q ->
  (forall p, In p (alive ps) -> slow3 G dt p /\ covers3 G dt lo len p) ->
  (0 <= a < h_nx G)%Z -> (0 <= b < h_ny G)%Z -> (0 <= c < h_nz G)%Z ->
  a_rho (D A ps) (at3 G a b c)
  == a_rho A (at3 G a b c) + qsum (density3 G dt q lo len (1#2) a b c) (alive ps).
Proof.
  intros G dt q D ps lo len A a b c GK DT BD H Ha Hb Hc.
  exact (list3_rho G dt q D ps GK DT BD (fun p I => proj1 (H p I)) lo len
           (fun p I => proj2 (H p I)) A a b c Ha Hb Hc).
Qed.

Theorem C25_continuity_3d : forall G dt q D ps lo len A a b c,
  grid3_ok G -> ~ dt == 0 ->
  (D = current_deposition_cpu_3d G dt q /\ (forall p, In p (alive ps) -> inside3 G dt p))
  \/ D = fused_deposition_3d G dt q ->
  (forall p, In p (alive ps) -> slow3 G dt p /\ covers3 G dt lo len p) ->
  (0 <= a < h_nx G)%Z -> (0 <= b < h_ny G)%Z -> (0 <= c < h_nz G)%Z ->
  let new half := qsum (density3 G dt q lo len half a b c) (alive ps) in
  let j (f : arrays -> Z -> Q) a b c := f (D A ps) (at3 G a b c) - f A (at3 G a b c) in
  new (1#2) - new (-1#2)
  + dt * ((j a_jx a b c - j a_jx ((a - 1) mod h_nx G)%Z b c) / h_dx G
        + (j a_jy a b c - j a_jy a ((b - 1) mod h_ny G)%Z c) / h_dy G
        + (j a_jz a b c - j a_jz a b ((c - 1) mod h_nz G)%Z) / h_dz G) == 0.
Proof.
  intros G dt q D ps lo len A a b c GK DT BD H Ha Hb Hc.
  pose proof (list3_continuity G dt q D ps GK DT BD (fun p I => proj1 (H p I)) lo len
                (fun p I => proj2 (H p I)) A a b c Ha Hb Hc) as C.
  cbv zeta in C |- *. exact C.
Qed.

Theorem C25_totals_3d : forall G dt q D ps A,
  grid3_ok G -> ~ dt == 0 ->
  (D = current_deposition_cpu_3d G dt q /\ (forall p, In p (alive ps) -> inside3 G dt p))
  \/ D = fused_deposition_3d G dt q ->
  (forall p, In p (alive ps) -> slow3 G dt p) ->
  let sumw (v : part -> Q) := q / (h_dx G * h_dy G * h_dz G) * qsum (fun p => p_w p * v p) (alive ps) in
  total3 G (a_rho (D A ps)) == total3 G (a_rho A) + sumw (fun _ => 1) /\
  total3 G (a_jx (D A ps)) == total3 G (a_jx A) + sumw (fun p => p_ux p * LIGHT_SPEED * p_ig p) /\
  total3 G (a_jy (D A ps)) == total3 G (a_jy A) + sumw (fun p => p_uy p * LIGHT_SPEED * p_ig p) /\
  total3 G (a_jz (D A ps)) == total3 G (a_jz A) + sumw (fun p => p_uz p * LIGHT_SPEED * p_ig p).
Proof. intros G dt q D ps A GK DT BD H. exact (list3_total G dt q D ps GK DT BD H A). Qed.

(** The weights are a partition of unity: no charge is lost or invented, wherever the particle is. *)
Theorem C25_weights_sum_to_one : forall n X lo len,
  (0 < n)%Z -> covers lo len X -> qsum (fun a => share n a X lo len) (points n) == 1.
Proof. exact share_total. Qed.

(** ** C24, C60: the fused deposition equals the staged one *)

Theorem C24_same_deposit_2d : forall G dt q ps A B,
  ~ dt == 0 -> ~ g_dx G == 0 -> ~ g_dy G == 0 ->
  (forall z, a_jx A z == a_jx B z /\ a_jy A z == a_jy B z /\ a_jz A z == a_jz B z /\ a_rho A z == a_rho B z) ->
  let F := fused_deposition_2d G dt q A ps in
  let T := current_deposition_cpu_2d G dt q B ps in
  forall z, a_jx F z == a_jx T z /\ a_jy F z == a_jy T z /\ a_jz F z == a_jz T z /\ a_rho F z == a_rho T z.
Proof. intros G dt q ps A B DT DX DY S. exact (fused_same G dt q ps DT DX DY A B S). Qed.

Theorem C60_same_deposit_3d_partial : forall G dt q ps A,
  grid3_ok G -> ~ dt == 0 ->
  (forall p, In p (alive ps) -> slow3 G dt p /\ inside3 G dt p) ->
  let F := fused_deposition_3d G dt q A ps in
  let T := current_deposition_cpu_3d G dt q A ps in
  forall a b c, (0 <= a < h_nx G)%Z -> (0 <= b < h_ny G)%Z -> (0 <= c < h_nz G)%Z ->
  let z := at3 G a b c in
  a_jx F z == a_jx T z /\ a_jy F z == a_jy T z /\ a_jz F z == a_jz T z /\ a_rho F z == a_rho T z.
Proof.
  intros G dt q ps A GK DT H. apply fused_same3; auto.
  intros a b c _ _ _. repeat split; reflexivity.
Qed.

(** ** Cases meeting the hypotheses *)

Definition ex_G2 : grid2 := {| g_nx := 9; g_ny := 8; g_dx := 299792458; g_dy := 299792458 * 2; g_x0 := 0; g_y0 := 0 |}.
(** Crosses a cell boundary in x during the step (from 0.3 to 0.9 cells), moves down in y. *)
Definition ex_p : part :=
  {| p_x := 299792458 * (3#5); p_y := 0; p_z := 299792458 * (2#1); p_ux := 3#5; p_uy := -1#2; p_uz := 1#4; p_ig := 1;
     p_w := 2; p_dead := false; p_nan := false |}.
Definition ex_dead : part :=
  {| p_x := 0; p_y := 0; p_z := 0; p_ux := 9; p_uy := 0; p_uz := 0; p_ig := 1; p_w := 2; p_dead := true; p_nan := false |}.
Definition ex_zero : arrays :=
  {| a_jx := fun _ => 0; a_jy := fun _ => 0; a_jz := fun _ => 0; a_rho := fun _ => 0 |}.

Ltac qdec := vm_compute; (repeat split); try discriminate; try reflexivity; try (intro; discriminate).

Example ex_C25_2d :
  grid2_ok ex_G2 /\ alive [ex_p; ex_dead] = [ex_p] /\ slow2 ex_G2 1 ex_p /\ covers2 ex_G2 1 (-4) 10 ex_p /\
  (Qred (X2 ex_G2 1 (-1#2) ex_p), Qred (X2 ex_G2 1 (1#2) ex_p)) = (3#10, 9#10) /\
  ~ a_jx (current_deposition_cpu_2d ex_G2 1 1 ex_zero [ex_p; ex_dead]) (at2 ex_G2 0 0) == 0 /\
  ~ a_rho (fused_deposition_2d ex_G2 1 1 ex_zero [ex_p; ex_dead]) (at2 ex_G2 1 7) == 0.
Proof.
  split; [qdec|]. split; [reflexivity|]. split; [qdec|].
  split; [intros half [-> | ->]; qdec|]. split; [reflexivity|]. split; qdec.
Qed.

Definition ex_G3 : grid3 :=
  {| h_nx := 9; h_ny := 8; h_nz := 10; h_dx := 299792458; h_dy := 299792458 * 2; h_dz := 299792458; h_x0 := 0; h_y0 := 0; h_z0 := 0 |}.

Example ex_C25_3d :
  grid3_ok ex_G3 /\ slow3 ex_G3 1 ex_p /\ covers3 ex_G3 1 (-4) 10 ex_p /\ inside3 ex_G3 1 ex_p /\
  (Qred (Z3 ex_G3 1 (-1#2) ex_p), Qred (Z3 ex_G3 1 (1#2) ex_p)) = (15#8, 17#8).
Proof.
  split; [qdec|]. split; [qdec|]. split; [intros half [-> | ->]; qdec|]. split; [qdec|]. reflexivity.
Qed.

Print Assumptions C25_charge_density_2d. Print Assumptions C25_continuity_2d. Print Assumptions C25_totals_2d.
Print Assumptions C25_charge_density_3d. Print Assumptions C25_continuity_3d. Print Assumptions C25_totals_3d.
Print Assumptions C25_weights_sum_to_one. Print Assumptions C24_same_deposit_2d. Print Assumptions C60_same_deposit_3d_partial.
