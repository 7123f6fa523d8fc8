(** C128: the deposition writes and the interpolation reads only inside the arrays of a patch. *)
From Coq Require Import QArith Qround Qabs Lqa.
From Verif Require Import Base M_Deposit S_Deposit M_Push S_Push S_Bounds P_Deposit P_Interp P_Bounds Properties_Push.
Local Open Scope list_scope.
Local Open Scope Z_scope.

(** ** both 2D kernels, wherever the particles are and however fast *)
Theorem C128_deposit_2d : forall G dt q A ps, 0 < g_nx G -> 0 < g_ny G ->
  only_inside (g_nx G * g_ny G) A (current_deposition_cpu_2d G dt q A ps) /\ only_inside (g_nx G * g_ny G) A (fused_deposition_2d G dt q A ps).
Proof.
  intros G dt q A ps H1 H2. split.
  - apply (inside_all _ _ (fun _ => True)); [|auto]. intros A' p _. apply deposit_2d_inside; assumption.
  - apply (inside_all _ _ (fun _ => True)); [|auto]. intros A' p _. apply deposit_2d_fast_inside; assumption.
Qed.
(** ** the fused 3D kernel, wherever the particles are and however fast *)
Theorem C128_deposit_3d_fused : forall G dt q A ps, 2 <= h_nx G -> 2 <= h_ny G -> 2 <= h_nz G ->
  only_inside (h_nx G * h_ny G * h_nz G) A (fused_deposition_3d G dt q A ps).
Proof.
  intros G dt q A ps H1 H2 H3. apply (inside_all _ _ (fun _ => True)); [|auto]. intros A' p _. apply deposit_3d_fast_inside; assumption.
Qed.
(** ** the staged 3D kernel, for particles in the cells of their patch (the staged 3D push leaves them there, C60) that are not
    faster than a cell per step; one guard cell on each side is enough *)
Theorem C128_deposit_3d : forall G n m l ng dt q A ps, (0 < h_dx G)%Q -> (0 < h_dy G)%Q -> (0 < h_dz G)%Q -> 1 <= n -> 1 <= m -> 1 <= l -> 1 <= ng ->
  h_nx G = n + 2 * ng -> h_ny G = m + 2 * ng -> h_nz G = l + 2 * ng ->
  (forall p, In p ps -> p_dead p = false -> p_nan p = false -> ready_3d G n m l dt p) ->
  only_inside (h_nx G * h_ny G * h_nz G) A (current_deposition_cpu_3d G dt q A ps).
Proof.
  intros G n m l ng dt q A ps D1 D2 D3 N1 N2 N3 Hg E1 E2 E3 H. apply (inside_all _ _ (ready_3d G n m l dt)); [|exact H]. intros A' p R.
  apply (deposit_3d_inside G n m l); try assumption; lia.
Qed.
(** ** the local arrays of five shape factors are long enough: the nearest grid point changes by at most one *)
Theorem C128_five_are_enough : forall (dx dt v x0 x : Q) k, (0 < dx)%Q -> at_most_a_cell dx dt v ->
  let i0 := Qfloor ((x - v * (1#2) * dt - x0) / dx + (1#2)) in let i1 := Qfloor ((x + v * (1#2) * dt - x0) / dx + (1#2)) in
  -1 <= i1 - i0 <= 1 /\ (In k (loop_range_staged (i1 - i0)) -> (k < 5)%nat) /\ (In k (loop_range (i1 - i0)) -> (k < 5)%nat).
Proof.
  intros dx dt v x0 x k D V i0 i1. unfold at_most_a_cell in V. apply Qabs_Qle_condition in V. destruct V as [V1 V2].
  assert ((x + v * (1#2) * dt - x0) / dx - (x - v * (1#2) * dt - x0) / dx == v * dt / dx)%Q as E3 by (field; lra).
  assert (-1 <= v * dt / dx)%Q as W1 by (apply Qle_shift_div_l; [exact D|lra]). assert (v * dt / dx <= 1)%Q as W2 by (apply Qle_shift_div_r; [exact D|lra]).
  rewrite <- E3 in W1, W2. pose proof (floor_change _ _ W1 W2) as FC. fold i0 in FC. fold i1 in FC. clearbody i0 i1. split; [exact FC|]. split; intro I.
  - apply (staged_range _ _ FC) in I. apply I.
  - unfold loop_range in I. destruct (i1 - i0 <? 0), (0 <? i1 - i0); apply in_seq in I; cbn in I; lia.
Qed.

(** ** reads of the six fields: positions that a particle reaches within half a step *)
Lemma reach_div n (dx x0 x : Q) : (0 < dx)%Q -> half_a_step n dx x0 x -> (-1 <= (x - x0) / dx /\ (x - x0) / dx <= inject_Z n)%Q.
Proof. intros D [H1 H2]. split; [apply Qle_shift_div_l|apply Qle_shift_div_r]; lra. Qed.
Theorem C128_reads_2d : forall G n m ng F x y, (0 < g_dx G)%Q -> (0 < g_dy G)%Q -> 0 <= n -> 0 <= m -> 1 <= ng -> g_nx G = n + 2 * ng -> g_ny G = m + 2 * ng ->
  sizes (g_nx G * g_ny G) F -> half_a_step n (g_dx G) (g_x0 G) x -> half_a_step m (g_dy G) (g_y0 G) y ->
  interpolation_2d G F x y <> None /\ interpolation_fused_2d G F x y <> None.
Proof.
  intros G n m ng F x y D1 D2 N1 N2 Hg E1 E2 S X Y. rewrite C26_fused_is_staged_2d.
  destruct (reach_div n _ _ _ D1 X) as [X1 X2]. destruct (reach_div m _ _ _ D2 Y) as [Y1 Y2].
  destruct (interp_mean_2d (g_nx G) (g_ny G) F _ _ S (stencil n (g_nx G) _ N1 ltac:(lia) X1 X2) (stencil m (g_ny G) _ N2 ltac:(lia) Y1 Y2)) as (v & E & _).
  unfold interpolation_2d. rewrite E. split; discriminate.
Qed.
Theorem C128_reads_3d : forall G n m l ng F x y z, (0 < h_dx G)%Q -> (0 < h_dy G)%Q -> (0 < h_dz G)%Q -> 0 <= n -> 0 <= m -> 0 <= l -> 1 <= ng ->
  h_nx G = n + 2 * ng -> h_ny G = m + 2 * ng -> h_nz G = l + 2 * ng ->
  sizes (h_nx G * h_ny G * h_nz G) F -> half_a_step n (h_dx G) (h_x0 G) x -> half_a_step m (h_dy G) (h_y0 G) y -> half_a_step l (h_dz G) (h_z0 G) z ->
  interpolation_3d G F x y z <> None /\ interpolation_fused_3d G F x y z <> None.
Proof.
  intros G n m l ng F x y z D1 D2 D3 N1 N2 N3 Hg E1 E2 E3 S X Y Z0. rewrite C26_fused_is_staged_3d.
  destruct (reach_div n _ _ _ D1 X) as [X1 X2]. destruct (reach_div m _ _ _ D2 Y) as [Y1 Y2]. destruct (reach_div l _ _ _ D3 Z0) as [Z1 Z2].
  destruct (interp_mean_3d (h_nx G) (h_ny G) (h_nz G) F _ _ _ S (stencil n (h_nx G) _ N1 ltac:(lia) X1 X2) (stencil m (h_ny G) _ N2 ltac:(lia) Y1 Y2) (stencil l (h_nz G) _ N3 ltac:(lia) Z1 Z2)) as (v & E & _).
  unfold interpolation_3d. rewrite E. split; discriminate.
Qed.

(** ** a case: a 2 x 2 x 2 patch with one guard cell and a particle at its corner moving out along all axes *)
Definition small : grid3 := {| h_nx := 4; h_ny := 4; h_nz := 4; h_dx := 1; h_dy := 1; h_dz := 1; h_x0 := 0; h_y0 := 0; h_z0 := 0 |}.
Definition mover_at (x : Q) : part := {| p_x := x; p_y := 1; p_z := 1; p_ux := 1; p_uy := 1; p_uz := 1; p_ig := 1 # 2; p_w := 1; p_dead := false; p_nan := false |}.
Definition tick : Q := 1 # 299792458.
Example C128_case : ready_3d small 2 2 2 tick (mover_at (3#2)) /\
  only_inside 64 reset_current (current_deposition_cpu_3d small tick 1 reset_current [mover_at (3#2)]).
Proof.
  assert (ready_3d small 2 2 2 tick (mover_at (3#2))) as R.
  { unfold ready_3d, in_patch_cells, at_most_a_cell. repeat split; vm_compute; discriminate. }
  split; [exact R|].
  apply (C128_deposit_3d small 2 2 2 1); [reflexivity|reflexivity|reflexivity|lia|lia|lia|lia|reflexivity|reflexivity|reflexivity|].
  intros p [<-|[]] _ _. exact R.
Qed.
(** the staged 3D kernel does need the particle to be in its cells: a resting one further out is written after the end of the array *)
Definition rester_at (x : Q) : part := {| p_x := x; p_y := 1; p_z := 1; p_ux := 0; p_uy := 0; p_uz := 0; p_ig := 1; p_w := 1; p_dead := false; p_nan := false |}.
Example C128_reach_needed : ~ (a_rho (current_deposition_cpu_3d small 1 1 reset_current [rester_at 3]) 69 == 0)%Q.
Proof. vm_compute. discriminate. Qed.

Print Assumptions C128_deposit_2d.
Print Assumptions C128_deposit_3d_fused.
Print Assumptions C128_deposit_3d.
Print Assumptions C128_five_are_enough.
Print Assumptions C128_reads_2d.
Print Assumptions C128_reads_3d.
