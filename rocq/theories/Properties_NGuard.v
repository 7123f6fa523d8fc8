(** The number of guard cells. *)
From Coq Require Import QArith Qabs Qcanon Permutation.
From Verif Require Import Base M_Layout S_Layout M_PartSync S_PartSync M_FieldSync S_FieldSync M_Maxwell S_Maxwell M_Deposit M_Push P_Layout P_PartSync P_PartSync3 P_FieldGeo Properties_FieldSync Properties_Maxwell M_Step S_Step S_Gauss P_Step1 P_Step2 P_Step5 P_Step6 P_Step7 P_Step8 Properties_Step.
Local Open Scope Z_scope.
Local Open Scope list_scope.

(** the same domain and patches with another number of guard cells *)
Definition with_guards (D : domain2) (ng : Z) : domain2 :=
  mkDomain2 (d_ax D) (d_ay D) (d_nx D) (d_ny D) ng (d_dx D) (d_dy D) (d_dt D).
(** ** C126: with three guard cells or more their number does not matter *)
Theorem C126_enough : forall rsqrt eps D ng sps k s s' s1 s1',
  subluminal rsqrt -> domain_ok D -> domain_ok (with_guards D ng) ->
  ready D sps s -> ready (with_guards D ng) sps s' -> same_state D (with_guards D ng) s s' ->
  steps2 rsqrt eps D sps k s s1 -> steps2 rsqrt eps (with_guards D ng) sps k s' s1' ->
  same_state D (with_guards D ng) s1 s1'.
Proof.
  intros rsqrt eps D ng sps k s s' s1 s1' SUB OK OK' R R' S T T'.
  refine (proj1 (C76_decomposition rsqrt SUB eps D (with_guards D ng) sps sps k s s' s1 s1' OK OK' _ _ R R' S T T')).
  - unfold same_domain. auto.
  - clear. induction sps as [|sp sps IH]; constructor; [split; reflexivity|exact IH].
Qed.

(** ** with fewer, charge is put down in the wrong cell: 6 x 6 cells in one periodic patch, light crosses one cell per step *)
Definition narrow (ng : Z) : domain2 := mkDomain2 (ex_axis 1) (ex_axis 1) 6 6 ng 1 1 (1 # 299792458).
(** a particle that has just moved to the left through the edge of the domain with the speed of light, from -3/8 to -11/8 *)
Definition leaving : prt :=
  M_PartSync.mkSlot _ (mkRow _ (Some (-11#8)%Q) (Some 3%Q) (Some 0%Q) (mkBody (-1) 0 0 1 1 (mkSix 0 0 0 0 0 0)%Q 7)) false.
Definition unit_charge : species := mkSpecies 1 1 false.
Definition put_down (ng : Z) : memory Qc := deposit_patch (narrow ng) unit_charge (fun _ => Q2Qc 0) 0 [leaving].

Lemma narrow_sym ng : nbr_symmetric (npatches2 (narrow ng)) 8 opp2 (nbr2 (d_ax (narrow ng)) (d_ay (narrow ng))).
Proof.
  apply sym2; [|cbn; lia|cbn; lia]. constructor; [|constructor; [|constructor]]; reflexivity.
Qed.
Lemma narrow_exists ng rank m : 0 < ng -> ng <= 6 -> exists m', sync_currents2 (narrow ng) rank m m'.
Proof.
  intros G1 G2. set (D := narrow ng). set (NB := nbr2 (d_ax D) (d_ay D)).
  pose proof (fun s1 s2 => C11_current_completes_2d (Q2Qc 0) Qcplus (d_nx D) (d_ny D) (d_ng D) (npatches2 D) NB rank s1 s2 m G1 G2 G2 (narrow_sym ng)) as H. cbv zeta in H.
  destruct (H [] []) as (ts & E & _).
  set (T := current_tasks (extents [d_nx D; d_ny D] (d_ng D)) (local_currents2 (d_nx D) (d_ny D) (d_ng D)) (here NB rank) (npatches2 D)) in *.
  destruct (H (flat_map (fun t => repeat t (length (nth t T []))) (seq 0 (length T))) (flat_map (fun t => repeat t (length (nth t ts []))) (seq 0 (length ts)))) as (ts' & E' & X).
  rewrite E in E'. assert (ts = ts') as <- by congruence.
  destruct X as [m' X]; [intros t Ht; apply (turns (fun t => length (nth t T []))); exact Ht|intros t Ht; apply (turns (fun t => length (nth t ts []))); exact Ht|].
  exists m'. eexists. eexists. exact X.
Qed.
Lemma narrow_read ng rank m m' i j : 0 < ng -> ng <= 6 -> sync_currents2 (narrow ng) rank m m' -> 0 <= i < 6 -> 0 <= j < 6 ->
  m' (cell [6; 6] ng 3 0 [i; j]) =
  current_result (Q2Qc 0) Qcplus bounds2 [6; 6] ng (nbr2 (d_ax (narrow ng)) (d_ay (narrow ng))) m 3 0 [i; j].
Proof.
  assert (monoid (Q2Qc 0) Qcplus) as Mo by (split; [exact Qcplus_0_r|split; [exact Qcplus_comm|exact Qcplus_assoc]]).
  intros G1 G2 (s1 & s2 & H) Hi Hj. apply C11_current_2d in H; [|exact Mo|exact G1|exact G2|exact G2|exact (narrow_sym ng)].
  destruct H as [H _]. apply H; [lia|vm_compute; lia|]. apply (interior_within ng [6; 6] [i; j]); [lia|]. apply Forall2_cons; [lia|apply Forall2_cons; [lia|apply Forall2_nil]].
Qed.
(** the charge density of this particle half a step ahead (as C78 has it), and the one stored after deposition and exchange *)
Definition charge_there (ng i : Z) : Q := charge_of (narrow ng) 1 (1#2) i 3 (row _ leaving).
Definition kept (ng : Z) (m : memory Qc) (i : Z) : Q := this (on_domain (narrow ng) m 3 [i; 3]).
Definition wrong (ng i : Z) (stored right : Q) : Prop := forall rank,
  (forall m', sync_currents2 (narrow ng) rank (put_down ng) m' -> (kept ng m' i == stored)%Q) /\
  (charge_there ng i == right)%Q /\ ~ (stored == right)%Q.
Lemma leaving_inside : in_cells 6 1 0 ((-11#8) + LIGHT_SPEED * d_dt (narrow 1))%Q.
Proof. split; vm_compute; discriminate. Qed.
Lemma kept_at ng rank m' i : 0 < ng -> ng <= 6 -> 0 <= i < 6 -> sync_currents2 (narrow ng) rank (put_down ng) m' ->
  kept ng m' i = this (current_result (Q2Qc 0) Qcplus bounds2 [6; 6] ng (nbr2 (d_ax (narrow ng)) (d_ay (narrow ng))) (put_down ng) 3 0 [i; 3]).
Proof.
  intros G1 G2 Hi H. rewrite <- (narrow_read ng rank (put_down ng) m' i 3 G1 G2 H Hi ltac:(lia)).
  unfold kept, on_domain, stored. cbv zeta. change (cells_x (narrow ng)) with 6. change (cells_y (narrow ng)) with 6.
  change (d_nx (narrow ng)) with 6. change (d_ny (narrow ng)) with 6. change (d_ng (narrow ng)) with ng.
  rewrite (Z.mod_small i 6) by lia. rewrite (Z.mod_small i 6) by lia. rewrite (Z.div_small i 6) by lia. reflexivity.
Qed.
Ltac wrong_cell := let r := fresh "r" in let m := fresh "m" in let H := fresh "H" in
  intro r; split; [intros m H; rewrite (kept_at _ r m _) by (try exact H; lia); vm_compute; reflexivity|
  split; [vm_compute; reflexivity|vm_compute; discriminate]].
Theorem C126_two_refuted :
  in_cells 6 1 0 ((-11#8) + LIGHT_SPEED * d_dt (narrow 2))%Q /\
  (forall rank, exists m', sync_currents2 (narrow 2) rank (put_down 2) m') /\
  wrong 2 1 (27#512) 0 /\ wrong 2 3 0 (27#512).
Proof.
  split; [exact leaving_inside|]. split; [intro; apply narrow_exists; lia|]. split; wrong_cell.
Qed.
Theorem C126_one_refuted :
  in_cells 6 1 0 ((-11#8) + LIGHT_SPEED * d_dt (narrow 1))%Q /\
  (forall rank, exists m', sync_currents2 (narrow 1) rank (put_down 1) m') /\
  wrong 1 0 (141#256) 0 /\ wrong 1 4 0 (141#256) /\ wrong 1 3 0 (27#512).
Proof.
  split; [exact leaving_inside|]. split; [intro; apply narrow_exists; lia|]. split; [wrong_cell|split; wrong_cell].
Qed.
(** with three the same particle is put down where it is *)
Example C126_three : forall rank m' i, 0 <= i < 6 -> sync_currents2 (narrow 3) rank (put_down 3) m' -> (kept 3 m' i == charge_there 3 i)%Q.
Proof.
  intros rank m' i Hi H. rewrite (kept_at 3 rank m' i) by (try exact H; lia).
  assert (i = 0 \/ i = 1 \/ i = 2 \/ i = 3 \/ i = 4 \/ i = 5) as [->|[->|[->|[->|[->| ->]]]]] by lia; vm_compute; reflexivity.
Qed.

Print Assumptions C126_enough.
Print Assumptions C126_two_refuted.
Print Assumptions C126_one_refuted.
