(** C115: energy of the fields over whole runs of a simulation and stability of the time step (3D, periodic, species pushed
    by the fused kernel). *)
From Coq Require Import QArith Qabs Qcanon Permutation Lqa.
From Verif Require Import Base M_Layout M_PartSync S_PartSync M_FieldSync S_FieldSync M_Maxwell S_Maxwell M_Deposit S_Deposit M_Push M_Step S_Step S_Gauss M_Step3D S_Step3D S_Gauss3D S_Energy P_Deposit P_FieldSync P_FieldGeo P_Step3 P_Step4 P_Gauss2 P_GaussD2 P_Energy1 P_Energy2 P_Energy3 P_Energy4 Properties_Step3D Properties_Laser Properties_Energy.
Local Open Scope list_scope.
Local Open Scope Z_scope.

Section S.
Variable rsqrt : Q -> Q.
Hypothesis SUB : subluminal rsqrt.
Variable eps : Qc.

(** ** in every step the energy of the fields changes by the work of the stored current on the stored electric field, and
    by nothing else *)
Theorem C115_balance : forall D sps rank s s', domain3_ok D -> all_fused sps -> ready3 D sps s -> consistent3 D s -> step3d rsqrt eps D sps rank s s' ->
  energy3 D eps s' = (energy3 D eps s - Q2Qc (2 * e_dt D) / eps * inner3 D (on_domain3 D (t_J s')) (on_domain3 D (t_E s')))%Qc.
Proof. intros D sps rank s s' OK U R C T. exact (proj1 (balance3_step eps D OK rsqrt SUB sps U rank s s' R C T)). Qed.

(** ** without particles it never changes *)
Theorem C115_conserved : forall D sps k s s', domain3_ok D -> all_fused sps -> ready3 D sps s -> consistent3 D s -> no_particles (t_parts s) ->
  steps3d rsqrt eps D sps k s s' -> energy3 D eps s' = energy3 D eps s.
Proof. intros D sps k s s' OK U R C N T. exact (proj1 (balance3_steps eps D OK rsqrt SUB sps U k s s' R C N T)). Qed.

(** ** and the fields stay below a bound fixed by the start, for ever, when the time step is below the Courant limit *)
Theorem C115_bounded : forall D sps q k s s', domain3_ok D -> all_fused sps -> courant3 D q -> ready3 D sps s -> consistent3 D s ->
  no_particles (t_parts s) -> (forall f i j k, (f < 3)%nat -> on_domain3 D (t_J s) f [i; j; k] = Q2Qc 0) -> steps3d rsqrt eps D sps k s s' ->
  (norm3 D (on_domain3 D (t_E s')) + light2 * Q2Qc (1 - q) * norm3 D (on_domain3 D (t_B s')) <=
   norm3 D (on_domain3 D (t_E s)) + light2 * norm3 D (on_domain3 D (t_B s)))%Qc.
Proof.
  intros D sps q k s s' OK U CFL R C N J T. destruct (balance3_steps eps D OK rsqrt SUB sps U k s s' R C N T) as (E & _ & J' & _ & (_ & (F & HF) & _)).
  specialize (J' J). unfold energy3 in E.
  assert (forall s E0 B, (forall f i j k, (f < 3)%nat -> on_domain3 D (t_J s) f [i; j; k] = Q2Qc 0) -> energy_of3 D (fun f c => (on_domain3 D E0 f c - half3 D / eps * on_domain3 D (t_J s) f c)%Qc) B = energy_of3 D (on_domain3 D E0) B) as K.
  { intros s0 E0 B H. rewrite (energy_of3_ext D _ (on_domain3 D E0) _ B), (energy_of3_ext D (on_domain3 D E0) (on_domain3 D E0) B B); auto. intros f i j c Hf. rewrite H by exact Hf. change (Q2Qc 0) with 0%Qc. ring. }
  rewrite !K in E by assumption. pose proof (low3 D OK q CFL (on_domain3 D (t_E s')) (t_B s') F HF) as L. rewrite E in L.
  exact (Qcle_trans _ _ _ L (high3 D _ _)).
Qed.
End S.

(** ** a case: a magnetic field in one cell of an empty periodic box of two patches *)
Definition blob3 (f : nat) (g : list Z) : Qc := match f, g with 2%nat, [2; 3; 1] => 1%Qc | _, _ => 0%Qc end.
Definition blob3_state : state2 := mkState2 (fun _ => Q2Qc 0) (paint [ey_axis 2; ey_axis 1; ey_axis 1] [3; 6; 3] 3 2 (position3 (ey_axis 2) (ey_axis 1)) blob3) (fun _ => Q2Qc 0) [].
Lemma blob3_ready : ready3 (ey_dom 2) [] blob3_state. Proof. split; [reflexivity|constructor]. Qed.
Lemma blob3_consistent : consistent3 (ey_dom 2) blob3_state.
Proof.
  split; [eexists; apply ey_field|]. split; [|eexists; apply ey_cur]. exists blob3. cbn [t_B blob3_state].
  exact (paint_shows [ey_axis 2; ey_axis 1; ey_axis 1] [3; 6; 3] 3 2 (position3 (ey_axis 2) (ey_axis 1)) blob3 bounds3 opp3 ltac:(apply geometry3; lia)).
Qed.
Example C115_case : forall eps k, exists s', steps3d ey_rsqrt eps (ey_dom 2) [] k blob3_state s' /\ courant3 (ey_dom 2) (3#4) /\
  energy3 (ey_dom 2) eps s' = energy3 (ey_dom 2) eps blob3_state /\ norm3 (ey_dom 2) (on_domain3 (ey_dom 2) (t_B blob3_state)) = 1%Qc /\
  (norm3 (ey_dom 2) (on_domain3 (ey_dom 2) (t_E s')) + light2 * Q2Qc (1 # 4) * norm3 (ey_dom 2) (on_domain3 (ey_dom 2) (t_B s')) <= light2)%Qc.
Proof.
  intros eps k. pose proof (ey_ok 2 (or_intror eq_refl)) as O2.
  destruct (C98_runs_exist ey_rsqrt ey_sub eps _ _ k blob3_state O2 (Forall_nil _) blob3_ready blob3_consistent) as (s' & T & _). exists s'. split; [exact T|].
  assert (courant3 (ey_dom 2) (3#4)) as CFL by (vm_compute; discriminate). split; [exact CFL|].
  split; [apply (C115_conserved ey_rsqrt ey_sub eps (ey_dom 2) [] k _ _ O2 (Forall_nil _) blob3_ready blob3_consistent ltac:(constructor) T)|].
  assert (norm3 (ey_dom 2) (on_domain3 (ey_dom 2) (t_B blob3_state)) = 1%Qc) as N by (apply Qc_is_canon; vm_compute; reflexivity). split; [exact N|].
  pose proof (C115_bounded ey_rsqrt ey_sub eps (ey_dom 2) [] (3#4) k blob3_state s' O2 (Forall_nil _) CFL blob3_ready blob3_consistent ltac:(constructor) ltac:(intros; reflexivity) T) as B.
  rewrite N in B. assert (norm3 (ey_dom 2) (on_domain3 (ey_dom 2) (t_E blob3_state)) = 0%Qc) as Z by (apply Qc_is_canon; vm_compute; reflexivity).
  rewrite Z in B. replace (0 + light2 * 1)%Qc with light2 in B by ring. exact B.
Qed.

Lemma norm_pos3 D u : (0 <= norm3 D u)%Qc.
Proof. apply zsum_pos. intro i. apply zsum_pos. intro j. apply zsum_pos. intro k. apply cell_pos. Qed.
Lemma cell_norm3 D u f i j k : (f < 3)%nat -> 0 <= i < cells3_x D -> 0 <= j < cells3_y D -> 0 <= k < cells3_z D -> (u f [i; j; k] * u f [i; j; k] <= norm3 D u)%Qc.
Proof.
  intros Hf Hi Hj Hk. unfold norm3, inner3.
  eapply Qcle_trans; [|apply (zsum_term (cells3_x D) (fun i => zsum (cells3_y D) (fun j => zsum (cells3_z D) (fun k => (u 0%nat [i; j; k] * u 0%nat [i; j; k] + u 1%nat [i; j; k] * u 1%nat [i; j; k] + u 2%nat [i; j; k] * u 2%nat [i; j; k])%Qc))) i); [intro; apply zsum_pos; intro; apply zsum_pos; intro; apply cell_pos|exact Hi]].
  eapply Qcle_trans; [|apply (zsum_term (cells3_y D) (fun j => zsum (cells3_z D) (fun k => (u 0%nat [i; j; k] * u 0%nat [i; j; k] + u 1%nat [i; j; k] * u 1%nat [i; j; k] + u 2%nat [i; j; k] * u 2%nat [i; j; k])%Qc)) j); [intro; apply zsum_pos; intro; apply cell_pos|exact Hj]].
  eapply Qcle_trans; [|apply (zsum_term (cells3_z D) (fun k => (u 0%nat [i; j; k] * u 0%nat [i; j; k] + u 1%nat [i; j; k] * u 1%nat [i; j; k] + u 2%nat [i; j; k] * u 2%nat [i; j; k])%Qc) k); [intro; apply cell_pos|exact Hk]].
  unfold Qcle. rewrite !this_plus, !this_mult. destruct f as [|[|[|f]]]; [| | |lia]; set (a := this (u 0%nat [i; j; k])); set (b := this (u 1%nat [i; j; k])); set (c := this (u 2%nat [i; j; k])); clearbody a b c; nra.
Qed.
(** ** below the Courant limit every component of the fields stays bounded in every cell *)
Section Stable.
Variable rsqrt : Q -> Q.
Hypothesis SUB : subluminal rsqrt.
Variable eps : Qc.
Theorem C115_stable : forall D sps q s, domain3_ok D -> all_fused sps -> courant3 D q -> (q < 1)%Q -> ready3 D sps s -> consistent3 D s ->
  no_particles (t_parts s) -> (forall f i j k, (f < 3)%nat -> on_domain3 D (t_J s) f [i; j; k] = Q2Qc 0) ->
  exists M, forall m s', steps3d rsqrt eps D sps m s s' -> forall f i j k, (f < 3)%nat -> 0 <= i < cells3_x D -> 0 <= j < cells3_y D -> 0 <= k < cells3_z D ->
    (on_domain3 D (t_E s') f [i; j; k] * on_domain3 D (t_E s') f [i; j; k] <= M /\ on_domain3 D (t_B s') f [i; j; k] * on_domain3 D (t_B s') f [i; j; k] <= M)%Qc.
Proof using SUB.
  intros D sps q s OK U CFL Q1 R C N J.
  set (M := (norm3 D (on_domain3 D (t_E s)) + light2 * norm3 D (on_domain3 D (t_B s)))%Qc).
  assert (0 < light2 * Q2Qc (1 - q))%Qc as LQ.
  { unfold Qclt, light2. rewrite this_mult, !this_q2qc. change (this 0) with 0%Q. assert (0 < LIGHT_SPEED * LIGHT_SPEED)%Q as K by reflexivity. set (l := (LIGHT_SPEED * LIGHT_SPEED)%Q) in *. clearbody l. nra. }
  exists (M + M / (light2 * Q2Qc (1 - q)))%Qc. intros m s' T f i j k Hf Hi Hj Hk.
  pose proof (C115_bounded rsqrt SUB eps D sps q m s s' OK U CFL R C N J T) as B. fold M in B.
  pose proof (cell_norm3 D (on_domain3 D (t_E s')) f i j k Hf Hi Hj Hk) as BE. pose proof (cell_norm3 D (on_domain3 D (t_B s')) f i j k Hf Hi Hj Hk) as BB.
  pose proof (norm_pos3 D (on_domain3 D (t_E s'))) as PE. pose proof (norm_pos3 D (on_domain3 D (t_B s'))) as PB.
  exact (split_bound _ _ _ _ _ _ LQ B BE BB PE PB).
Qed.
End Stable.

Print Assumptions C115_balance.
Print Assumptions C115_conserved.
Print Assumptions C115_bounded.
Print Assumptions C115_case.
Print Assumptions C115_stable.
