(** C109: a whole three-dimensional simulation whose sides are periodic or open, with absorbing layers inside the open ones,
    gives the same result however the domain is cut into patches; particles that enter a layer disappear, no other does. *)
From Coq Require Import QArith Qabs Qcanon Permutation Lqa.
From Verif Require Import Base M_Layout S_Layout M_PartSync S_PartSync M_FieldSync S_FieldSync M_Maxwell S_Maxwell M_Cpml S_Cpml M_Deposit M_Push M_Step S_Step M_Step3D S_Step3D M_StepO S_StepO M_StepO3D S_StepO3D P_Step1 P_StepQ4 P_StepQ5 Properties_Step Properties_Step3D Properties_Cpml.
Local Open Scope list_scope.
Local Open Scope Z_scope.

Section S.
Variable rsqrt : Q -> Q.
Hypothesis SUB : subluminal rsqrt.
Variable eps : Qc.
Variable K : layer Qc.

(** ** after any number of steps the two simulations agree: fields, currents, memory of the layers, particles *)
Theorem C109_decomposition : forall D D' pmls pmls' sps sps' k s s' s1 s1',
  open3_ok K D pmls -> open3_ok K D' pmls' -> same_open_domain3 D D' -> Forall2 same_species sps sps' -> all_fused sps -> all_fused sps' ->
  open_ready3 D sps s -> open_ready3 D' sps' s' -> same_open_state3 D D' pmls pmls' s s' ->
  stepso3 rsqrt eps K D pmls sps k s s1 -> stepso3 rsqrt eps K D' pmls' sps' k s' s1' ->
  same_open_state3 D D' pmls pmls' s1 s1' /\ open_ready3 D sps s1 /\ open_ready3 D' sps' s1'.
Proof. intros D D' pmls pmls' sps sps' k s s' s1 s1' OK OK' SD SP AF AF'. exact (osame_steps3 rsqrt SUB eps K D D' pmls pmls' OK OK' SD sps sps' SP AF AF' k s s' s1 s1'). Qed.

(** ** read off at a single cell, and for the particles of one species *)
Theorem C109_same_values : forall D D' pmls pmls' sps sps' k s s' s1 s1' f p p' c c' g,
  open3_ok K D pmls -> open3_ok K D' pmls' -> same_open_domain3 D D' -> Forall2 same_species sps sps' -> all_fused sps -> all_fused sps' ->
  open_ready3 D sps s -> open_ready3 D' sps' s' -> same_open_state3 D D' pmls pmls' s s' ->
  stepso3 rsqrt eps K D pmls sps k s s1 -> stepso3 rsqrt eps K D' pmls' sps' k s' s1' ->
  (p < npatches3 D)%nat -> (p' < npatches3 D')%nat ->
  place [e_ax D; e_ay D; e_az D] [e_nx D; e_ny D; e_nz D] (position3 (e_ax D) (e_ay D) p) c = Some g ->
  place [e_ax D'; e_ay D'; e_az D'] [e_nx D'; e_ny D'; e_nz D'] (position3 (e_ax D') (e_ay D') p') c' = Some g ->
  let at_ := cell [e_nx D; e_ny D; e_nz D] (e_ng D) f p c in let at_' := cell [e_nx D'; e_ny D'; e_nz D'] (e_ng D') f p' c' in
  ((f < 3)%nat -> within (e_ng D) [e_nx D; e_ny D; e_nz D] c -> within (e_ng D') [e_nx D'; e_ny D'; e_nz D'] c' ->
     o_E s1 at_ = o_E s1' at_' /\ o_B s1 at_ = o_B s1' at_') /\
  ((f < 4)%nat -> interior [e_nx D; e_ny D; e_nz D] c -> interior [e_nx D'; e_ny D'; e_nz D'] c' -> o_J s1 at_ = o_J s1' at_').
Proof.
  intros D D' pmls pmls' sps sps' k s s' s1 s1' f p p' c c' g OK OK' SD SP AF AF' R R' S T T' Hp Hp' G G' at_ at_'.
  destruct (C109_decomposition D D' pmls pmls' sps sps' k s s' s1 s1' OK OK' SD SP AF AF' R R' S T T') as (((FE & E1 & E2) & (FB & B1 & B2) & (FJ & J1 & J2) & _) & _).
  split.
  - intros Hf W W'. unfold at_, at_'. rewrite (E1 f p c Hf Hp W), (E2 f p' c' Hf Hp' W'), (B1 f p c Hf Hp W), (B2 f p' c' Hf Hp' W'). unfold shown. rewrite G, G'. auto.
  - intros Hf W W'. unfold at_, at_'. rewrite (J1 f p c Hf Hp W), (J2 f p' c' Hf Hp' W'). unfold shown. rewrite G, G'. reflexivity.
Qed.
Theorem C109_same_particles : forall D D' pmls pmls' sps sps' k s s' s1 s1' i r,
  open3_ok K D pmls -> open3_ok K D' pmls' -> same_open_domain3 D D' -> Forall2 same_species sps sps' -> all_fused sps -> all_fused sps' ->
  open_ready3 D sps s -> open_ready3 D' sps' s' -> same_open_state3 D D' pmls pmls' s s' ->
  stepso3 rsqrt eps K D pmls sps k s s1 -> stepso3 rsqrt eps K D' pmls' sps' k s' s1' ->
  length (particles (nth i (o_parts s1) [])) = length (particles (nth i (o_parts s1') [])) /\
  (In r (particles (nth i (o_parts s1) [])) -> exists r', In r' (particles (nth i (o_parts s1') [])) /\ canon r' = canon r).
Proof.
  intros D D' pmls pmls' sps sps' k s s' s1 s1' i r OK OK' SD SP AF AF' R R' S T T'.
  destruct (C109_decomposition D D' pmls pmls' sps sps' k s s' s1 s1' OK OK' SD SP AF AF' R R' S T T') as ((_ & _ & _ & _ & _ & P) & _).
  assert (same_particles (nth i (o_parts s1) []) (nth i (o_parts s1') [])) as Pi.
  { clear - P. revert i. induction P as [|st st' ps ps' H P IH]; intros [|i]; cbn [nth]; auto; apply Permutation_refl. }
  unfold same_particles in Pi. split; [apply Permutation_length in Pi; rewrite !map_length in Pi; exact Pi|]. intro I.
  pose proof (Permutation_in (canon r) Pi (in_map canon _ _ I)) as X. apply in_map_iff in X. destruct X as (r' & E & I'). exists r'. auto.
Qed.

(** ** one decomposition: the result depends neither on the schedules nor on the distribution over processes *)
Theorem C109_deterministic : forall D pmls sps k s s1 s2, open3_ok K D pmls -> all_fused sps -> open_ready3 D sps s -> open_consistent3 D pmls s ->
  stepso3 rsqrt eps K D pmls sps k s s1 -> stepso3 rsqrt eps K D pmls sps k s s2 -> same_open_state3 D D pmls pmls s1 s2.
Proof.
  intros D pmls sps k s s1 s2 OK AF R ((FE & HE) & (FB & HB) & (FJ & HJ) & (PE & XE) & (PB & XB)) T1 T2.
  refine (proj1 (C109_decomposition D D pmls pmls sps sps k s s s1 s2 OK OK _ _ AF AF R R _ T1 T2)).
  - unfold same_open_domain3, same_domain3. auto 12.
  - clear. induction sps; constructor; auto. split; reflexivity.
  - split; [exists FE; auto|]. split; [exists FB; auto|]. split; [exists FJ; auto|]. split; [exists PE; auto|]. split; [exists PB; auto|].
    clear. induction (o_parts s); constructor; auto. apply Permutation_refl.
Qed.

(** ** after every step no particle is in a layer; no particle is ever new or doubled, and identity and weight stay *)
Theorem C109_none_in_layers : forall D pmls sps k s s1, open3_ok K D pmls -> all_fused sps -> open_ready3 D sps s -> open_consistent3 D pmls s ->
  stepso3 rsqrt eps K D pmls sps (S k) s s1 -> Forall (none_in_layers3 (thick K) D) (o_parts s1).
Proof. intros D pmls sps k s s1 OK AF R C T. exact (osteps3_clear rsqrt eps K D pmls sps SUB OK AF k s s1 R C T). Qed.
Theorem C109_survivors : forall D pmls sps k s s1, open3_ok K D pmls -> all_fused sps -> open_ready3 D sps s -> open_consistent3 D pmls s ->
  stepso3 rsqrt eps K D pmls sps k s s1 -> Forall2 survivors (o_parts s) (o_parts s1).
Proof. intros D pmls sps k s s1 OK AF R C T. exact (osteps3_survivors rsqrt eps K D pmls sps SUB OK AF k s s1 R C T). Qed.
Theorem C109_others_stay : forall D pmls sps rank s s1, open3_ok K D pmls -> all_fused sps -> open_ready3 D sps s -> open_consistent3 D pmls s ->
  stepo3 rsqrt eps K D pmls sps rank s s1 -> Forall2 (others_stay3 (thick K) D) (o_parts s) (o_parts s1).
Proof. intros D pmls sps rank s s1 OK AF R C T. exact (ostep3_others rsqrt eps K D pmls sps rank s s1 SUB OK AF R C T). Qed.

(** ** every step can be carried out, with any distribution over processes and after any reordering of the particles *)
Theorem C109_steps_exist : forall D pmls sps rank s ps1, open3_ok K D pmls -> all_fused sps -> open_ready3 D sps s -> open_consistent3 D pmls s -> Forall2 sorted2 (o_parts s) ps1 ->
  exists s', stepo3 rsqrt eps K D pmls sps rank s s' /\ open_ready3 D sps s' /\ open_consistent3 D pmls s'.
Proof. intros D pmls sps rank s ps1 OK AF R C S. exact (ostep3_exists rsqrt eps K D pmls sps rank s SUB OK AF R C ps1 S). Qed.
Theorem C109_runs_exist : forall D pmls sps k s, open3_ok K D pmls -> all_fused sps -> open_ready3 D sps s -> open_consistent3 D pmls s ->
  exists s', stepso3 rsqrt eps K D pmls sps k s s' /\ open_ready3 D sps s' /\ open_consistent3 D pmls s'.
Proof. intros D pmls sps k s OK AF R C. exact (osteps3_exist rsqrt eps K D pmls sps k SUB OK AF s R C). Qed.
End S.

(** ** a case: 16 x 4 x 4 cells, open along x with layers of two cells, as two patches of 8 x 4 x 4 and as four of 4 x 4 x 4;
    one particle in the middle, one about to enter the upper layer *)
Definition eyo_dom (k : Z) : domain3 := mkDomain3 (mkAxis k Pml Pml) (mkAxis 1 Periodic Periodic) (mkAxis 1 Periodic Periodic) (16 / k) 4 4 3 1 1 1 (1 # 599584916).
Definition eyo_pml (k : Z) (p : nat) : list pml_side := if Z.of_nat p =? 0 then [PXmin] else if Z.of_nat p =? k - 1 then [PXmax] else [].
Definition eyo_state (l : list (list prt)) : stateo := mkStateO (fun _ => Q2Qc 0) (fun _ => Q2Qc 0) (fun _ => Q2Qc 0) (fun _ _ => Q2Qc 0) (fun _ _ => Q2Qc 0) [l].
Definition eyo_two := eyo_state [[ey_part false (37#5) 3 1 1 0 7; ey_part true 0 0 0 0 0 0]; [ey_part false (67#5) 2 (5#2) (5#4) (1#2) 8]].
Definition eyo_four := eyo_state [[]; [ey_part false (37#5) 3 1 1 0 7]; []; [ey_part true 1 1 1 1 0 9; ey_part false (67#5) (4#2) (5#2) (5#4) (1#2) 8]].
Lemma eyo_ok k : k = 2 \/ k = 4 -> open3_ok (QK 2) (eyo_dom k) (eyo_pml k).
Proof.
  intros [-> | ->]; (split; [repeat constructor|cbn; lia|cbn; lia|repeat split; reflexivity|split; [reflexivity|repeat split; vm_compute; discriminate]|reflexivity|cbn; lia| | |]);
    try (repeat constructor; cbn; try discriminate; intros; lia).
  - intros p Hp. do 2 (destruct p as [|p]; [reflexivity|]). cbn in Hp. lia.
  - intros p Hp. do 4 (destruct p as [|p]; [reflexivity|]). cbn in Hp. lia.
Qed.
Example C109_case : forall k eps, exists s1 s1',
  stepso3 ey_rsqrt eps (QK 2) (eyo_dom 2) (eyo_pml 2) ey_species k eyo_two s1 /\ stepso3 ey_rsqrt eps (QK 2) (eyo_dom 4) (eyo_pml 4) ey_species k eyo_four s1' /\
  same_open_state3 (eyo_dom 2) (eyo_dom 4) (eyo_pml 2) (eyo_pml 4) s1 s1'.
Proof.
  assert (AF : all_fused ey_species) by (constructor; [reflexivity|constructor]).
  intros k e. pose proof (eyo_ok 2 (or_introl eq_refl)) as O1. pose proof (eyo_ok 4 (or_intror eq_refl)) as O2.
  assert (R1 : open_ready3 (eyo_dom 2) ey_species eyo_two).
  { split; [reflexivity|]. constructor; [|constructor]. split; [reflexivity|]. intros p r Hp I. change (npatches3 (eyo_dom 2)) with 2%nat in Hp.
    destruct p as [|[|p]]; [| |lia]; ey_in I. }
  assert (R2 : open_ready3 (eyo_dom 4) ey_species eyo_four).
  { split; [reflexivity|]. constructor; [|constructor]. split; [reflexivity|]. intros p r Hp I. change (npatches3 (eyo_dom 4)) with 4%nat in Hp.
    destruct p as [|[|[|[|p]]]]; [| | | |lia]; ey_in I. }
  assert (X : forall D pmls, aux3_are D pmls (fun _ _ _ => Q2Qc 0) (fun _ _ => Q2Qc 0)) by (intros D pmls s f p i j l _ _ _ _ _ _; reflexivity).
  assert (C : forall D pmls l, open_consistent3 D pmls (eyo_state l)).
  { intros D pmls l. split; [eexists; apply ey_field|]. split; [eexists; apply ey_field|]. split; [eexists; apply ey_cur|]. split; eexists; apply X. }
  destruct (C109_runs_exist ey_rsqrt ey_sub e (QK 2) _ _ _ k eyo_two O1 AF R1 (C _ _ _)) as (s1 & T1 & _).
  destruct (C109_runs_exist ey_rsqrt ey_sub e (QK 2) _ _ _ k eyo_four O2 AF R2 (C _ _ _)) as (s1' & T2 & _).
  exists s1, s1'. split; [exact T1|]. split; [exact T2|].
  refine (proj1 (C109_decomposition ey_rsqrt ey_sub e (QK 2) (eyo_dom 2) (eyo_dom 4) (eyo_pml 2) (eyo_pml 4) ey_species ey_species k eyo_two eyo_four s1 s1' O1 O2 _ _ AF AF R1 R2 _ T1 T2)).
  - repeat split; reflexivity.
  - constructor; [split; reflexivity|constructor].
  - split; [eexists; split; apply ey_field|]. split; [eexists; split; apply ey_field|]. split; [eexists; split; apply ey_cur|].
    split; [eexists; split; apply X|]. split; [eexists; split; apply X|].
    constructor; [|constructor]. unfold same_particles. vm_compute. apply Permutation_refl.
Qed.

Print Assumptions C109_decomposition.
Print Assumptions C109_same_values.
Print Assumptions C109_same_particles.
Print Assumptions C109_deterministic.
Print Assumptions C109_none_in_layers.
Print Assumptions C109_survivors.
Print Assumptions C109_others_stay.
Print Assumptions C109_steps_exist.
Print Assumptions C109_runs_exist.
Print Assumptions C109_case.
