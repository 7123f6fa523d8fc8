(** C102: a whole simulation (2D) whose sides are periodic or open, with absorbing layers inside the open ones, gives the same
    result however the domain is cut into patches; particles that enter a layer disappear, no other does. *)
From Coq Require Import QArith Qabs Qcanon Permutation Lqa.
From Verif Require Import Base M_Layout S_Layout M_PartSync S_PartSync M_FieldSync S_FieldSync M_Maxwell S_Maxwell M_Cpml S_Cpml M_Deposit M_Push M_Step S_Step M_StepO S_StepO P_Step1 P_StepO4 P_StepO5 Properties_Step Properties_Cpml.
Local Open Scope list_scope.
Local Open Scope Z_scope.

Section S.
Variable rsqrt : Q -> Q.
Hypothesis SUB : subluminal rsqrt.
Variable eps : Qc.
Variable K : layer Qc.

(** ** after any number of steps the two simulations agree: fields, currents, memory of the layers, particles *)
Theorem C102_decomposition : forall D D' pmls pmls' sps sps' k s s' s1 s1',
  open_ok K D pmls -> open_ok K D' pmls' -> same_open_domain D D' -> Forall2 same_species sps sps' ->
  open_ready D sps s -> open_ready D' sps' s' -> same_open_state D D' pmls pmls' s s' ->
  stepso rsqrt eps K D pmls sps k s s1 -> stepso rsqrt eps K D' pmls' sps' k s' s1' ->
  same_open_state D D' pmls pmls' s1 s1' /\ open_ready D sps s1 /\ open_ready D' sps' s1'.
Proof. intros D D' pmls pmls' sps sps' k s s' s1 s1' OK OK' SD SP. exact (osame_steps rsqrt SUB eps K D D' pmls pmls' OK OK' SD sps sps' SP k s s' s1 s1'). Qed.

(** ** read off at a single cell, and for the particles of one species *)
Theorem C102_same_values : forall D D' pmls pmls' sps sps' k s s' s1 s1' f p p' c c' g,
  open_ok K D pmls -> open_ok K D' pmls' -> same_open_domain D D' -> Forall2 same_species sps sps' ->
  open_ready D sps s -> open_ready D' sps' s' -> same_open_state D D' pmls pmls' s s' ->
  stepso rsqrt eps K D pmls sps k s s1 -> stepso rsqrt eps K D' pmls' sps' k s' s1' ->
  (p < npatches2 D)%nat -> (p' < npatches2 D')%nat ->
  place [d_ax D; d_ay D] [d_nx D; d_ny D] (position2 (d_ax D) p) c = Some g ->
  place [d_ax D'; d_ay D'] [d_nx D'; d_ny D'] (position2 (d_ax D') p') c' = Some g ->
  let at_ := cell [d_nx D; d_ny D] (d_ng D) f p c in let at_' := cell [d_nx D'; d_ny D'] (d_ng D') f p' c' in
  ((f < 3)%nat -> within (d_ng D) [d_nx D; d_ny D] c -> within (d_ng D') [d_nx D'; d_ny D'] c' ->
     o_E s1 at_ = o_E s1' at_' /\ o_B s1 at_ = o_B s1' at_') /\
  ((f < 4)%nat -> interior [d_nx D; d_ny D] c -> interior [d_nx D'; d_ny D'] c' -> o_J s1 at_ = o_J s1' at_').
Proof.
  intros D D' pmls pmls' sps sps' k s s' s1 s1' f p p' c c' g OK OK' SD SP R R' S T T' Hp Hp' G G' at_ at_'.
  destruct (C102_decomposition D D' pmls pmls' sps sps' k s s' s1 s1' OK OK' SD SP R R' S T T') as (((FE & E1 & E2) & (FB & B1 & B2) & (FJ & J1 & J2) & _) & _).
  split.
  - intros Hf W W'. unfold at_, at_'. rewrite (E1 f p c Hf Hp W), (E2 f p' c' Hf Hp' W'), (B1 f p c Hf Hp W), (B2 f p' c' Hf Hp' W'). unfold shown. rewrite G, G'. auto.
  - intros Hf W W'. unfold at_, at_'. rewrite (J1 f p c Hf Hp W), (J2 f p' c' Hf Hp' W'). unfold shown. rewrite G, G'. reflexivity.
Qed.
Theorem C102_same_particles : forall D D' pmls pmls' sps sps' k s s' s1 s1' i r,
  open_ok K D pmls -> open_ok K D' pmls' -> same_open_domain D D' -> Forall2 same_species sps sps' ->
  open_ready D sps s -> open_ready D' sps' s' -> same_open_state D D' pmls pmls' s s' ->
  stepso rsqrt eps K D pmls sps k s s1 -> stepso rsqrt eps K D' pmls' sps' k s' s1' ->
  length (particles (nth i (o_parts s1) [])) = length (particles (nth i (o_parts s1') [])) /\
  (In r (particles (nth i (o_parts s1) [])) -> exists r', In r' (particles (nth i (o_parts s1') [])) /\ canon r' = canon r).
Proof.
  intros D D' pmls pmls' sps sps' k s s' s1 s1' i r OK OK' SD SP R R' S T T'.
  destruct (C102_decomposition D D' pmls pmls' sps sps' k s s' s1 s1' OK OK' SD SP R R' S T T') as ((_ & _ & _ & _ & _ & P) & _).
  assert (same_particles (nth i (o_parts s1) []) (nth i (o_parts s1') [])) as Pi.
  { clear - P. revert i. induction P as [|st st' ps ps' H P IH]; intros [|i]; cbn [nth]; auto; apply Permutation_refl. }
  unfold same_particles in Pi. split; [apply Permutation_length in Pi; rewrite !map_length in Pi; exact Pi|]. intro I.
  pose proof (Permutation_in (canon r) Pi (in_map canon _ _ I)) as X. apply in_map_iff in X. destruct X as (r' & E & I'). exists r'. auto.
Qed.

(** ** one decomposition: the result depends neither on the schedules nor on the distribution over processes *)
Theorem C102_deterministic : forall D pmls sps k s s1 s2, open_ok K D pmls -> open_ready D sps s -> open_consistent D pmls s ->
  stepso rsqrt eps K D pmls sps k s s1 -> stepso rsqrt eps K D pmls sps k s s2 -> same_open_state D D pmls pmls s1 s2.
Proof.
  intros D pmls sps k s s1 s2 OK R ((FE & HE) & (FB & HB) & (FJ & HJ) & (PE & XE) & (PB & XB)) T1 T2.
  refine (proj1 (C102_decomposition D D pmls pmls sps sps k s s s1 s2 OK OK _ _ R R _ T1 T2)).
  - unfold same_open_domain, same_domain. auto 10.
  - clear. induction sps; constructor; auto. split; reflexivity.
  - split; [exists FE; auto|]. split; [exists FB; auto|]. split; [exists FJ; auto|]. split; [exists PE; auto|]. split; [exists PB; auto|].
    clear. induction (o_parts s); constructor; auto. apply Permutation_refl.
Qed.

(** ** after every step no particle is in a layer; no particle is ever new or doubled, and identity and weight stay *)
Theorem C102_none_in_layers : forall D pmls sps k s s1, open_ok K D pmls -> open_ready D sps s -> open_consistent D pmls s ->
  stepso rsqrt eps K D pmls sps (S k) s s1 -> Forall (none_in_layers (thick K) D) (o_parts s1).
Proof. intros D pmls sps k s s1 OK R C T. exact (osteps_clear rsqrt eps K D pmls sps SUB OK k s s1 R C T). Qed.
Theorem C102_survivors : forall D pmls sps k s s1, open_ok K D pmls -> open_ready D sps s -> open_consistent D pmls s ->
  stepso rsqrt eps K D pmls sps k s s1 -> Forall2 survivors (o_parts s) (o_parts s1).
Proof. intros D pmls sps k s s1 OK R C T. exact (osteps_survivors rsqrt eps K D pmls sps SUB OK k s s1 R C T). Qed.
Theorem C102_others_stay : forall D pmls sps rank s s1, open_ok K D pmls -> open_ready D sps s -> open_consistent D pmls s ->
  stepo rsqrt eps K D pmls sps rank s s1 -> Forall2 (others_stay (thick K) D) (o_parts s) (o_parts s1).
Proof. intros D pmls sps rank s s1 OK R C T. exact (ostep_others rsqrt eps K D pmls sps rank s s1 SUB OK R C T). Qed.

(** ** every step can be carried out, with any distribution over processes and after any reordering of the particles *)
Theorem C102_steps_exist : forall D pmls sps rank s ps1, open_ok K D pmls -> open_ready D sps s -> open_consistent D pmls s -> Forall2 sorted2 (o_parts s) ps1 ->
  exists s', stepo rsqrt eps K D pmls sps rank s s' /\ open_ready D sps s' /\ open_consistent D pmls s'.
Proof. intros D pmls sps rank s ps1 OK R C S. exact (ostep_exists rsqrt eps K D pmls sps rank s SUB OK R C ps1 S). Qed.
Theorem C102_runs_exist : forall D pmls sps k s, open_ok K D pmls -> open_ready D sps s -> open_consistent D pmls s ->
  exists s', stepso rsqrt eps K D pmls sps k s s' /\ open_ready D sps s' /\ open_consistent D pmls s'.
Proof. intros D pmls sps k s OK R C. exact (osteps_exist rsqrt eps K D pmls sps k SUB OK s R C). Qed.
End S.

(** ** a case: 16 x 8 cells, open along x with layers of two cells, as two patches of 8 x 8 and as four of 4 x 8; one particle in
    the middle, one about to enter the upper layer *)
Definition exo_dom (k : Z) : domain2 := mkDomain2 (mkAxis k Pml Pml) (mkAxis 1 Periodic Periodic) (16 / k) 8 3 1 1 (1 # 599584916).
Definition exo_pml (k : Z) (p : nat) : list pml_side := if Z.of_nat p =? 0 then [PXmin] else if Z.of_nat p =? k - 1 then [PXmax] else [].
Definition exo_state (l : list (list prt)) : stateo := mkStateO (fun _ => Q2Qc 0) (fun _ => Q2Qc 0) (fun _ => Q2Qc 0) (fun _ _ => Q2Qc 0) (fun _ _ => Q2Qc 0) [l].
Definition exo_two := exo_state [[ex_part false (37#5) 3 1 7; ex_part true 0 0 0 0]; [ex_part false (67#5) 2 (5#4) 8]].
Definition exo_four := exo_state [[]; [ex_part false (37#5) 3 1 7]; []; [ex_part true 1 1 1 9; ex_part false (67#5) (4#2) (5#4) 8]].
Lemma exo_ok k : k = 2 \/ k = 4 -> open_ok (QK 2) (exo_dom k) (exo_pml k).
Proof.
  intros [-> | ->]; (split; [repeat constructor|cbn; lia|cbn; lia|split; reflexivity|split; [reflexivity|split; vm_compute; discriminate]|reflexivity|cbn; lia| |]);
    try (repeat constructor; cbn; try discriminate; intros; lia).
  - intros p Hp. do 2 (destruct p as [|p]; [reflexivity|]). cbn in Hp. lia.
  - intros p Hp. do 4 (destruct p as [|p]; [reflexivity|]). cbn in Hp. lia.
Qed.
Example C102_case : forall k eps, exists s1 s1',
  stepso ex_rsqrt eps (QK 2) (exo_dom 2) (exo_pml 2) (ex_species true) k exo_two s1 /\ stepso ex_rsqrt eps (QK 2) (exo_dom 4) (exo_pml 4) (ex_species false) k exo_four s1' /\
  same_open_state (exo_dom 2) (exo_dom 4) (exo_pml 2) (exo_pml 4) s1 s1'.
Proof.
  intros k e. pose proof (exo_ok 2 (or_introl eq_refl)) as O1. pose proof (exo_ok 4 (or_intror eq_refl)) as O2.
  assert (R1 : open_ready (exo_dom 2) (ex_species true) exo_two).
  { split; [reflexivity|]. constructor; [|constructor]. split; [reflexivity|]. intros p r Hp I. change (npatches2 (exo_dom 2)) with 2%nat in Hp.
    destruct p as [|[|p]]; [| |lia]; ex_in I. }
  assert (R2 : open_ready (exo_dom 4) (ex_species false) exo_four).
  { split; [reflexivity|]. constructor; [|constructor]. split; [reflexivity|]. intros p r Hp I. change (npatches2 (exo_dom 4)) with 4%nat in Hp.
    destruct p as [|[|[|[|p]]]]; [| | | |lia]; ex_in I. }
  assert (X : forall D pmls, aux_are D pmls (fun _ _ _ => Q2Qc 0) (fun _ _ => Q2Qc 0)) by (intros D pmls s f p i j _ _ _ _ _; reflexivity).
  assert (C : forall D pmls l, open_consistent D pmls (exo_state l)).
  { intros D pmls l. split; [eexists; apply ex_field|]. split; [eexists; apply ex_field|]. split; [eexists; apply ex_cur|]. split; eexists; apply X. }
  destruct (C102_runs_exist ex_rsqrt ex_sub e (QK 2) _ _ _ k exo_two O1 R1 (C _ _ _)) as (s1 & T1 & _).
  destruct (C102_runs_exist ex_rsqrt ex_sub e (QK 2) _ _ _ k exo_four O2 R2 (C _ _ _)) as (s1' & T2 & _).
  exists s1, s1'. split; [exact T1|]. split; [exact T2|].
  refine (proj1 (C102_decomposition ex_rsqrt ex_sub e (QK 2) (exo_dom 2) (exo_dom 4) (exo_pml 2) (exo_pml 4) (ex_species true) (ex_species false) k exo_two exo_four s1 s1' O1 O2 _ _ R1 R2 _ T1 T2)).
  - repeat split; reflexivity.
  - constructor; [split; reflexivity|constructor].
  - split; [eexists; split; apply ex_field|]. split; [eexists; split; apply ex_field|]. split; [eexists; split; apply ex_cur|].
    split; [eexists; split; apply X|]. split; [eexists; split; apply X|].
    constructor; [|constructor]. unfold same_particles. vm_compute. apply Permutation_refl.
Qed.

Print Assumptions C102_decomposition.
Print Assumptions C102_same_values.
Print Assumptions C102_same_particles.
Print Assumptions C102_deterministic.
Print Assumptions C102_none_in_layers.
Print Assumptions C102_survivors.
Print Assumptions C102_others_stay.
Print Assumptions C102_steps_exist.
Print Assumptions C102_runs_exist.
Print Assumptions C102_case.
