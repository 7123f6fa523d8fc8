(** C98: a whole simulation (3D, periodic, species pushed by the fused kernel) gives the same result however the domain is cut
    into patches, whichever process holds which patch, and in whatever order threads, messages and sorting work. *)
From Coq Require Import QArith Qabs Qcanon Permutation Lqa.
From Verif Require Import Base M_Layout M_PartSync S_PartSync M_FieldSync S_FieldSync M_Maxwell S_Maxwell M_Deposit M_Push M_Step S_Step M_Step3D S_Step3D P_Step1 P_StepD7 P_StepD8.
Local Open Scope list_scope.
Local Open Scope Z_scope.

Section S.
Variable rsqrt : Q -> Q.
Hypothesis SUB : subluminal rsqrt.
Variable eps : Qc.

(** ** after any number of steps the two simulations agree, and every particle lies in its patch again *)
Theorem C98_decomposition : forall D D' sps sps' k s s' s1 s1',
  domain3_ok D -> domain3_ok D' -> same_domain3 D D' -> Forall2 same_species sps sps' -> all_fused sps -> all_fused sps' ->
  ready3 D sps s -> ready3 D' sps' s' -> same_state3 D D' s s' ->
  steps3d rsqrt eps D sps k s s1 -> steps3d rsqrt eps D' sps' k s' s1' ->
  same_state3 D D' s1 s1' /\ ready3 D sps s1 /\ ready3 D' sps' s1'.
Proof. intros D D' sps sps' k s s' s1 s1' OK OK' SD SP U U'. exact (same_steps3 rsqrt SUB eps D D' OK OK' SD sps sps' SP U U' k s s' s1 s1'). Qed.

(** ** read off at a single cell: two cells of the two simulations at the same place of the domain hold the same E and B (guard
    cells included) and, inside the patches, the same current and charge densities *)
Theorem C98_same_values : forall D D' sps sps' k s s' s1 s1' f p p' c c' g,
  domain3_ok D -> domain3_ok D' -> same_domain3 D D' -> Forall2 same_species sps sps' -> all_fused sps -> all_fused sps' ->
  ready3 D sps s -> ready3 D' sps' s' -> same_state3 D D' s s' ->
  steps3d rsqrt eps D sps k s s1 -> steps3d rsqrt eps D' sps' k s' s1' ->
  (p < npatches3 D)%nat -> (p' < npatches3 D')%nat ->
  place [e_ax D; e_ay D; e_az D] [e_nx D; e_ny D; e_nz D] (position3 (e_ax D) (e_ay D) p) c = Some g ->
  place [e_ax D'; e_ay D'; e_az D'] [e_nx D'; e_ny D'; e_nz D'] (position3 (e_ax D') (e_ay D') p') c' = Some g ->
  let at_ := cell [e_nx D; e_ny D; e_nz D] (e_ng D) f p c in let at_' := cell [e_nx D'; e_ny D'; e_nz D'] (e_ng D') f p' c' in
  ((f < 3)%nat -> within (e_ng D) [e_nx D; e_ny D; e_nz D] c -> within (e_ng D') [e_nx D'; e_ny D'; e_nz D'] c' ->
     t_E s1 at_ = t_E s1' at_' /\ t_B s1 at_ = t_B s1' at_') /\
  ((f < 4)%nat -> interior [e_nx D; e_ny D; e_nz D] c -> interior [e_nx D'; e_ny D'; e_nz D'] c' -> t_J s1 at_ = t_J s1' at_').
Proof.
  intros D D' sps sps' k s s' s1 s1' f p p' c c' g OK OK' SD SP U U' R R' S T T' Hp Hp' G G' at_ at_'.
  destruct (C98_decomposition D D' sps sps' k s s' s1 s1' OK OK' SD SP U U' R R' S T T') as (((FE & E1 & E2) & (FB & B1 & B2) & (FJ & J1 & J2) & _) & _).
  split.
  - intros Hf W W'. unfold at_, at_'. rewrite (E1 f p c Hf Hp W), (E2 f p' c' Hf Hp' W'), (B1 f p c Hf Hp W), (B2 f p' c' Hf Hp' W'). unfold shown. rewrite G, G'. auto.
  - intros Hf W W'. unfold at_, at_'. rewrite (J1 f p c Hf Hp W), (J2 f p' c' Hf Hp' W'). unfold shown. rewrite G, G'. reflexivity.
Qed.
(** ** and for the particles: the same number of particles of every species, with the same attributes *)
Theorem C98_same_particles : forall D D' sps sps' k s s' s1 s1' i r,
  domain3_ok D -> domain3_ok D' -> same_domain3 D D' -> Forall2 same_species sps sps' -> all_fused sps -> all_fused sps' ->
  ready3 D sps s -> ready3 D' sps' s' -> same_state3 D D' s s' ->
  steps3d rsqrt eps D sps k s s1 -> steps3d rsqrt eps D' sps' k s' s1' ->
  length (particles (nth i (t_parts s1) [])) = length (particles (nth i (t_parts s1') [])) /\
  (In r (particles (nth i (t_parts s1) [])) -> exists r', In r' (particles (nth i (t_parts s1') [])) /\ canon r' = canon r).
Proof.
  intros D D' sps sps' k s s' s1 s1' i r OK OK' SD SP U U' R R' S T T'.
  destruct (C98_decomposition D D' sps sps' k s s' s1 s1' OK OK' SD SP U U' R R' S T T') as ((_ & _ & _ & P) & _).
  assert (same_particles (nth i (t_parts s1) []) (nth i (t_parts s1') [])) as Pi.
  { clear - P. revert i. induction P as [|st st' ps ps' H P IH]; intros [|i]; cbn [nth]; auto; apply Permutation_refl. }
  unfold same_particles in Pi. split; [apply Permutation_length in Pi; rewrite !map_length in Pi; exact Pi|]. intro I.
  pose proof (Permutation_in (canon r) Pi (in_map canon _ _ I)) as X. apply in_map_iff in X. destruct X as (r' & E & I'). exists r'. auto.
Qed.

(** ** one decomposition: the result depends neither on the schedules nor on the distribution over processes *)
Theorem C98_deterministic : forall D sps k s s1 s2, domain3_ok D -> all_fused sps -> ready3 D sps s -> consistent3 D s ->
  steps3d rsqrt eps D sps k s s1 -> steps3d rsqrt eps D sps k s s2 -> same_state3 D D s1 s2.
Proof.
  intros D sps k s s1 s2 OK U R ((FE & HE) & (FB & HB) & FJ & HJ) T1 T2.
  refine (proj1 (C98_decomposition D D sps sps k s s s1 s2 OK OK _ _ U U R R _ T1 T2)).
  - unfold same_domain3. auto 10.
  - clear. induction sps; constructor; auto. split; reflexivity.
  - split; [exists FE; auto|]. split; [exists FB; auto|]. split; [exists FJ; auto|].
    clear. induction (t_parts s); constructor; auto. apply Permutation_refl.
Qed.

(** ** every step can be carried out, with any distribution over processes and after any reordering of the particles, and the
    state after it is again one from which the next step can be carried out *)
Theorem C98_steps_exist : forall D sps rank s ps1, domain3_ok D -> all_fused sps -> ready3 D sps s -> consistent3 D s -> Forall2 sorted2 (t_parts s) ps1 ->
  exists s', step3d rsqrt eps D sps rank s s' /\ ready3 D sps s' /\ consistent3 D s'.
Proof. intros D sps rank s ps1 OK U R C S. exact (step3_exists rsqrt eps D sps rank s SUB OK U R C ps1 S). Qed.
Theorem C98_runs_exist : forall D sps k s, domain3_ok D -> all_fused sps -> ready3 D sps s -> consistent3 D s ->
  exists s', steps3d rsqrt eps D sps k s s' /\ ready3 D sps s' /\ consistent3 D s'.
Proof. intros D sps k s OK U R C. exact (steps3_exist rsqrt eps D sps k SUB OK U s R C). Qed.
End S.

(** ** a case: 6 x 6 x 3 cells as one patch, and as two patches of 3 x 6 x 3 cells; an electron-like particle on the way from
    the left patch to the right one and another leaving through the periodic ends along x and z *)
Ltac ey_in I := cbn in I; repeat (destruct I as [I|I]; [subst; eexists; eexists; eexists; (split; [reflexivity|split; [reflexivity|split; [reflexivity|]]]);
    (split; [split; vm_compute; discriminate|split; [split; vm_compute; discriminate|split; [split; vm_compute; discriminate|repeat split; vm_compute; discriminate]]])|]); try contradiction.
Definition ey_axis (k : Z) : axis := mkAxis k Periodic Periodic.
Definition ey_rsqrt (s : Q) : Q := (1 / s)%Q.
Definition ey_dom (k : Z) : domain3 := mkDomain3 (ey_axis k) (ey_axis 1) (ey_axis 1) (6 / k) 6 3 3 1 1 1 (1 # 599584916).
Definition ey_part (dead : bool) (x y z ux uz : Q) (id : Z) : prt :=
  M_PartSync.mkSlot _ (mkRow _ (Some x) (Some y) (Some z) (mkBody ux (1#3) uz (3#4) 2 (mkSix 0 0 0 0 0 0)%Q id)) dead.
Definition ey_state (l : list (list prt)) : state2 := mkState2 (fun _ => Q2Qc 0) (fun _ => Q2Qc 0) (fun _ => Q2Qc 0) [l].
Definition ey_one := ey_state [[ey_part false (12#5) 3 1 1 0 7; ey_part true 0 0 0 0 0 0; ey_part false (26#5) 2 (11#5) (5#4) (1#2) 8]].
Definition ey_two := ey_state [[ey_part true 1 1 1 1 0 9; ey_part false (24#10) 3 1 1 0 7]; [ey_part false (26#5) (4#2) (11#5) (5#4) (1#2) 8]].
Definition ey_species := [mkSpecies (-1) 1 true].
Lemma ey_sub : subluminal ey_rsqrt.
Proof.
  split.
  - intros x y E. unfold ey_rsqrt. rewrite E. reflexivity.
  - intros u s H. unfold ey_rsqrt. assert (0 < s)%Q by nra.
    setoid_replace (u * (1 / s))%Q with (u / s)%Q by (field; lra). apply Qabs_Qle_condition. split.
    + apply Qle_shift_div_l; [assumption|]. nra.
    + apply Qle_shift_div_r; [assumption|]. nra.
Qed.
Lemma ey_ok : forall k, k = 1 \/ k = 2 -> domain3_ok (ey_dom k).
Proof. intros k [-> | ->]; (split; [split; reflexivity|split; reflexivity|split; reflexivity|cbn; lia|cbn; lia|repeat split; reflexivity|repeat split; try reflexivity; vm_compute; discriminate]). Qed.
Lemma ey_field : forall D, field3_is D (fun _ _ => Q2Qc 0) (fun _ => Q2Qc 0).
Proof. intros D f p c _ _ _; unfold shown; destruct (place _ _ _ _); reflexivity. Qed.
Lemma ey_cur : forall D, currents3_are D (fun _ _ => Q2Qc 0) (fun _ => Q2Qc 0).
Proof. intros D f p c _ _ _; unfold shown; destruct (place _ _ _ _); reflexivity. Qed.
Example C98_case : forall k rs rs', exists s1 s1',
  steps3d ey_rsqrt rs (ey_dom 1) ey_species k ey_one s1 /\ steps3d ey_rsqrt rs' (ey_dom 2) ey_species k ey_two s1' /\ (rs = rs' -> same_state3 (ey_dom 1) (ey_dom 2) s1 s1').
Proof.
  assert (AF : all_fused ey_species) by (constructor; [reflexivity|constructor]).
  intros k e e'. pose proof (ey_ok 1 (or_introl eq_refl)) as O1. pose proof (ey_ok 2 (or_intror eq_refl)) as O2.
  assert (R1 : ready3 (ey_dom 1) ey_species ey_one).
  { split; [reflexivity|]. constructor; [|constructor]. split; [reflexivity|]. intros p r Hp I. assert (p = 0)%nat as -> by (change (npatches3 (ey_dom 1)) with 1%nat in Hp; lia). ey_in I. }
  assert (R2 : ready3 (ey_dom 2) ey_species ey_two).
  { split; [reflexivity|]. constructor; [|constructor]. split; [reflexivity|]. intros p r Hp I. change (npatches3 (ey_dom 2)) with 2%nat in Hp.
    destruct p as [|[|p]]; [| |lia]; ey_in I. }
  assert (C : forall D l, consistent3 D (ey_state l)) by (intros D l; split; [|split]; eexists; try apply ey_field; apply ey_cur).
  destruct (C98_runs_exist ey_rsqrt ey_sub e _ _ k ey_one O1 AF R1 (C _ _)) as (s1 & T1 & _).
  destruct (C98_runs_exist ey_rsqrt ey_sub e' _ _ k ey_two O2 AF R2 (C _ _)) as (s1' & T2 & _).
  exists s1, s1'. split; [exact T1|]. split; [exact T2|]. intros <-.
  refine (proj1 (C98_decomposition ey_rsqrt ey_sub e (ey_dom 1) (ey_dom 2) ey_species ey_species k ey_one ey_two s1 s1' O1 O2 _ _ AF AF R1 R2 _ T1 T2)).
  - unfold same_domain3. auto 10.
  - constructor; [split; reflexivity|constructor].
  - split; [eexists; split; apply ey_field|]. split; [eexists; split; apply ey_field|]. split; [eexists; split; apply ey_cur|].
    constructor; [|constructor]. unfold same_particles. vm_compute. apply Permutation_refl.
Qed.

Print Assumptions C98_decomposition.
Print Assumptions C98_same_values.
Print Assumptions C98_same_particles.
Print Assumptions C98_deterministic.
Print Assumptions C98_steps_exist.
Print Assumptions C98_runs_exist.
Print Assumptions C98_case.
