(** C76: a whole simulation (2D, periodic) gives the same result however the domain is cut into patches, whichever process
    holds which patch, in whatever order threads, messages and sorting work, and whether species are pushed by the fused
    kernel or in stages. *)
From Coq Require Import QArith Qabs Qcanon Permutation Lqa.
From Verif Require Import Base M_Layout M_PartSync S_PartSync M_FieldSync S_FieldSync M_Maxwell S_Maxwell M_Deposit M_Push M_Step S_Step P_Step1 P_Step7 P_Step8.
Local Open Scope list_scope.
Local Open Scope Z_scope.

Section S.
Variable rsqrt : Q -> Q.
Hypothesis SUB : subluminal rsqrt.
Variable eps : Qc.

(** ** after any number of steps the two simulations agree, and every particle lies in its patch again *)
Theorem C76_decomposition : forall D D' sps sps' k s s' s1 s1',
  domain_ok D -> domain_ok D' -> same_domain D D' -> Forall2 same_species sps sps' ->
  ready D sps s -> ready D' sps' s' -> same_state D D' s s' ->
  steps2 rsqrt eps D sps k s s1 -> steps2 rsqrt eps D' sps' k s' s1' ->
  same_state D D' s1 s1' /\ ready D sps s1 /\ ready D' sps' s1'.
Proof. intros D D' sps sps' k s s' s1 s1' OK OK' SD SP. exact (same_steps rsqrt SUB eps D D' OK OK' SD sps sps' SP k s s' s1 s1'). Qed.

(** ** read off at a single cell: two cells of the two simulations at the same place of the domain hold the same E and B (guard
    cells included) and, inside the patches, the same current and charge densities *)
Theorem C76_same_values : forall D D' sps sps' k s s' s1 s1' f p p' c c' g,
  domain_ok D -> domain_ok D' -> same_domain D D' -> Forall2 same_species sps sps' ->
  ready D sps s -> ready D' sps' s' -> same_state D D' s s' ->
  steps2 rsqrt eps D sps k s s1 -> steps2 rsqrt eps D' sps' k s' s1' ->
  (p < npatches2 D)%nat -> (p' < npatches2 D')%nat ->
  place [d_ax D; d_ay D] [d_nx D; d_ny D] (position2 (d_ax D) p) c = Some g ->
  place [d_ax D'; d_ay D'] [d_nx D'; d_ny D'] (position2 (d_ax D') p') c' = Some g ->
  let at_ := cell [d_nx D; d_ny D] (d_ng D) f p c in let at_' := cell [d_nx D'; d_ny D'] (d_ng D') f p' c' in
  ((f < 3)%nat -> within (d_ng D) [d_nx D; d_ny D] c -> within (d_ng D') [d_nx D'; d_ny D'] c' ->
     t_E s1 at_ = t_E s1' at_' /\ t_B s1 at_ = t_B s1' at_') /\
  ((f < 4)%nat -> interior [d_nx D; d_ny D] c -> interior [d_nx D'; d_ny D'] c' -> t_J s1 at_ = t_J s1' at_').
Proof.
  intros D D' sps sps' k s s' s1 s1' f p p' c c' g OK OK' SD SP R R' S T T' Hp Hp' G G' at_ at_'.
  destruct (C76_decomposition D D' sps sps' k s s' s1 s1' OK OK' SD SP R R' S T T') as (((FE & E1 & E2) & (FB & B1 & B2) & (FJ & J1 & J2) & _) & _).
  split.
  - intros Hf W W'. unfold at_, at_'. rewrite (E1 f p c Hf Hp W), (E2 f p' c' Hf Hp' W'), (B1 f p c Hf Hp W), (B2 f p' c' Hf Hp' W'). unfold shown. rewrite G, G'. auto.
  - intros Hf W W'. unfold at_, at_'. rewrite (J1 f p c Hf Hp W), (J2 f p' c' Hf Hp' W'). unfold shown. rewrite G, G'. reflexivity.
Qed.
(** ** and for the particles: the same number of particles of every species, with the same attributes *)
Theorem C76_same_particles : forall D D' sps sps' k s s' s1 s1' i r,
  domain_ok D -> domain_ok D' -> same_domain D D' -> Forall2 same_species sps sps' ->
  ready D sps s -> ready D' sps' s' -> same_state D D' s s' ->
  steps2 rsqrt eps D sps k s s1 -> steps2 rsqrt eps D' sps' k s' s1' ->
  length (particles (nth i (t_parts s1) [])) = length (particles (nth i (t_parts s1') [])) /\
  (In r (particles (nth i (t_parts s1) [])) -> exists r', In r' (particles (nth i (t_parts s1') [])) /\ canon r' = canon r).
Proof.
  intros D D' sps sps' k s s' s1 s1' i r OK OK' SD SP R R' S T T'.
  destruct (C76_decomposition D D' sps sps' k s s' s1 s1' OK OK' SD SP R R' S T T') as ((_ & _ & _ & P) & _).
  assert (same_particles (nth i (t_parts s1) []) (nth i (t_parts s1') [])) as Pi.
  { clear - P. revert i. induction P as [|st st' ps ps' H P IH]; intros [|i]; cbn [nth]; auto; apply Permutation_refl. }
  unfold same_particles in Pi. split; [apply Permutation_length in Pi; rewrite !map_length in Pi; exact Pi|]. intro I.
  pose proof (Permutation_in (canon r) Pi (in_map canon _ _ I)) as X. apply in_map_iff in X. destruct X as (r' & E & I'). exists r'. auto.
Qed.

(** ** one decomposition: the result depends neither on the schedules nor on the distribution over processes *)
Theorem C76_deterministic : forall D sps k s s1 s2, domain_ok D -> ready D sps s -> consistent D s ->
  steps2 rsqrt eps D sps k s s1 -> steps2 rsqrt eps D sps k s s2 -> same_state D D s1 s2.
Proof.
  intros D sps k s s1 s2 OK R ((FE & HE) & (FB & HB) & FJ & HJ) T1 T2.
  refine (proj1 (C76_decomposition D D sps sps k s s s1 s2 OK OK _ _ R R _ T1 T2)).
  - unfold same_domain. auto.
  - clear. induction sps; constructor; auto. split; reflexivity.
  - split; [exists FE; auto|]. split; [exists FB; auto|]. split; [exists FJ; auto|].
    clear. induction (t_parts s); constructor; auto. apply Permutation_refl.
Qed.

(** ** every step can be carried out, with any distribution over processes and after any reordering of the particles, and the
    state after it is again one from which the next step can be carried out *)
Theorem C76_steps_exist : forall D sps rank s ps1, domain_ok D -> ready D sps s -> consistent D s -> Forall2 sorted2 (t_parts s) ps1 ->
  exists s', step2 rsqrt eps D sps rank s s' /\ ready D sps s' /\ consistent D s'.
Proof. intros D sps rank s ps1 OK R C S. exact (step_exists rsqrt eps D sps rank s SUB OK R C ps1 S). Qed.
Theorem C76_runs_exist : forall D sps k s, domain_ok D -> ready D sps s -> consistent D s ->
  exists s', steps2 rsqrt eps D sps k s s' /\ ready D sps s' /\ consistent D s'.
Proof. intros D sps k s OK R C. exact (steps_exist rsqrt eps D sps k SUB OK s R C). Qed.
End S.

(** ** a case: 6 x 6 cells as one patch, and as two patches of 3 x 6 cells; an electron-like particle on the way from the left
    patch to the right one and another leaving through the periodic end *)
Definition ex_axis (k : Z) : axis := mkAxis k Periodic Periodic.
Definition ex_rsqrt (s : Q) : Q := (1 / s)%Q.
Definition ex_dom (k : Z) : domain2 := mkDomain2 (ex_axis k) (ex_axis 1) (6 / k) 6 3 1 1 (1 # 599584916).
Definition ex_part (dead : bool) (x y ux : Q) (id : Z) : prt :=
  M_PartSync.mkSlot _ (mkRow _ (Some x) (Some y) (Some 0%Q) (mkBody ux (1#3) 0 (3#4) 2 (mkSix 0 0 0 0 0 0)%Q id)) dead.
Definition ex_state (l : list (list prt)) : state2 := mkState2 (fun _ => Q2Qc 0) (fun _ => Q2Qc 0) (fun _ => Q2Qc 0) [l].
Definition ex_one := ex_state [[ex_part false (12#5) 3 1 7; ex_part true 0 0 0 0; ex_part false (26#5) 2 (5#4) 8]].
Definition ex_two := ex_state [[ex_part true 1 1 1 9; ex_part false (24#10) 3 1 7]; [ex_part false (26#5) (4#2) (5#4) 8]].
Definition ex_species (u : bool) := [mkSpecies (-1) 1 u].
Lemma ex_sub : subluminal ex_rsqrt.
Proof.
  split.
  - intros x y E. unfold ex_rsqrt. rewrite E. reflexivity.
  - intros u s H. unfold ex_rsqrt. assert (0 < s)%Q by nra.
    setoid_replace (u * (1 / s))%Q with (u / s)%Q by (field; lra). apply Qabs_Qle_condition. split.
    + apply Qle_shift_div_l; [assumption|]. nra.
    + apply Qle_shift_div_r; [assumption|]. nra.
Qed.
Lemma ex_ok k : k = 1 \/ k = 2 -> domain_ok (ex_dom k).
Proof. intros [-> | ->]; (split; [split; reflexivity|split; reflexivity|cbn; lia|cbn; lia|split; reflexivity|split; [reflexivity|split; vm_compute; discriminate]]). Qed.
Lemma ex_field D : field_is D (fun _ _ => Q2Qc 0) (fun _ => Q2Qc 0).
Proof. intros f p c _ _ _. unfold shown. destruct (place _ _ _ _); reflexivity. Qed.
Lemma ex_cur D : currents_are D (fun _ _ => Q2Qc 0) (fun _ => Q2Qc 0).
Proof. intros f p c _ _ _. unfold shown. destruct (place _ _ _ _); reflexivity. Qed.
Ltac ex_in I := cbn in I; repeat (destruct I as [I|I]; [subst; eexists; eexists; (split; [reflexivity|split; [reflexivity|]]); (split; [split; vm_compute; discriminate|split; [split; vm_compute; discriminate|split; vm_compute; discriminate]])|]); try contradiction.
Example C76_case : forall k rs rs', exists s1 s1',
  steps2 ex_rsqrt rs (ex_dom 1) (ex_species true) k ex_one s1 /\ steps2 ex_rsqrt rs' (ex_dom 2) (ex_species false) k ex_two s1' /\ (rs = rs' -> same_state (ex_dom 1) (ex_dom 2) s1 s1').
Proof.
  intros k e e'. pose proof (ex_ok 1 (or_introl eq_refl)) as O1. pose proof (ex_ok 2 (or_intror eq_refl)) as O2.
  assert (R1 : ready (ex_dom 1) (ex_species true) ex_one).
  { split; [reflexivity|]. constructor; [|constructor]. split; [reflexivity|]. intros p r Hp I. assert (p = 0)%nat as -> by (change (npatches2 (ex_dom 1)) with 1%nat in Hp; lia). ex_in I. }
  assert (R2 : ready (ex_dom 2) (ex_species false) ex_two).
  { split; [reflexivity|]. constructor; [|constructor]. split; [reflexivity|]. intros p r Hp I. change (npatches2 (ex_dom 2)) with 2%nat in Hp.
    destruct p as [|[|p]]; [| |lia]; ex_in I. }
  assert (C : forall D l, consistent D (ex_state l)) by (intros D l; split; [|split]; eexists; try apply ex_field; apply ex_cur).
  destruct (C76_runs_exist ex_rsqrt ex_sub e _ _ k ex_one O1 R1 (C _ _)) as (s1 & T1 & _).
  destruct (C76_runs_exist ex_rsqrt ex_sub e' _ _ k ex_two O2 R2 (C _ _)) as (s1' & T2 & _).
  exists s1, s1'. split; [exact T1|]. split; [exact T2|]. intros <-.
  refine (proj1 (C76_decomposition ex_rsqrt ex_sub e (ex_dom 1) (ex_dom 2) (ex_species true) (ex_species false) k ex_one ex_two s1 s1' O1 O2 _ _ R1 R2 _ T1 T2)).
  - unfold same_domain. auto.
  - constructor; [split; reflexivity|constructor].
  - split; [eexists; split; apply ex_field|]. split; [eexists; split; apply ex_field|]. split; [eexists; split; apply ex_cur|].
    constructor; [|constructor]. unfold same_particles. vm_compute. apply Permutation_refl.
Qed.

Print Assumptions C76_decomposition.
Print Assumptions C76_same_values.
Print Assumptions C76_same_particles.
Print Assumptions C76_deterministic.
Print Assumptions C76_steps_exist.
Print Assumptions C76_runs_exist.
Print Assumptions C76_case.
