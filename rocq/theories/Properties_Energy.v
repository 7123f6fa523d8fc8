(** C113, C114: energy of the fields over whole runs of a simulation and stability of the time step (2D, periodic). *)
From Coq Require Import QArith Qabs Qcanon Permutation Lqa.
From Verif Require Import Base M_Layout M_PartSync S_PartSync M_FieldSync S_FieldSync M_Maxwell S_Maxwell M_Deposit S_Deposit M_Push M_Step S_Step S_Gauss S_Energy P_Deposit P_FieldSync P_FieldGeo P_Step3 P_Step4 P_Gauss2 P_Energy1 P_Energy2 P_Energy3 Properties_Step Properties_Laser.
Local Open Scope list_scope.
Local Open Scope Z_scope.

Section S.
Variable rsqrt : Q -> Q.
Hypothesis SUB : subluminal rsqrt.
Variable eps : Qc.

(** ** in every step the energy of the fields changes by the work of the stored current on the stored electric field, and
    by nothing else *)
Theorem C113_balance : forall D sps rank s s', domain_ok D -> ready D sps s -> consistent D s -> step2 rsqrt eps D sps rank s s' ->
  energy D eps s' = (energy D eps s - Q2Qc (2 * d_dt D) / eps * inner2 D (on_domain D (t_J s')) (on_domain D (t_E s')))%Qc.
Proof. intros D sps rank s s' OK R C T. exact (proj1 (balance_step eps D OK rsqrt SUB sps rank s s' R C T)). Qed.

(** ** without particles it never changes *)
Theorem C113_conserved : forall D sps k s s', domain_ok D -> ready D sps s -> consistent D s -> no_particles (t_parts s) ->
  steps2 rsqrt eps D sps k s s' -> energy D eps s' = energy D eps s.
Proof. intros D sps k s s' OK R C N T. exact (proj1 (balance_steps eps D OK rsqrt SUB sps k s s' R C N T)). Qed.

(** ** and the fields stay below a bound fixed by the start, for ever, when the time step is below the Courant limit *)
Theorem C113_bounded : forall D sps q k s s', domain_ok D -> courant2 D q -> ready D sps s -> consistent D s ->
  no_particles (t_parts s) -> (forall f i j, (f < 3)%nat -> on_domain D (t_J s) f [i; j] = Q2Qc 0) -> steps2 rsqrt eps D sps k s s' ->
  (norm2 D (on_domain D (t_E s')) + light2 * Q2Qc (1 - q) * norm2 D (on_domain D (t_B s')) <=
   norm2 D (on_domain D (t_E s)) + light2 * norm2 D (on_domain D (t_B s)))%Qc.
Proof.
  intros D sps q k s s' OK CFL R C N J T. destruct (balance_steps eps D OK rsqrt SUB sps k s s' R C N T) as (E & _ & J' & _ & (_ & (F & HF) & _)).
  specialize (J' J). unfold energy in E.
  assert (forall s E0 B, (forall f i j, (f < 3)%nat -> on_domain D (t_J s) f [i; j] = Q2Qc 0) -> energy_of D (fun f c => (on_domain D E0 f c - half D / eps * on_domain D (t_J s) f c)%Qc) B = energy_of D (on_domain D E0) B) as K.
  { intros s0 E0 B H. rewrite (energy_of_ext D _ (on_domain D E0) _ B), (energy_of_ext D (on_domain D E0) (on_domain D E0) B B); auto. intros f i j Hf. rewrite H by exact Hf. change (Q2Qc 0) with 0%Qc. ring. }
  rewrite !K in E by assumption. pose proof (low D OK q CFL (on_domain D (t_E s')) (t_B s') F HF) as L. rewrite E in L.
  exact (Qcle_trans _ _ _ L (high D _ _)).
Qed.
End S.

(** ** a case: a magnetic field in one cell of an empty periodic box of two patches *)
Definition blob (f : nat) (g : list Z) : Qc := match f, g with 2%nat, [2; 3] => 1%Qc | _, _ => 0%Qc end.
Definition blob_state : state2 := mkState2 (fun _ => Q2Qc 0) (paint [ex_axis 2; ex_axis 1] [3; 6] 3 2 (position2 (ex_axis 2)) blob) (fun _ => Q2Qc 0) [].
Lemma blob_ready : ready (ex_dom 2) [] blob_state. Proof. split; [reflexivity|constructor]. Qed.
Lemma blob_consistent : consistent (ex_dom 2) blob_state.
Proof.
  split; [eexists; apply ex_field|]. split; [|eexists; apply ex_cur]. exists blob. cbn [t_B blob_state].
  exact (paint_shows [ex_axis 2; ex_axis 1] [3; 6] 3 2 (position2 (ex_axis 2)) blob bounds2 opp2 ltac:(apply geometry2; lia)).
Qed.
Example C113_case : forall eps k, exists s', steps2 ex_rsqrt eps (ex_dom 2) [] k blob_state s' /\ courant2 (ex_dom 2) (1#2) /\
  energy (ex_dom 2) eps s' = energy (ex_dom 2) eps blob_state /\ norm2 (ex_dom 2) (on_domain (ex_dom 2) (t_B blob_state)) = 1%Qc /\
  (norm2 (ex_dom 2) (on_domain (ex_dom 2) (t_E s')) + light2 * Q2Qc (1 # 2) * norm2 (ex_dom 2) (on_domain (ex_dom 2) (t_B s')) <= light2)%Qc.
Proof.
  intros eps k. pose proof (ex_ok 2 (or_intror eq_refl)) as O2.
  destruct (C76_runs_exist ex_rsqrt ex_sub eps _ _ k blob_state O2 blob_ready blob_consistent) as (s' & T & _). exists s'. split; [exact T|].
  assert (courant2 (ex_dom 2) (1#2)) as CFL by (vm_compute; discriminate). split; [exact CFL|].
  split; [apply (C113_conserved ex_rsqrt ex_sub eps (ex_dom 2) [] k _ _ O2 blob_ready blob_consistent ltac:(constructor) T)|].
  assert (norm2 (ex_dom 2) (on_domain (ex_dom 2) (t_B blob_state)) = 1%Qc) as N by (apply Qc_is_canon; vm_compute; reflexivity). split; [exact N|].
  pose proof (C113_bounded ex_rsqrt ex_sub eps (ex_dom 2) [] (1#2) k blob_state s' O2 CFL blob_ready blob_consistent ltac:(constructor) ltac:(intros; reflexivity) T) as B.
  rewrite N in B. assert (norm2 (ex_dom 2) (on_domain (ex_dom 2) (t_E blob_state)) = 0%Qc) as Z by (apply Qc_is_canon; vm_compute; reflexivity).
  rewrite Z in B. replace (0 + light2 * 1)%Qc with light2 in B by ring. exact B.
Qed.

(** one cell counts in the sum *)
Lemma zsum_term N (f : Z -> Qc) i : (forall k, 0 <= f k)%Qc -> 0 <= i < N -> (f i <= zsum N f)%Qc.
Proof.
  intros P H. unfold zsum. assert (In i (zseq N)) as I by (unfold zseq; apply in_map_iff; exists (Z.to_nat i); split; [lia|apply in_seq; lia]).
  assert (forall l, (0 <= fold_right (fun i s => (f i + s)%Qc) (Q2Qc 0) l)%Qc) as T.
  { induction l as [|a l IH]; [apply Qcle_refl|]. cbn [fold_right]. rewrite <- (Qcplus_0_l 0) at 1. apply Qcplus_le_compat; auto. }
  induction (zseq N) as [|a l IH]; [destruct I|]. cbn [fold_right]. destruct I as [->|I].
  - rewrite <- (Qcplus_0_r (f i)) at 1. apply Qcplus_le_compat; [apply Qcle_refl|apply T].
  - rewrite <- (Qcplus_0_l (f i)). apply Qcplus_le_compat; auto.
Qed.
Lemma cell_pos (x y z : Qc) : (0 <= x * x + y * y + z * z)%Qc.
Proof. unfold Qcle. rewrite !this_plus, !this_mult. change (this 0) with 0%Q. nra. Qed.
Lemma zsum_pos N (f : Z -> Qc) : (forall k, 0 <= f k)%Qc -> (0 <= zsum N f)%Qc.
Proof. intro P. apply Qcle_trans with (zsum N (fun i => (0 * (fun _ => 0) i)%Qc)); [rewrite zsum_scale, Qcmult_0_l; apply Qcle_refl|]. apply zsum_le. intro i. rewrite Qcmult_0_l. apply P. Qed.
Lemma norm_pos D u : (0 <= norm2 D u)%Qc.
Proof. apply zsum_pos. intro i. apply zsum_pos. intro j. apply cell_pos. Qed.
Lemma cell_norm D u f i j : (f < 3)%nat -> 0 <= i < cells_x D -> 0 <= j < cells_y D -> (u f [i; j] * u f [i; j] <= norm2 D u)%Qc.
Proof.
  intros Hf Hi Hj. unfold norm2, inner2.
  eapply Qcle_trans; [|apply (zsum_term (cells_x D) (fun i => zsum (cells_y D) (fun j => (u 0%nat [i; j] * u 0%nat [i; j] + u 1%nat [i; j] * u 1%nat [i; j] + u 2%nat [i; j] * u 2%nat [i; j])%Qc)) i); [intro; apply zsum_pos; intro; apply cell_pos|exact Hi]].
  eapply Qcle_trans; [|apply (zsum_term (cells_y D) (fun j => (u 0%nat [i; j] * u 0%nat [i; j] + u 1%nat [i; j] * u 1%nat [i; j] + u 2%nat [i; j] * u 2%nat [i; j])%Qc) j); [intro; apply cell_pos|exact Hj]].
  unfold Qcle. rewrite !this_plus, !this_mult. destruct f as [|[|[|f]]]; [| | |lia]; set (a := this (u 0%nat [i; j])); set (b := this (u 1%nat [i; j])); set (c := this (u 2%nat [i; j])); clearbody a b c; nra.
Qed.
Lemma split_bound (l M e b x y : Qc) : (0 < l -> e + l * b <= M -> x <= e -> y <= b -> 0 <= e -> 0 <= b -> x <= M + M / l /\ y <= M + M / l)%Qc.
Proof.
  intros L B X Y E P. assert (0 <= M)%Qc as PM.
  { apply Qcle_trans with (e + l * b)%Qc; [|exact B]. rewrite <- (Qcplus_0_l 0) at 1. apply Qcplus_le_compat; [exact E|]. rewrite <- (Qcmult_0_l b). apply Qcmult_le_compat_r; [apply Qclt_le_weak; exact L|exact P]. }
  unfold Qcle, Qclt in *. rewrite ?this_plus, ?this_div, ?this_mult in *. change (this 0) with 0%Q in *.
  set (m := this M) in *. set (w := this l) in *. set (u := this b) in *. clearbody m w u.
  assert (0 <= m / w)%Q as Q0 by (apply Qle_shift_div_l; [exact L|lra]).
  assert (u <= m / w)%Q as Q1 by (apply Qle_shift_div_l; [exact L|lra]).
  assert (0 <= w * u)%Q by nra. split; lra.
Qed.

(** * C114: which time steps keep the fields bounded *)
(** The accepted range of dt_cfl is 0 < dt_cfl <= 1 (simulation.py:59); (c dt)^2 (dx^-2 + dy^-2) = dt_cfl^2. *)
Section Stable.
Variable rsqrt : Q -> Q.
Hypothesis SUB : subluminal rsqrt.
Variable eps : Qc.
Theorem C114_below_limit_partial : forall D sps q s, domain_ok D -> courant2 D q -> (q < 1)%Q -> ready D sps s -> consistent D s ->
  no_particles (t_parts s) -> (forall f i j, (f < 3)%nat -> on_domain D (t_J s) f [i; j] = Q2Qc 0) ->
  exists M, forall k s', steps2 rsqrt eps D sps k s s' -> forall f i j, (f < 3)%nat -> 0 <= i < cells_x D -> 0 <= j < cells_y D ->
    (on_domain D (t_E s') f [i; j] * on_domain D (t_E s') f [i; j] <= M /\ on_domain D (t_B s') f [i; j] * on_domain D (t_B s') f [i; j] <= M)%Qc.
Proof using SUB.
  intros D sps q s OK CFL Q1 R C N J.
  set (M := (norm2 D (on_domain D (t_E s)) + light2 * norm2 D (on_domain D (t_B s)))%Qc).
  assert (0 < light2 * Q2Qc (1 - q))%Qc as LQ.
  { unfold Qclt, light2. rewrite this_mult, !this_q2qc. change (this 0) with 0%Q. assert (0 < LIGHT_SPEED * LIGHT_SPEED)%Q as K by reflexivity. set (l := (LIGHT_SPEED * LIGHT_SPEED)%Q) in *. clearbody l. nra. }
  exists (M + M / (light2 * Q2Qc (1 - q)))%Qc. intros k s' T f i j Hf Hi Hj.
  pose proof (C113_bounded rsqrt SUB eps D sps q k s s' OK CFL R C N J T) as B. fold M in B.
  pose proof (cell_norm D (on_domain D (t_E s')) f i j Hf Hi Hj) as BE. pose proof (cell_norm D (on_domain D (t_B s')) f i j Hf Hi Hj) as BB.
  pose proof (norm_pos D (on_domain D (t_E s'))) as PE. pose proof (norm_pos D (on_domain D (t_B s'))) as PB.
  exact (split_bound _ _ _ _ _ _ LQ B BE BB PE PB).
Qed.
End Stable.

(** ** dt_cfl = 1 is accepted, and there an alternating electric field drives a magnetic field that grows without end *)
Definition sign (i j : Z) : Qc := if Z.even (i + j) then 1%Qc else (- (1))%Qc.
Lemma sign_x i j : sign (i + 1) j = (- sign i j)%Qc.
Proof. unfold sign. replace (i + 1 + j) with (Z.succ (i + j)) by lia. rewrite Z.even_succ, <- Z.negb_even. destruct (Z.even (i + j)); cbn [negb]; ring. Qed.
Lemma sign_y i j : sign i (j + 1) = (- sign i j)%Qc.
Proof. unfold sign. replace (i + (j + 1)) with (Z.succ (i + j)) by lia. rewrite Z.even_succ, <- Z.negb_even. destruct (Z.even (i + j)); cbn [negb]; ring. Qed.
Lemma sign_x' i j : sign (i - 1) j = (- sign i j)%Qc.
Proof. replace i with (i - 1 + 1) at 2 by lia. rewrite sign_x. ring. Qed.
Lemma sign_y' i j : sign i (j - 1) = (- sign i j)%Qc.
Proof. replace j with (j - 1 + 1) at 2 by lia. rewrite sign_y. ring. Qed.
(** E = l (1/dy, -1/dx, 0) and B = (0, 0, b), alternating from cell to cell *)
Definition alternating (D : domain2) (l b : Qc) (s : state2) : Prop := forall i j,
  on_domain D (t_E s) 0 [i; j] = (l / Q2Qc (d_dy D) * sign i j)%Qc /\ on_domain D (t_E s) 1 [i; j] = (- (l / Q2Qc (d_dx D)) * sign i j)%Qc /\ on_domain D (t_E s) 2 [i; j] = 0%Qc /\
  on_domain D (t_B s) 0 [i; j] = 0%Qc /\ on_domain D (t_B s) 1 [i; j] = 0%Qc /\ on_domain D (t_B s) 2 [i; j] = (b * sign i j)%Qc.
Section Limit.
Variable eps : Qc.
Variable D : domain2.
Hypothesis OK : domain_ok D.
Local Notation K := (/ Q2Qc (d_dx D) * / Q2Qc (d_dx D) + / Q2Qc (d_dy D) * / Q2Qc (d_dy D))%Qc.
Local Notation dt := (half D + half D)%Qc.
Hypothesis LIM : (light2 * dt * dt * K = 1)%Qc.
Lemma limit_step rsqrt (SUB : subluminal rsqrt) rank s s' l b : ready D [] s -> consistent D s -> (forall f i j, (f < 3)%nat -> on_domain D (t_J s) f [i; j] = Q2Qc 0) ->
  no_particles (t_parts s) -> alternating D l b s -> step2 rsqrt eps D [] rank s s' -> alternating D (- l) (- b - (1 + 1) * dt * K * l) s'.
Proof.
  intros R C J N A T. destruct (vacuum_values eps D OK rsqrt SUB [] rank s s' R C N J T) as (E1 & H1 & H2 & H3).
  set (m := (l + light2 * dt * b)%Qc).
  assert (HE : forall i j, E1 0%nat [i; j] = (m / Q2Qc (d_dy D) * sign i j)%Qc /\ E1 1%nat [i; j] = (- (m / Q2Qc (d_dx D)) * sign i j)%Qc /\ E1 2%nat [i; j] = 0%Qc).
  { intros i j. rewrite !H1 by lia. unfold curl2. destruct (A i j) as (-> & -> & -> & -> & -> & ->). destruct (A (i - 1) j) as (_ & _ & _ & _ & -> & ->). destruct (A i (j - 1)) as (_ & _ & _ & -> & _ & ->).
    rewrite sign_x', sign_y'. unfold m, Qcdiv. repeat split; ring. }
  set (b' := (- b - (1 + 1) * dt * K * l)%Qc).
  assert (HB : forall i j, on_domain D (t_B s') 0 [i; j] = 0%Qc /\ on_domain D (t_B s') 1 [i; j] = 0%Qc /\ on_domain D (t_B s') 2 [i; j] = (b' * sign i j)%Qc).
  { intros i j. rewrite !H2 by lia. unfold cf, lift, fx, fy, fz. destruct (A i j) as (_ & _ & _ & -> & -> & ->). destruct (HE i j) as (-> & -> & ->). destruct (HE (i + 1) j) as (_ & -> & ->). destruct (HE i (j + 1)) as (-> & _ & ->).
    rewrite sign_x, sign_y. split; [unfold Qcdiv; ring|]. split; [unfold Qcdiv; ring|].
    transitivity ((b - (1 + 1) * dt * K * l - (1 + 1) * (light2 * dt * dt * K) * b) * sign i j)%Qc; [unfold m, Qcdiv; ring|]. rewrite LIM. unfold b'. ring. }
  intros i j. destruct (HB i j) as (B0 & B1 & B2). destruct (HB (i - 1) j) as (_ & B1' & B2'). destruct (HB i (j - 1)) as (B0'' & _ & B2'').
  assert (light2 * dt * b' = - (light2 * dt * b) - (1 + 1) * l)%Qc as W.
  { unfold b'. transitivity (- (light2 * dt * b) - (1 + 1) * (light2 * dt * dt * K) * l)%Qc; [ring|]. rewrite LIM. ring. }
  rewrite !H3 by lia. unfold curl2. rewrite B0, B1, B2, B1', B2', B0'', B2'', sign_x', sign_y'. destruct (HE i j) as (-> & -> & ->).
  assert (forall d, m * d + light2 * dt * b' * d = - l * d)%Qc as W' by (intro d; rewrite W; unfold m; ring).
  split; [|split; [|split; [|split; [reflexivity|split; reflexivity]]]].
  - transitivity ((m * / Q2Qc (d_dy D) + light2 * dt * b' * / Q2Qc (d_dy D)) * sign i j)%Qc; [unfold Qcdiv; ring|]. rewrite W'. unfold Qcdiv. ring.
  - transitivity (- (m * / Q2Qc (d_dx D) + light2 * dt * b' * / Q2Qc (d_dx D)) * sign i j)%Qc; [unfold Qcdiv; ring|]. rewrite W'. unfold Qcdiv. ring.
  - unfold Qcdiv. ring.
Qed.
Lemma limit_steps rsqrt (SUB : subluminal rsqrt) k : forall s s' l b, ready D [] s -> consistent D s -> (forall f i j, (f < 3)%nat -> on_domain D (t_J s) f [i; j] = Q2Qc 0) ->
  no_particles (t_parts s) -> alternating D l b s -> steps2 rsqrt eps D [] k s s' ->
  exists g, (g * g = 1)%Qc /\ alternating D (g * l) (g * (b + (1 + 1) * dt * K * l * Q2Qc (inject_Z (Z.of_nat k)))) s'.
Proof.
  induction k as [|k IH]; intros s s' l b R C J N A T; inversion T as [|k' rank s0 s1 s2 T1 T2]; subst.
  { exists 1%Qc. split; [ring|]. change (Q2Qc (inject_Z (Z.of_nat 0))) with 0%Qc. replace (1 * l)%Qc with l by ring. replace (1 * (b + (1 + 1) * dt * K * l * 0))%Qc with b by ring. exact A. }
  destruct (balance_step eps D OK rsqrt SUB [] rank s s1 R C T1) as (_ & V & R1 & C1). destruct (V N) as [N1 J1].
  destruct (IH s1 s' _ _ R1 C1 ltac:(intros; apply J1; lia) N1 (limit_step rsqrt SUB rank s s1 l b R C J N A T1) T2) as (g & G & A2).
  exists (- g)%Qc. split; [rewrite <- G; ring|].
  replace (Q2Qc (inject_Z (Z.of_nat (S k)))) with (Q2Qc (inject_Z (Z.of_nat k)) + 1)%Qc.
  2:{ apply Qc_is_canon. rewrite this_plus, !this_q2qc. change (this 1) with 1%Q. rewrite Nat2Z.inj_succ. unfold Z.succ. rewrite inject_Z_plus. reflexivity. }
  replace (- g * l)%Qc with (g * - l)%Qc by ring.
  match goal with |- alternating _ _ ?x _ => match type of A2 with alternating _ _ ?y _ => replace x with y by ring end end. exact A2.
Qed.
End Limit.

Lemma large (M v : Q) : (0 < v)%Q -> exists k : nat, (M < 2 * v * inject_Z (Z.of_nat k) * (2 * v * inject_Z (Z.of_nat k)))%Q.
Proof.
  intro V. set (w := (2 * v)%Q). assert (0 < w)%Q as W by (unfold w; lra). clearbody w. clear V v.
  set (m := (Qabs M + 1)%Q). assert (M < m /\ 1 <= m)%Q as [M1 M2] by (unfold m; pose proof (Qle_Qabs M); pose proof (Qabs_nonneg M); split; lra). clearbody m.
  exists (Z.to_nat (Qround.Qceiling (m / w))). assert (0 <= m / w)%Q as P by (apply Qle_shift_div_l; lra).
  pose proof (Qround.Qle_ceiling (m / w)) as C. rewrite Z2Nat.id.
  - set (n := inject_Z _) in *. clearbody n. assert (m <= w * n)%Q as H.
    { setoid_replace m with (m / w * w)%Q by (field; lra). rewrite (Qmult_comm w). apply Qmult_le_compat_r; lra. }
    nra.
  - rewrite Zle_Qle. eapply Qle_trans; [|exact C]. exact P.
Qed.
(** dx = 3, dy = 4: dx^-2 + dy^-2 = (5/12)^2, so that dt = 12/5/c for dt_cfl = 1 *)
Definition lim_dom : domain2 := mkDomain2 (ex_axis 1) (ex_axis 1) 6 6 3 3 4 (12 / 5 / LIGHT_SPEED).
Definition lim_field (f : nat) (g : list Z) : Qc :=
  match f, g with 0%nat, [i; j] => (1 / Q2Qc 4 * sign i j)%Qc | 1%nat, [i; j] => (- (1 / Q2Qc 3) * sign i j)%Qc | _, _ => 0%Qc end.
Definition lim_state : state2 := mkState2 (paint [ex_axis 1; ex_axis 1] [6; 6] 3 1 (position2 (ex_axis 1)) lim_field) (fun _ => Q2Qc 0) (fun _ => Q2Qc 0) [].
Lemma lim_shows : field_is lim_dom lim_field (t_E lim_state).
Proof. exact (paint_shows [ex_axis 1; ex_axis 1] [6; 6] 3 1 (position2 (ex_axis 1)) lim_field bounds2 opp2 ltac:(apply geometry2; lia)). Qed.
Lemma lim_ok : domain_ok lim_dom.
Proof. constructor; cbn; try (split; [reflexivity|reflexivity]); try lia; repeat split; try reflexivity; vm_compute; discriminate. Qed.
Lemma sign_mod i j : sign (i mod 6) (j mod 6) = sign i j.
Proof.
  unfold sign. assert (Z.even (i mod 6 + j mod 6) = Z.even (i + j)) as ->; [|reflexivity]. pose proof (Z.div_mod i 6 ltac:(lia)) as A. pose proof (Z.div_mod j 6 ltac:(lia)) as B.
  rewrite A, B at 2. replace (6 * (i / 6) + i mod 6 + (6 * (j / 6) + j mod 6)) with (i mod 6 + j mod 6 + 2 * (3 * (i / 6) + 3 * (j / 6))) by ring. rewrite Z.even_add_mul_2. reflexivity.
Qed.
Theorem C114_at_limit_refuted : courant2 lim_dom 1 /\ domain_ok lim_dom /\ ready lim_dom [] lim_state /\ consistent lim_dom lim_state /\
  forall rsqrt eps M, subluminal rsqrt -> exists k, (exists s', steps2 rsqrt eps lim_dom [] k lim_state s') /\
  forall s', steps2 rsqrt eps lim_dom [] k lim_state s' ->
    (M < on_domain lim_dom (t_B s') 2 [0; 0]%Z * on_domain lim_dom (t_B s') 2 [0; 0]%Z)%Qc.
Proof.
  split; [vm_compute; discriminate|]. split; [exact lim_ok|].
  assert (ready lim_dom [] lim_state) as R by (split; [reflexivity|constructor]). split; [exact R|].
  assert (consistent lim_dom lim_state) as C by (split; [exists lim_field; exact lim_shows|]; split; eexists; [apply ex_field|apply ex_cur]). split; [exact C|].
  intros rsqrt eps M SUB.
  assert (alternating lim_dom 1 0 lim_state) as A.
  { intros i j. rewrite !(read_field lim_dom lim_ok _ _ _ i j lim_shows) by lia. rewrite !shown0 by exact lim_ok. change (cells_x lim_dom) with 6. change (cells_y lim_dom) with 6.
    unfold lim_field. rewrite sign_mod. split; [reflexivity|]. split; [reflexivity|]. split; [reflexivity|]. split; [reflexivity|]. split; [reflexivity|]. change (Q2Qc 0 = (0 * sign i j)%Qc). change (Q2Qc 0) with 0%Qc. ring. }
  assert (light2 * (half lim_dom + half lim_dom) * (half lim_dom + half lim_dom) * (/ Q2Qc (d_dx lim_dom) * / Q2Qc (d_dx lim_dom) + / Q2Qc (d_dy lim_dom) * / Q2Qc (d_dy lim_dom)) = 1)%Qc as LIM by (apply Qc_is_canon; vm_compute; reflexivity).
  set (v := ((half lim_dom + half lim_dom) * (/ Q2Qc (d_dx lim_dom) * / Q2Qc (d_dx lim_dom) + / Q2Qc (d_dy lim_dom) * / Q2Qc (d_dy lim_dom)))%Qc).
  assert (0 < this v)%Q as V by (vm_compute; reflexivity).
  destruct (large (this M) (this v) V) as [k Hk]. exists k.
  split; [destruct (C76_runs_exist rsqrt SUB eps lim_dom [] k lim_state lim_ok R C) as (s' & T & _); exists s'; exact T|].
  intros s' T. destruct (limit_steps eps lim_dom lim_ok LIM rsqrt SUB k lim_state s' 1 0 R C ltac:(intros; reflexivity) ltac:(constructor) A T) as (g & G & A').
  destruct (A' 0 0) as (_ & _ & _ & _ & _ & ->). change (sign 0 0) with 1%Qc. set (n := Q2Qc (inject_Z (Z.of_nat k))).
  match goal with |- (_ < ?x)%Qc => replace x with ((g * g) * (((1 + 1) * v * n) * ((1 + 1) * v * n)))%Qc by (unfold v; ring) end. rewrite G.
  unfold Qclt. rewrite !this_mult, !this_plus. unfold n. rewrite (this_q2qc (inject_Z _)). change (this 1) with 1%Q. eapply Qlt_le_trans; [exact Hk|]. apply Qle_lteq. right. ring.
Qed.

Print Assumptions C113_balance.
Print Assumptions C113_conserved.
Print Assumptions C113_bounded.
Print Assumptions C113_case.
Print Assumptions C114_below_limit_partial.
Print Assumptions C114_at_limit_refuted.
