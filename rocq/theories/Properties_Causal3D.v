(** C134: C127 in three dimensions: nothing travels faster than eight cells per time step. *)
From Coq Require Import QArith Qround Qabs Qcanon Permutation Lqa.
From Verif Require Import Base M_Layout M_PartSync S_PartSync M_FieldSync S_FieldSync M_Maxwell S_Maxwell M_Deposit S_Deposit M_Push S_Push M_Step S_Step S_Causal M_Step3D S_Step3D S_Gauss3D S_Causal3D
  P_Deposit P_Maxwell P_Maxwell2 P_Maxwell3 P_Step3 P_Step4 P_Step5 P_Causal1 P_StepD2 P_StepD5 P_StepD7 P_StepD8 P_GaussD1 P_GaussD2 P_CausalD1 P_CausalD2 Properties_Step3D.
Local Open Scope list_scope.
Local Open Scope Z_scope.

Section S.
Variable rsqrt : Q -> Q.
Hypothesis SUB : subluminal rsqrt.
Variable eps : Qc.

(** ** two runs that agree3 in a region3 at the start still agree3, after k steps, on all cells and particles deeper than 8 k
    cells inside3 the region3; the cuts into patches, the processes and the schedules of the two runs do not matter, nor does
    anything outside the region3 *)
Theorem C134_local : forall D D' sps sps' P k s s' s1 s1',
  domain3_ok D -> domain3_ok D' -> same_domain3 D D' -> Forall2 same_species sps sps' -> all_fused sps -> all_fused sps' ->
  ready3 D sps s -> ready3 D' sps' s' -> consistent3 D s -> consistent3 D' s' -> agree3 D D' P s s' ->
  steps3d rsqrt eps D sps k s s1 -> steps3d rsqrt eps D' sps' k s' s1' ->
  agree3 D D' (deep3 D (8 * k) P) s1 s1'.
Proof.
  intros D D' sps sps' P k s s' s1 s1' OK OK' SD SP U U' R R' C C' A T T'. apply local_end3; [exact OK|exact OK'|exact SD|].
  exact (proj1 (local_steps3 rsqrt SUB eps D D' OK OK' SD sps sps' SP U U' P k 0 s s' s1 s1' R R' (local_start3 D D' OK OK' SD P s s' C C' A) T T')).
Qed.

(** ** the same for one cell: only the box3 of 8 k cells around it matters *)
Definition box3 (D : domain3) (d : nat) (a b c : Z) : region3 := fun i j k =>
  existsb (fun u => (a + u) mod cells3_x D =? i) (span d) && existsb (fun u => (b + u) mod cells3_y D =? j) (span d) && existsb (fun u => (c + u) mod cells3_z D =? k) (span d).
Lemma box3_deep D d a b c : deep3 D d (box3 D d a b c) a b c = true.
Proof using.
  unfold deep3. apply forallb_forall. intros i Hi. apply forallb_forall. intros j Hj. apply forallb_forall. intros k Hk. unfold box3.
  rewrite !andb_true_iff. repeat split; apply existsb_exists; [exists i|exists j|exists k]; (split; [assumption|apply Z.eqb_refl]).
Qed.
Theorem C134_one_cell : forall D D' sps sps' k s s' s1 s1' a b c,
  domain3_ok D -> domain3_ok D' -> same_domain3 D D' -> Forall2 same_species sps sps' -> all_fused sps -> all_fused sps' ->
  ready3 D sps s -> ready3 D' sps' s' -> consistent3 D s -> consistent3 D' s' -> 0 <= a < cells3_x D -> 0 <= b < cells3_y D -> 0 <= c < cells3_z D ->
  agree3 D D' (box3 D (8 * k) a b c) s s' ->
  steps3d rsqrt eps D sps k s s1 -> steps3d rsqrt eps D' sps' k s' s1' ->
  forall f, ((f < 3)%nat -> on_domain3 D (t_E s1) f [a; b; c] = on_domain3 D' (t_E s1') f [a; b; c] /\ on_domain3 D (t_B s1) f [a; b; c] = on_domain3 D' (t_B s1') f [a; b; c]) /\
            ((f < 4)%nat -> on_domain3 D (t_J s1) f [a; b; c] = on_domain3 D' (t_J s1') f [a; b; c]).
Proof.
  intros D D' sps sps' k s s' s1 s1' a b c OK OK' SD SP U U' R R' C C' Ha Hb Hc A T T' f.
  destruct (C134_local D D' sps sps' _ k s s' s1 s1' OK OK' SD SP U U' R R' C C' A T T') as [V _]. apply (V f a b c Ha Hb Hc). apply box3_deep.
Qed.

(** ** where there is nothing within 8 k cells, nothing arrives within k steps *)
Definition empty3 (D : domain3) (P : region3) (s : state2) : Prop :=
  (forall f a b c, 0 <= a < cells3_x D -> 0 <= b < cells3_y D -> 0 <= c < cells3_z D -> P a b c = true ->
    ((f < 3)%nat -> on_domain3 D (t_E s) f [a; b; c] = Q2Qc 0 /\ on_domain3 D (t_B s) f [a; b; c] = Q2Qc 0) /\ ((f < 4)%nat -> on_domain3 D (t_J s) f [a; b; c] = Q2Qc 0)) /\
  Forall (fun st => filter (inside3 D P) (particles st) = []) (t_parts s).
Definition nought : nat -> list Z -> Qc := fun _ _ => Q2Qc 0.
Lemma gE3_zero D f g : gE3 eps D nought nought nought f g = Q2Qc 0.
Proof using.
  assert (forall c, match place [e_ax D; e_ay D; e_az D] [e_nx D; e_ny D; e_nz D] (zeros [e_nx D; e_ny D; e_nz D]) c with Some h => nought 0%nat h | None => Q2Qc 0 end = Q2Qc 0) as Z by (intro c; destruct (place _ _ _ c); reflexivity).
  unfold gE3, grid_step, nought in *. destruct f as [|[|f]]; unfold SE3; rewrite ?Z; cbn [plus_ minus_ times_ over_ minus1_ csq eps0 qc_arith]; change (Q2Qc 0) with 0%Qc; unfold Qcdiv; ring.
Qed.
Lemma gB3_zero D f g : gB3 eps D nought nought f g = Q2Qc 0.
Proof using.
  assert (forall c, match place [e_ax D; e_ay D; e_az D] [e_nx D; e_ny D; e_nz D] (zeros [e_nx D; e_ny D; e_nz D]) c with Some h => nought 0%nat h | None => Q2Qc 0 end = Q2Qc 0) as Z by (intro c; destruct (place _ _ _ c); reflexivity).
  unfold gB3, grid_step, nought in *. destruct f as [|[|f]]; unfold SB3; rewrite ?Z; cbn [plus_ minus_ times_ over_ minus1_ csq eps0 qc_arith]; change (Q2Qc 0) with 0%Qc; unfold Qcdiv; ring.
Qed.
Definition void3 (D : domain3) (s : state2) : Prop :=
  field3_is D nought (t_E s) /\ field3_is D nought (t_B s) /\ currents3_are D nought (t_J s) /\ Forall (fun st => particles st = []) (t_parts s).
Lemma void_step3 D sps rank s s1 : domain3_ok D -> all_fused sps -> ready3 D sps s -> void3 D s -> step3d rsqrt eps D sps rank s s1 -> void3 D s1 /\ ready3 D sps s1.
Proof using SUB.
  intros OK U [L F] (HE & HB & HJ & HP) S. destruct S as [mE mB mJ ps mE1 mB1 ps1 mJ1 ps2 mJ2 ps3 mB2 mE2 A1 A2 A3 A4 A5 A6 A7 A8]. cbn [t_E t_B t_J t_parts] in *.
  pose proof (up_E3_ok eps D OK rank _ _ _ mB mJ mE mE1 HE HB HJ A1) as HE1. apply (shows_ext (Q2Qc 0) _ _ _ _ _ _ nought) in HE1; [|intros; apply gE3_zero]. fold (field3_is D nought mE1) in HE1.
  pose proof (up_B3_ok eps D OK rank _ _ mE1 mB mB1 HB HE1 A2) as HB1. apply (shows_ext (Q2Qc 0) _ _ _ _ _ _ nought) in HB1; [|intros; apply gB3_zero]. fold (field3_is D nought mB1) in HB1.
  destruct (forall2_sorted3 D ps ps1 A3 F) as (F1 & L1 & Q1). assert (length ps1 = length sps) as LL by lia.
  destruct (half_step3 rsqrt SUB D OK sps U rank _ _ mE1 mB1 mJ ps1 mJ1 ps2 mJ2 ps3 HE1 HB1 LL F1 A4 A5 A6) as (C & L3 & F3 & G & W).
  assert (Forall (fun st => particles st = []) ps1) as P1.
  { clear - HP Q1. induction Q1 as [|st st1 ps ps1 H Q1 IH]; [constructor|]. inversion HP as [|? ? E HP']; subst. constructor; [|apply IH; exact HP']. rewrite E in H. apply Permutation_nil. exact H. }
  assert (Forall (fun st => particles st = []) ps2) as P2.
  { clear - P1 G LL. revert ps1 P1 LL ps2 G. induction sps as [|sp s IH]; intros [|st ps1] P1 LL ps2 G; cbn [length combine] in *; try lia; inversion G as [|? t ? ts T1 T2]; subst; [constructor|].
    inversion P1 as [|? ? E P1']; subst. constructor; [|apply (IH ps1); auto]. cbn [snd] in T1. rewrite E in T1. cbn [map] in T1. destruct (particles t); [reflexivity|discriminate]. }
  assert (Forall (fun st => particles st = []) ps3) as P3.
  { clear - P2 W. induction W as [|st2 st3 ps2 ps3 H W IH]; [constructor|]. inversion P2 as [|? ? E P2']; subst. constructor; [|apply IH; exact P2']. rewrite E in H. cbn [map] in H.
    apply Permutation_sym, Permutation_nil in H. destruct (particles st3); [reflexivity|discriminate]. }
  apply (currents_ext3 D _ nought) in C.
  2:{ intros f g. unfold gcurrents3, nought. apply q2qc_eq. apply qsum_zero. intros [sp st] I. apply in_combine_r in I. cbn [fst snd]. rewrite Forall_forall in P2. rewrite (P2 _ I). reflexivity. }
  pose proof (up_B3_ok eps D OK rank _ _ mE1 mB1 mB2 HB1 HE1 A7) as HB2. apply (shows_ext (Q2Qc 0) _ _ _ _ _ _ nought) in HB2; [|intros; apply gB3_zero]. fold (field3_is D nought mB2) in HB2.
  pose proof (up_E3_ok eps D OK rank _ _ _ mB2 mJ2 mE1 mE2 HE1 HB2 C A8) as HE2. apply (shows_ext (Q2Qc 0) _ _ _ _ _ _ nought) in HE2; [|intros; apply gE3_zero].
  split; [|split; assumption]. split; [exact HE2|]. split; [exact HB2|]. split; [exact C|exact P3].
Qed.
Lemma void_steps3 D sps k : domain3_ok D -> all_fused sps -> forall s s1, ready3 D sps s -> void3 D s -> steps3d rsqrt eps D sps k s s1 -> void3 D s1.
Proof using SUB.
  intros OK U. induction k as [|k IH]; intros s s1 R V T; inversion T as [|? rank ? s2 ? T1 T2]; subst; [exact V|]. destruct (void_step3 D sps rank s s2 OK U R V T1) as [V1 R1]. exact (IH s2 s1 R1 V1 T2).
Qed.
Theorem C134_quiet : forall D sps P k s s1, domain3_ok D -> all_fused sps -> ready3 D sps s -> consistent3 D s -> empty3 D P s -> steps3d rsqrt eps D sps k s s1 -> empty3 D (deep3 D (8 * k) P) s1.
Proof.
  intros D sps P k s s1 OK U R C [E EP] T.
  set (s0 := mkState2 (fun _ => Q2Qc 0) (fun _ => Q2Qc 0) (fun _ => Q2Qc 0) (map (fun _ => repeat [] (npatches3 D)) (t_parts s))).
  assert (forall n, particles (repeat [] n) = []) as PN by (induction n as [|n IH]; [reflexivity|exact IH]).
  assert (ready3 D sps s0) as R0.
  { destruct R as [L _]. split; cbn [s0 t_parts]; [rewrite map_length; exact L|]. apply Forall_map. apply Forall_forall. intros st _. split; [apply repeat_length|].
    intros p r Hp I. exfalso. assert (In r (particles (repeat [] (npatches3 D)))) as I'; [|rewrite PN in I'; exact I'].
    unfold particles. apply in_flat_map. exists (nth p (repeat [] (npatches3 D)) []). split; [apply nth_In; rewrite repeat_length; exact Hp|exact I]. }
  assert (void3 D s0) as V0.
  { split; [apply ey_field|]. split; [apply ey_field|]. split; [apply ey_cur|]. cbn [s0 t_parts]. apply Forall_map. apply Forall_forall. intros st _. apply PN. }
  assert (consistent3 D s0) as C0 by (destruct V0 as (V1 & V2 & V3 & _); split; [|split]; eexists; eassumption).
  assert (forall t, void3 D t -> forall f a b c, ((f < 3)%nat -> on_domain3 D (t_E t) f [a; b; c] = Q2Qc 0 /\ on_domain3 D (t_B t) f [a; b; c] = Q2Qc 0) /\ ((f < 4)%nat -> on_domain3 D (t_J t) f [a; b; c] = Q2Qc 0)) as RV.
  { intros t (V1 & V2 & V3 & _) f a b c. split; intro Hf; [split|].
    - rewrite (read_field3 D OK _ _ f a b c V1 Hf), shown0_3 by exact OK. reflexivity.
    - rewrite (read_field3 D OK _ _ f a b c V2 Hf), shown0_3 by exact OK. reflexivity.
    - rewrite (read_currents3 D OK _ _ f a b c V3 Hf), shown0_3 by exact OK. reflexivity. }
  destruct (C98_runs_exist rsqrt SUB eps D sps k s0 OK U R0 C0) as (t0 & T0 & _). pose proof (void_steps3 D sps k OK U s0 t0 R0 V0 T0) as VT.
  assert (agree3 D D P s s0) as A.
  { split.
    - intros f a b c Ha Hb Hc H. destruct (E f a b c Ha Hb Hc H) as [E1 E2]. destruct (RV s0 V0 f a b c) as [Z1 Z2]. split; intro Hf.
      + destruct (E1 Hf) as [-> ->]. destruct (Z1 Hf) as [-> ->]. split; reflexivity.
      + rewrite (E2 Hf), (Z2 Hf). reflexivity.
    - cbn [s0 t_parts]. clear - EP PN. induction (t_parts s) as [|st l IH]; [constructor|]. inversion EP as [|? ? X EP']; subst. cbn [map]. constructor; [|apply IH; exact EP'].
      unfold same_inside3. rewrite X, PN. apply Permutation_refl. }
  assert (same_domain3 D D) as SD by (unfold same_domain3; auto 10).
  assert (Forall2 same_species sps sps) as SP by (clear; induction sps; constructor; [split; reflexivity|assumption]).
  destruct (C134_local D D sps sps P k s s0 s1 t0 OK OK SD SP U U R R0 C C0 A T T0) as [B BP]. split.
  - intros f a b c Ha Hb Hc H. destruct (B f a b c Ha Hb Hc H) as [B1 B2]. destruct (RV t0 VT f a b c) as [Z1 Z2]. split; intro Hf.
    + destruct (B1 Hf) as [-> ->]. exact (Z1 Hf).
    + rewrite (B2 Hf). exact (Z2 Hf).
  - destruct VT as (_ & _ & _ & VP). clear - BP VP. induction BP as [|st st' l l' H BP IH]; [constructor|]. inversion VP as [|? ? X VP']; subst. constructor; [|apply IH; exact VP'].
    unfold same_inside3 in H. rewrite X in H. cbn [filter map] in H. apply Permutation_sym, Permutation_nil in H. destruct (filter _ (particles st)); [reflexivity|discriminate].
Qed.
End S.

(** ** a case: 40 x 6 x 3 cells, two runs on one and on two patches, the same particle at x = 10 and different ones at x = 38;
    the region is the slices 0 .. 29; after one step the slices 8 .. 21 still agree *)
Definition long (k : Z) : domain3 := mkDomain3 (ey_axis k) (ey_axis 1) (ey_axis 1) (40 / k) 6 3 3 1 1 1 (1 # 599584916).
Definition left_slices : region3 := fun a _ _ => a <? 30.
Definition long_one := ey_state [[ey_part false 10 3 1 1 0 7; ey_part false (77#2) 2 1 (5#4) 0 8]].
Definition long_two := ey_state [[ey_part false 10 3 1 1 0 7]; [ey_part false 37 4 2 (-1) 0 8; ey_part false 38 4 1 0 1 9]].
Example C134_case : forall e, exists s1 s1',
  steps3d ey_rsqrt e (long 1) ey_species 1 long_one s1 /\ steps3d ey_rsqrt e (long 2) ey_species 1 long_two s1' /\ agree3 (long 1) (long 2) (deep3 (long 1) 8 left_slices) s1 s1' /\
  (forall a b c, 8 <= a <= 21 -> deep3 (long 1) 8 left_slices a b c = true).
Proof.
  assert (AF : all_fused ey_species) by (constructor; [reflexivity|constructor]).
  intros e. assert (O : forall k, k = 1 \/ k = 2 -> domain3_ok (long k)).
  { intros k [-> | ->]; (split; [split; reflexivity|split; reflexivity|split; reflexivity|cbn; lia|cbn; lia|repeat split; reflexivity|repeat split; try reflexivity; vm_compute; discriminate]). }
  pose proof (O 1 (or_introl eq_refl)) as O1. pose proof (O 2 (or_intror eq_refl)) as O2.
  assert (R1 : ready3 (long 1) ey_species long_one).
  { split; [reflexivity|]. constructor; [|constructor]. split; [reflexivity|]. intros p r Hp I. assert (p = 0)%nat as -> by (change (npatches3 (long 1)) with 1%nat in Hp; lia). ey_in I. }
  assert (R2 : ready3 (long 2) ey_species long_two).
  { split; [reflexivity|]. constructor; [|constructor]. split; [reflexivity|]. intros p r Hp I. change (npatches3 (long 2)) with 2%nat in Hp.
    destruct p as [|[|p]]; [| |lia]; ey_in I. }
  assert (C : forall D l, consistent3 D (ey_state l)) by (intros D l; split; [|split]; eexists; try apply ey_field; apply ey_cur).
  destruct (C98_runs_exist ey_rsqrt ey_sub e _ _ 1 long_one O1 AF R1 (C _ _)) as (s1 & T1 & _).
  destruct (C98_runs_exist ey_rsqrt ey_sub e _ _ 1 long_two O2 AF R2 (C _ _)) as (s1' & T2 & _).
  exists s1, s1'. split; [exact T1|]. split; [exact T2|]. split.
  - refine (C134_local ey_rsqrt ey_sub e (long 1) (long 2) _ _ left_slices 1 long_one long_two s1 s1' O1 O2 _ _ AF AF R1 R2 (C _ _) (C _ _) _ T1 T2).
    + unfold same_domain3. repeat split; reflexivity.
    + constructor; [split; reflexivity|constructor].
    + split; [intros f a b c _ _ _ _; split; intro; [split|]; reflexivity|]. constructor; [|constructor]. unfold same_inside3. vm_compute. apply Permutation_refl.
  - intros a b c Ha. unfold deep3. apply forallb_forall. intros i Hi. apply forallb_forall. intros j _. apply forallb_forall. intros k _. apply span_in in Hi. unfold left_slices. change (cells3_x (long 1)) with 40. rewrite Z.mod_small by lia. lia.
Qed.

Print Assumptions C134_local.
Print Assumptions C134_one_cell.
Print Assumptions C134_quiet.
Print Assumptions C134_case.
