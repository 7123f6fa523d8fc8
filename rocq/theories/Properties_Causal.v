(** C127: in a run (2D, periodic) nothing travels faster than eight cells per time step: what a cell holds after k steps depends
    only on what was within 8 k cells of it along x and y at the start. *)
From Coq Require Import QArith Qround Qabs Qcanon Permutation Lqa.
From Verif Require Import Base M_Layout M_PartSync S_PartSync M_FieldSync S_FieldSync M_Maxwell S_Maxwell M_Deposit S_Deposit M_Push S_Push M_Step S_Step S_Gauss S_Causal
  P_Deposit P_Maxwell P_Maxwell2 P_Maxwell3 P_Step3 P_Step4 P_Step5 P_Step7 P_Step8 P_Gauss1 P_Gauss2 P_Causal1 P_Causal2 Properties_Step.
Local Open Scope list_scope.
Local Open Scope Z_scope.

Section S.
Variable rsqrt : Q -> Q.
Hypothesis SUB : subluminal rsqrt.
Variable eps : Qc.

(** ** two runs that agree in a region at the start still agree, after k steps, on all cells and particles deeper than 8 k
    cells inside the region; the cuts into patches, the processes and the schedules of the two runs do not matter, nor does
    anything outside the region *)
Theorem C127_local : forall D D' sps sps' P k s s' s1 s1',
  domain_ok D -> domain_ok D' -> same_domain D D' -> Forall2 same_species sps sps' ->
  ready D sps s -> ready D' sps' s' -> consistent D s -> consistent D' s' -> agree D D' P s s' ->
  steps2 rsqrt eps D sps k s s1 -> steps2 rsqrt eps D' sps' k s' s1' ->
  agree D D' (deep D (8 * k) P) s1 s1'.
Proof.
  intros D D' sps sps' P k s s' s1 s1' OK OK' SD SP R R' C C' A T T'. apply local_end; [exact OK|exact OK'|exact SD|].
  exact (proj1 (local_steps rsqrt SUB eps D D' OK OK' SD sps sps' SP P k 0 s s' s1 s1' R R' (local_start D D' OK OK' SD P s s' C C' A) T T')).
Qed.

(** ** the same for one cell: only the box of 8 k cells around it matters *)
Definition box (D : domain2) (d : nat) (a b : Z) : region := fun i j =>
  existsb (fun u => (a + u) mod cells_x D =? i) (span d) && existsb (fun u => (b + u) mod cells_y D =? j) (span d).
Lemma box_deep D d a b : deep D d (box D d a b) a b = true.
Proof using.
  unfold deep. apply forallb_forall. intros i Hi. apply forallb_forall. intros j Hj. unfold box.
  apply andb_true_iff. split; apply existsb_exists; [exists i|exists j]; (split; [assumption|apply Z.eqb_refl]).
Qed.
Theorem C127_one_cell : forall D D' sps sps' k s s' s1 s1' a b,
  domain_ok D -> domain_ok D' -> same_domain D D' -> Forall2 same_species sps sps' ->
  ready D sps s -> ready D' sps' s' -> consistent D s -> consistent D' s' -> 0 <= a < cells_x D -> 0 <= b < cells_y D ->
  agree D D' (box D (8 * k) a b) s s' ->
  steps2 rsqrt eps D sps k s s1 -> steps2 rsqrt eps D' sps' k s' s1' ->
  forall f, ((f < 3)%nat -> on_domain D (t_E s1) f [a; b] = on_domain D' (t_E s1') f [a; b] /\ on_domain D (t_B s1) f [a; b] = on_domain D' (t_B s1') f [a; b]) /\
            ((f < 4)%nat -> on_domain D (t_J s1) f [a; b] = on_domain D' (t_J s1') f [a; b]).
Proof.
  intros D D' sps sps' k s s' s1 s1' a b OK OK' SD SP R R' C C' Ha Hb A T T' f.
  destruct (C127_local D D' sps sps' _ k s s' s1 s1' OK OK' SD SP R R' C C' A T T') as [V _]. apply (V f a b Ha Hb). apply box_deep.
Qed.

(** ** where there is nothing within 8 k cells, nothing arrives within k steps *)
Definition empty (D : domain2) (P : region) (s : state2) : Prop :=
  (forall f a b, 0 <= a < cells_x D -> 0 <= b < cells_y D -> P a b = true ->
    ((f < 3)%nat -> on_domain D (t_E s) f [a; b] = Q2Qc 0 /\ on_domain D (t_B s) f [a; b] = Q2Qc 0) /\ ((f < 4)%nat -> on_domain D (t_J s) f [a; b] = Q2Qc 0)) /\
  Forall (fun st => filter (inside D P) (particles st) = []) (t_parts s).
Definition nought : nat -> list Z -> Qc := fun _ _ => Q2Qc 0.
Lemma gE_zero D f g : gE eps D nought nought nought f g = Q2Qc 0.
Proof using.
  assert (forall c, match place [d_ax D; d_ay D] [d_nx D; d_ny D] (zeros [d_nx D; d_ny D]) c with Some h => nought 0%nat h | None => Q2Qc 0 end = Q2Qc 0) as Z by (intro c; destruct (place _ _ _ c); reflexivity).
  unfold gE, grid_step, nought in *. destruct f as [|[|f]]; unfold SE2; rewrite ?Z; cbn [plus_ minus_ times_ over_ minus1_ csq eps0 qc_arith]; change (Q2Qc 0) with 0%Qc; unfold Qcdiv; ring.
Qed.
Lemma gB_zero D f g : gB eps D nought nought f g = Q2Qc 0.
Proof using.
  assert (forall c, match place [d_ax D; d_ay D] [d_nx D; d_ny D] (zeros [d_nx D; d_ny D]) c with Some h => nought 0%nat h | None => Q2Qc 0 end = Q2Qc 0) as Z by (intro c; destruct (place _ _ _ c); reflexivity).
  unfold gB, grid_step, nought in *. destruct f as [|[|f]]; unfold SB2; rewrite ?Z; cbn [plus_ minus_ times_ over_ minus1_ csq eps0 qc_arith]; change (Q2Qc 0) with 0%Qc; unfold Qcdiv; ring.
Qed.
Definition void (D : domain2) (s : state2) : Prop :=
  field_is D nought (t_E s) /\ field_is D nought (t_B s) /\ currents_are D nought (t_J s) /\ Forall (fun st => particles st = []) (t_parts s).
Lemma void_step D sps rank s s1 : domain_ok D -> ready D sps s -> void D s -> step2 rsqrt eps D sps rank s s1 -> void D s1 /\ ready D sps s1.
Proof using SUB.
  intros OK [L F] (HE & HB & HJ & HP) S. destruct S as [mE mB mJ ps mE1 mB1 ps1 mJ1 ps2 mJ2 ps3 mB2 mE2 A1 A2 A3 A4 A5 A6 A7 A8]. cbn [t_E t_B t_J t_parts] in *.
  pose proof (up_E_ok eps D OK rank _ _ _ mB mJ mE mE1 HE HB HJ A1) as HE1. apply (shows_ext (Q2Qc 0) _ _ _ _ _ _ nought) in HE1; [|intros; apply gE_zero]. fold (field_is D nought mE1) in HE1.
  pose proof (up_B_ok eps D OK rank _ _ mE1 mB mB1 HB HE1 A2) as HB1. apply (shows_ext (Q2Qc 0) _ _ _ _ _ _ nought) in HB1; [|intros; apply gB_zero]. fold (field_is D nought mB1) in HB1.
  destruct (forall2_sorted D ps ps1 A3 F) as (F1 & L1 & Q1). assert (length ps1 = length sps) as LL by lia.
  destruct (half_step rsqrt SUB D OK sps rank _ _ mE1 mB1 mJ ps1 mJ1 ps2 mJ2 ps3 HE1 HB1 LL F1 A4 A5 A6) as (C & L3 & F3 & G & W).
  assert (Forall (fun st => particles st = []) ps1) as P1.
  { clear - HP Q1. induction Q1 as [|st st1 ps ps1 H Q1 IH]; [constructor|]. inversion HP as [|? ? E HP']; subst. constructor; [|apply IH; exact HP']. rewrite E in H. apply Permutation_nil. exact H. }
  assert (Forall (fun st => particles st = []) ps2) as P2.
  { clear - P1 G LL. revert ps1 P1 LL ps2 G. induction sps as [|sp s IH]; intros [|st ps1] P1 LL ps2 G; cbn [length combine] in *; try lia; inversion G as [|? t ? ts T1 T2]; subst; [constructor|].
    inversion P1 as [|? ? E P1']; subst. constructor; [|apply (IH ps1); auto]. cbn [snd] in T1. rewrite E in T1. cbn [map] in T1. destruct (particles t); [reflexivity|discriminate]. }
  assert (Forall (fun st => particles st = []) ps3) as P3.
  { clear - P2 W. induction W as [|st2 st3 ps2 ps3 H W IH]; [constructor|]. inversion P2 as [|? ? E P2']; subst. constructor; [|apply IH; exact P2']. rewrite E in H. cbn [map] in H.
    apply Permutation_sym, Permutation_nil in H. destruct (particles st3); [reflexivity|discriminate]. }
  apply (currents_ext D _ nought) in C.
  2:{ intros f g. unfold gcurrents, nought. apply q2qc_eq. apply qsum_zero. intros [sp st] I. apply in_combine_r in I. cbn [fst snd]. rewrite Forall_forall in P2. rewrite (P2 _ I). reflexivity. }
  pose proof (up_B_ok eps D OK rank _ _ mE1 mB1 mB2 HB1 HE1 A7) as HB2. apply (shows_ext (Q2Qc 0) _ _ _ _ _ _ nought) in HB2; [|intros; apply gB_zero]. fold (field_is D nought mB2) in HB2.
  pose proof (up_E_ok eps D OK rank _ _ _ mB2 mJ2 mE1 mE2 HE1 HB2 C A8) as HE2. apply (shows_ext (Q2Qc 0) _ _ _ _ _ _ nought) in HE2; [|intros; apply gE_zero].
  split; [|split; assumption]. split; [exact HE2|]. split; [exact HB2|]. split; [exact C|exact P3].
Qed.
Lemma void_steps D sps k : domain_ok D -> forall s s1, ready D sps s -> void D s -> steps2 rsqrt eps D sps k s s1 -> void D s1.
Proof using SUB.
  intro OK. induction k as [|k IH]; intros s s1 R V T; inversion T as [|? rank ? s2 ? T1 T2]; subst; [exact V|]. destruct (void_step D sps rank s s2 OK R V T1) as [V1 R1]. exact (IH s2 s1 R1 V1 T2).
Qed.
Theorem C127_quiet : forall D sps P k s s1, domain_ok D -> ready D sps s -> consistent D s -> empty D P s -> steps2 rsqrt eps D sps k s s1 -> empty D (deep D (8 * k) P) s1.
Proof.
  intros D sps P k s s1 OK R C [E EP] T.
  set (s0 := mkState2 (fun _ => Q2Qc 0) (fun _ => Q2Qc 0) (fun _ => Q2Qc 0) (map (fun _ => repeat [] (npatches2 D)) (t_parts s))).
  assert (forall n, particles (repeat [] n) = []) as PN by (induction n as [|n IH]; [reflexivity|exact IH]).
  assert (ready D sps s0) as R0.
  { destruct R as [L _]. split; cbn [s0 t_parts]; [rewrite map_length; exact L|]. apply Forall_map. apply Forall_forall. intros st _. split; [apply repeat_length|].
    intros p r Hp I. exfalso. assert (In r (particles (repeat [] (npatches2 D)))) as I'; [|rewrite PN in I'; exact I'].
    unfold particles. apply in_flat_map. exists (nth p (repeat [] (npatches2 D)) []). split; [apply nth_In; rewrite repeat_length; exact Hp|exact I]. }
  assert (void D s0) as V0.
  { split; [apply ex_field|]. split; [apply ex_field|]. split; [apply ex_cur|]. cbn [s0 t_parts]. apply Forall_map. apply Forall_forall. intros st _. apply PN. }
  assert (consistent D s0) as C0 by (destruct V0 as (V1 & V2 & V3 & _); split; [|split]; eexists; eassumption).
  assert (forall t, void D t -> forall f a b, ((f < 3)%nat -> on_domain D (t_E t) f [a; b] = Q2Qc 0 /\ on_domain D (t_B t) f [a; b] = Q2Qc 0) /\ ((f < 4)%nat -> on_domain D (t_J t) f [a; b] = Q2Qc 0)) as RV.
  { intros t (V1 & V2 & V3 & _) f a b. split; intro Hf; [split|].
    - rewrite (read_field D OK _ _ f a b V1 Hf), shown0 by exact OK. reflexivity.
    - rewrite (read_field D OK _ _ f a b V2 Hf), shown0 by exact OK. reflexivity.
    - rewrite (read_currents D OK _ _ f a b V3 Hf), shown0 by exact OK. reflexivity. }
  destruct (C76_runs_exist rsqrt SUB eps D sps k s0 OK R0 C0) as (t0 & T0 & _). pose proof (void_steps D sps k OK s0 t0 R0 V0 T0) as VT.
  assert (agree D D P s s0) as A.
  { split.
    - intros f a b Ha Hb H. destruct (E f a b Ha Hb H) as [E1 E2]. destruct (RV s0 V0 f a b) as [Z1 Z2]. split; intro Hf.
      + destruct (E1 Hf) as [-> ->]. destruct (Z1 Hf) as [-> ->]. split; reflexivity.
      + rewrite (E2 Hf), (Z2 Hf). reflexivity.
    - cbn [s0 t_parts]. clear - EP PN. induction (t_parts s) as [|st l IH]; [constructor|]. inversion EP as [|? ? X EP']; subst. cbn [map]. constructor; [|apply IH; exact EP'].
      unfold same_inside. rewrite X, PN. apply Permutation_refl. }
  assert (same_domain D D) as SD by (unfold same_domain; auto).
  assert (Forall2 same_species sps sps) as SP by (clear; induction sps; constructor; [split; reflexivity|assumption]).
  destruct (C127_local D D sps sps P k s s0 s1 t0 OK OK SD SP R R0 C C0 A T T0) as [B BP]. split.
  - intros f a b Ha Hb H. destruct (B f a b Ha Hb H) as [B1 B2]. destruct (RV t0 VT f a b) as [Z1 Z2]. split; intro Hf.
    + destruct (B1 Hf) as [-> ->]. exact (Z1 Hf).
    + rewrite (B2 Hf). exact (Z2 Hf).
  - destruct VT as (_ & _ & _ & VP). clear - BP VP. induction BP as [|st st' l l' H BP IH]; [constructor|]. inversion VP as [|? ? X VP']; subst. constructor; [|apply IH; exact VP'].
    unfold same_inside in H. rewrite X in H. cbn [filter map] in H. apply Permutation_sym, Permutation_nil in H. destruct (filter _ (particles st)); [reflexivity|discriminate].
Qed.
End S.

(** ** a case: 40 x 6 cells, two runs on one and on two patches, the same particle at x = 10 and different ones at x = 38; the
    region is the columns 0 .. 29; after one step the columns 8 .. 21 still agree *)
Definition wide (k : Z) : domain2 := mkDomain2 (ex_axis k) (ex_axis 1) (40 / k) 6 3 1 1 (1 # 599584916).
Definition left_part : region := fun a _ => a <? 30.
Definition wide_one := ex_state [[ex_part false 10 3 1 7; ex_part false (77#2) 2 (5#4) 8]].
Definition wide_two := ex_state [[ex_part false 10 3 1 7]; [ex_part false 37 4 (-1) 8; ex_part false 38 4 0 9]].
Example C127_case : forall e, exists s1 s1',
  steps2 ex_rsqrt e (wide 1) [mkSpecies (-1) 1 true] 1 wide_one s1 /\ steps2 ex_rsqrt e (wide 2) [mkSpecies (-1) 1 false] 1 wide_two s1' /\ agree (wide 1) (wide 2) (deep (wide 1) 8 left_part) s1 s1' /\
  (forall a b, 8 <= a <= 21 -> deep (wide 1) 8 left_part a b = true).
Proof.
  intros e. assert (O : forall k, k = 1 \/ k = 2 -> domain_ok (wide k)).
  { intros k [-> | ->]; constructor; cbn; try (split; reflexivity); repeat split; try lia; vm_compute; congruence. }
  pose proof (O 1 (or_introl eq_refl)) as O1. pose proof (O 2 (or_intror eq_refl)) as O2.
  assert (R1 : ready (wide 1) [mkSpecies (-1) 1 true] wide_one).
  { split; [reflexivity|]. constructor; [|constructor]. split; [reflexivity|]. intros p r Hp I. assert (p = 0)%nat as -> by (change (npatches2 (wide 1)) with 1%nat in Hp; lia). ex_in I. }
  assert (R2 : ready (wide 2) [mkSpecies (-1) 1 false] wide_two).
  { split; [reflexivity|]. constructor; [|constructor]. split; [reflexivity|]. intros p r Hp I. change (npatches2 (wide 2)) with 2%nat in Hp.
    destruct p as [|[|p]]; [| |lia]; ex_in I. }
  assert (C : forall D l, consistent D (ex_state l)) by (intros D l; split; [|split]; eexists; try apply ex_field; apply ex_cur).
  destruct (C76_runs_exist ex_rsqrt ex_sub e _ _ 1 wide_one O1 R1 (C _ _)) as (s1 & T1 & _).
  destruct (C76_runs_exist ex_rsqrt ex_sub e _ _ 1 wide_two O2 R2 (C _ _)) as (s1' & T2 & _).
  exists s1, s1'. split; [exact T1|]. split; [exact T2|]. split.
  - refine (C127_local ex_rsqrt ex_sub e (wide 1) (wide 2) _ _ left_part 1 wide_one wide_two s1 s1' O1 O2 _ _ R1 R2 (C _ _) (C _ _) _ T1 T2).
    + repeat split; reflexivity.
    + constructor; [split; reflexivity|constructor].
    + split; [intros f a b _ _ _; split; intro; [split|]; reflexivity|]. constructor; [|constructor]. unfold same_inside. vm_compute. apply Permutation_refl.
  - intros a b Ha. unfold deep. apply forallb_forall. intros i Hi. apply forallb_forall. intros j _. apply span_in in Hi. unfold left_part. change (cells_x (wide 1)) with 40. rewrite Z.mod_small by lia. lia.
Qed.

Print Assumptions C127_local.
Print Assumptions C127_one_cell.
Print Assumptions C127_quiet.
Print Assumptions C127_case.
