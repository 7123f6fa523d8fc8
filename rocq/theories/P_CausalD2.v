(** Causality in three dimensions, part 2: whole steps. *)
From Coq Require Import QArith Qround Qabs Qcanon Lqa Permutation.
From Verif Require Import Base M_Layout M_PartSync S_PartSync M_FieldSync S_FieldSync S_Maxwell P_Maxwell3 M_Deposit S_Deposit P_Deposit M_Push S_Push M_Step S_Step
  P_Step2 P_Step3 P_Step4 P_Step5 P_Step6 P_Step7 S_Causal P_Causal1 P_Causal2 M_Step3D S_Step3D S_Gauss3D P_StepD2 P_StepD3 P_StepD4 P_StepD5 P_StepD6 P_StepD7 P_GaussD1 P_GaussD2 S_Causal3D P_CausalD1.
Local Open Scope list_scope.
Local Open Scope Z_scope.

Section Lists.
Variable D : domain3.
Lemma filter_canon3 Q l : map canon (filter (inside3 D Q) l) = filter (inside3 D Q) (map canon l).
Proof. rewrite filter_map. f_equal. apply filter_ext. intro r. symmetry. apply inside3_canon, canon_idem. Qed.
Definition ins3 (Q : region3) (l l' : list (prow body)) : Prop := Permutation (map canon (filter (inside3 D Q) l)) (map canon (filter (inside3 D Q) l')).
Lemma ins3_canon Q l l' l1 l1' : Permutation (map canon l) (map canon l1) -> Permutation (map canon l') (map canon l1') -> ins3 Q l l' -> ins3 Q l1 l1'.
Proof.
  intros P P' H. unfold ins3 in *. rewrite !filter_canon3 in *. apply (filter_perm (inside3 D Q)) in P, P'.
  eapply perm_trans; [apply Permutation_sym; exact P|]. eapply perm_trans; [exact H|exact P'].
Qed.
Lemma ins3_map (h h' : prow body -> prow body) P0 Q L L' :
  (forall r, In r L -> inside3 D Q (h r) = true -> inside3 D P0 r = true) -> (forall r, In r L' -> inside3 D Q (h' r) = true -> inside3 D P0 r = true) ->
  (forall r r', In r L -> In r' L' -> inside3 D P0 r = true -> canon r = canon r' -> canon (h r) = canon (h' r')) ->
  ins3 P0 L L' -> ins3 Q (map h L) (map h' L').
Proof.
  intros H1 H2 H3 H. unfold ins3 in *. rewrite !filter_map.
  rewrite <- (filter_within _ _ L H1), <- (filter_within _ _ L' H2).
  assert (forall r, In r (filter (inside3 D P0) L) -> In r L /\ inside3 D P0 r = true) as IL by (intros r I; apply filter_In in I; exact I).
  assert (forall r, In r (filter (inside3 D P0) L') -> In r L') as IL' by (intros r I; apply filter_In in I; apply I).
  set (M := filter (inside3 D P0) L) in *. set (M' := filter (inside3 D P0) L') in *. clearbody M M'.
  destruct (Permutation_map_inv canon _ (Permutation_sym H)) as (M2 & E & P2).
  eapply perm_trans; [apply Permutation_map, Permutation_map, filter_perm; exact P2|].
  assert (forall r, In r M2 -> In r L /\ inside3 D P0 r = true) as IM by (intros r I; apply IL; eapply Permutation_in; [apply Permutation_sym; exact P2|exact I]).
  clear IL P2 H. clear H1 H2.
  assert (map canon (map h (filter (fun r => inside3 D Q (h r)) M2)) = map canon (map h' (filter (fun r => inside3 D Q (h' r)) M'))) as ->; [|apply Permutation_refl].
  revert M' E IL'. induction M2 as [|r M2 IH]; intros [|r' M'] E IL'; cbn [map] in E; try discriminate; [reflexivity|].
  assert (canon r' = canon r) as E1 by exact (f_equal (hd (canon r)) E). assert (map canon M' = map canon M2) as E2 by exact (f_equal (@tl _) E).
  cbn [filter]. destruct (IM r (or_introl eq_refl)) as [I1 I2].
  assert (canon (h r) = canon (h' r')) as E3 by (apply H3; [exact I1|apply IL'; left; reflexivity|exact I2|symmetry; exact E1]).
  rewrite (inside3_canon D Q _ _ E3). specialize (IH (fun x I => IM x (or_intror I)) M' E2 (fun x I => IL' x (or_intror I))).
  destruct (inside3 D Q (h' r')); cbn [map]; rewrite IH; [rewrite E3|]; reflexivity.
Qed.
End Lists.

Section Two.
Variable rsqrt : Q -> Q.
Hypothesis SUB : subluminal rsqrt.
Variable eps : Qc.
Variables D D' : domain3.
Hypothesis OK : domain3_ok D.
Hypothesis OK' : domain3_ok D'.
Hypothesis SD : same_domain3 D D'.
Variables sps sps' : list species.
Hypothesis SP : Forall2 same_species sps sps'.
Hypothesis U : all_fused sps.
Hypothesis U' : all_fused sps'.
Variable P : region3.
Local Notation cur D := (gcurrents3 (Vx D) (Vy D) (Vz D) (e_dx D) (e_dy D) (e_dz D) (e_dt D)).
Local Notation part d := (fun st st' => ins3 D (deep3 D d P) (particles st) (particles st')).

Lemma part_more3 d e st st' : part d st st' -> part (d + e)%nat st st'.
Proof using.
  intro H. cbv beta in *. pose proof (ins3_map D (fun r => r) (fun r => r) (deep3 D d P) (deep3 D (d + e) P) (particles st) (particles st')) as K. rewrite !map_id in K.
  assert (forall r, inside3 D (deep3 D (d + e) P) r = true -> inside3 D (deep3 D d P) r = true) as M.
  { intros r I. apply inside3_deep in I. destruct I as (x & y & z & E1 & E2 & E3 & I). apply inside3_deep. exists x, y, z. split; [exact E1|]. split; [exact E2|]. split; [exact E3|]. exact (deep3_more D P d e _ _ _ I). }
  apply K; auto.
Qed.
Lemma cur_agr3 d ps ps' : slow_all3 ps -> slow_all3 ps' -> Forall2 (part d) ps ps' -> agr3 D P 4 (d + 3) (cur D sps ps) (cur D sps ps').
Proof using OK.
  intros S S' F f a b c Hf K. destruct (P_GaussD1.cells3_pos D OK) as (N1 & N2 & N3). destruct (ok3_d D OK) as (D1 & D2 & D3).
  assert (deep3 D (d + 3) P (a mod cells3_x D) (b mod cells3_y D) (c mod cells3_z D) = true) as K' by (apply (deep3_same D P _ a b c); [apply Zmod_mod|apply Zmod_mod|apply Zmod_mod|exact K]).
  pose proof (Z.mod_pos_bound a _ N1) as Ba. pose proof (Z.mod_pos_bound b _ N2) as Bb. pose proof (Z.mod_pos_bound c _ N3) as Bc.
  set (a0 := a mod cells3_x D) in *. set (b0 := b mod cells3_y D) in *. set (c0 := c mod cells3_z D) in *. clearbody a0 b0 c0. clear K a b c.
  unfold gcurrents3. apply q2qc_eq. clear SP U. revert sps. induction F as [|st st' ps ps' H F IH]; intros [|sp s]; try reflexivity. cbn [combine]. rewrite !qsum_cons. cbn [fst snd].
  apply Qplus_comp; [|apply IH; intros st0 r I; [apply (S st0)|apply (S' st0)]; right; exact I].
  change (Vx D) with (cells3_x D). change (Vy D) with (cells3_y D). change (Vz D) with (cells3_z D).
  set (G := fun r => gdep3 (cells3_x D) (cells3_y D) (cells3_z D) (e_dx D) (e_dy D) (e_dz D) (e_dt D) sp r f [a0; b0; c0]).
  assert (forall l, (forall r, In r l -> fast3_ok r) -> (qsum G l == qsum G (map canon (filter (inside3 D (deep3 D d P)) l)))%Q) as X.
  { intros l Hl. rewrite (qsum_filter0 G (inside3 D (deep3 D d P)) l).
    - rewrite qsum_map. apply qsum_ext. intros r _. unfold G. apply (gdep3_canon _ _ _ _ _ _ _ sp r (canon r) f [a0; b0; c0] D1 D2 D3). symmetry. apply canon_idem.
    - intros r Ir I. unfold G. exact (gdep_far3 D OK P d sp r f a0 b0 c0 (Hl r Ir) Ba Bb Bc K' I). }
  clearbody G.
  rewrite (X (particles st)), (X (particles st')); [|intros r I; apply (S' st'); [left; reflexivity|exact I]|intros r I; apply (S st); [left; reflexivity|exact I]].
  apply qsum_perm. exact H.
Qed.

Definition local_state3 (d : nat) (s s' : state2) : Prop :=
  (exists F F', field3_is D F (t_E s) /\ field3_is D' F' (t_E s') /\ agr3 D P 3 d F F') /\
  (exists F F', field3_is D F (t_B s) /\ field3_is D' F' (t_B s') /\ agr3 D P 3 d F F') /\
  (exists F F', currents3_are D F (t_J s) /\ currents3_are D' F' (t_J s') /\ agr3 D P 4 d F F') /\
  Forall2 (part d) (t_parts s) (t_parts s').

Lemma local_step3 d rank rank' s s' s1 s1' : ready3 D sps s -> ready3 D' sps' s' -> local_state3 d s s' ->
  step3d rsqrt eps D sps rank s s1 -> step3d rsqrt eps D' sps' rank' s' s1' ->
  local_state3 (d + 8) s1 s1' /\ ready3 D sps s1 /\ ready3 D' sps' s1'.
Proof using SUB OK OK' SD SP U U'.
  intros [L F] [L' F'] ((FE & FE' & HE & HE' & AE) & (FB & FB' & HB & HB' & AB) & (FJ & FJ' & HJ & HJ' & AJ) & HP) S S'.
  destruct S as [mE mB mJ ps mE1 mB1 ps1 mJ1 ps2 mJ2 ps3 mB2 mE2 A1 A2 A3 A4 A5 A6 A7 A8].
  destruct S' as [mE' mB' mJ' ps' mE1' mB1' ps1' mJ1' ps2' mJ2' ps3' mB2' mE2' B1 B2 B3 B4 B5 B6 B7 B8].
  cbn [t_E t_B t_J t_parts] in *.
  pose proof (up_E3_ok eps D OK rank FB FJ FE mB mJ mE mE1 HE HB HJ A1) as HE1.
  pose proof (up_E3_ok eps D' OK' rank' FB' FJ' FE' mB' mJ' mE' mE1' HE' HB' HJ' B1) as HE1'.
  apply (shows_ext (Q2Qc 0) _ _ _ _ _ _ (gE3 eps D FB' FJ' FE')) in HE1'; [|intros; apply gE3_same; assumption].
  pose proof (agr_gE3 D OK P eps d FB FB' FJ FJ' FE FE' AB (agr3_more D P 4 d 1 _ _ AJ) AE) as AE1.
  set (FE1 := gE3 eps D FB FJ FE) in *. set (FE1' := gE3 eps D FB' FJ' FE') in *. fold (field3_is D' FE1' mE1') in HE1'.
  pose proof (up_B3_ok eps D OK rank FE1 FB mE1 mB mB1 HB HE1 A2) as HB1.
  pose proof (up_B3_ok eps D' OK' rank' FE1' FB' mE1' mB' mB1' HB' HE1' B2) as HB1'.
  apply (shows_ext (Q2Qc 0) _ _ _ _ _ _ (gB3 eps D FE1' FB')) in HB1'; [|intros; apply gB3_same; assumption].
  pose proof (agr_gB3 D OK P eps (d + 1) FE1 FE1' FB FB' AE1 (agr3_more D P 3 d 1 _ _ AB)) as AB1.
  set (FB1 := gB3 eps D FE1 FB) in *. set (FB1' := gB3 eps D FE1' FB') in *. fold (field3_is D' FB1' mB1') in HB1'.
  destruct (forall2_sorted3 D ps ps1 A3 F) as (F1 & L1 & Q1). destruct (forall2_sorted3 D' ps' ps1' B3 F') as (F1' & L1' & Q1').
  assert (length ps1 = length sps) as LL by lia. assert (length ps1' = length sps') as LL' by lia.
  destruct (half_step3 rsqrt SUB D OK sps U rank FE1 FB1 mE1 mB1 mJ ps1 mJ1 ps2 mJ2 ps3 HE1 HB1 LL F1 A4 A5 A6) as (C & L3 & F3 & G & W).
  destruct (half_step3 rsqrt SUB D' OK' sps' U' rank' FE1' FB1' mE1' mB1' mJ' ps1' mJ1' ps2' mJ2' ps3' HE1' HB1' LL' F1' B4 B5 B6) as (C' & L3' & F3' & G' & W').
  pose proof (moved_all3 rsqrt SUB D OK sps U FE1 FB1 mE1 mB1 _ ps1 mJ1 ps2 HE1 HB1 LL F1 A4) as SL2.
  pose proof (moved_all3 rsqrt SUB D' OK' sps' U' FE1' FB1' mE1' mB1' _ ps1' mJ1' ps2' HE1' HB1' LL' F1' B4) as SL2'.
  pose proof (settled3_slow D ps1 F1) as SL1. pose proof (settled3_slow D' ps1' F1') as SL1'.
  pose proof SD as (W1 & W2 & W3 & X1 & X2 & X3 & X4).
  assert (Forall2 (part d) ps1 ps1') as HP1.
  { clear - HP Q1 Q1'. revert ps1 ps1' Q1 Q1'. induction HP as [|st st' ps ps' H HP IH]; intros ps1 ps1' Q1 Q1'; inversion Q1; inversion Q1'; subst; constructor; [|apply IH; assumption].
    apply (ins3_canon D _ (particles st) (particles st')); [apply Permutation_map; assumption|apply Permutation_map; assumption|exact H]. }
  assert (agr3 D P 3 (d + 2) FE1 FE1') as AE2 by (replace (d + 2)%nat with (d + 1 + 1)%nat by lia; apply agr3_more; exact AE1).
  assert (agr3 D P 3 (d + 2) FB1 FB1') as AB2 by (replace (d + 2)%nat with (d + 1 + 1)%nat by lia; exact AB1).
  assert (Forall2 (part (d + 5)%nat) ps2 ps2') as HP2.
  { clear - HP1 G G' SP SUB W1 W2 W3 X1 X2 X3 X4 LL LL' SL1 SL1' AE2 AB2 OK. revert ps1 ps1' HP1 LL LL' SL1 SL1' ps2 ps2' G G'. induction SP as [|sp sp' s s' E SP' IH]; intros ps1 ps1' HP1 L L' SL SL' ps2 ps2' G G'.
    - cbn [combine] in *. inversion G; inversion G'; subst. constructor.
    - destruct HP1 as [|st st' ps1 ps1' H HP1]; [cbn [length] in L; lia|]. cbn [combine] in *. inversion G as [|? t ? ts T1 T2]; inversion G' as [|? t' ? ts' T1' T2']; subst. constructor.
      + cbn [fst snd] in *. rewrite <- X1, <- X2, <- X3, <- X4, <- W1, <- W2, <- W3 in T1'.
        rewrite (map_ext _ _ (fun r => f_equal canon (eq_sym (grow_species3 rsqrt FE1' FB1' sp sp' r (Vx D) (Vy D) (Vz D) (e_dx D) (e_dy D) (e_dz D) (e_dt D) E))) (particles st')) in T1'.
        assert (forall r, In r (particles st) -> fast3_ok r) as V by (intros r I; apply (SL st); [left; reflexivity|exact I]).
        assert (forall r, In r (particles st') -> fast3_ok r) as V' by (intros r I; apply (SL' st'); [left; reflexivity|exact I]).
        pose proof (part_more3 d 4 st st' H) as H4. cbv beta in H4.
        refine (ins3_canon D _ _ _ (particles t) (particles t') _ _ (ins3_map D (grow3 rsqrt (Vx D) (Vy D) (Vz D) (e_dx D) (e_dy D) (e_dz D) (e_dt D) sp FE1 FB1) (grow3 rsqrt (Vx D) (Vy D) (Vz D) (e_dx D) (e_dy D) (e_dz D) (e_dt D) sp FE1' FB1') (deep3 D (d + 4) P) _ (particles st) (particles st') _ _ _ H4)).
        * rewrite T1, map_map. apply Permutation_refl.
        * rewrite T1', map_map. apply Permutation_refl.
        * intros r Ir I. replace (d + 5)%nat with (d + 4 + 1)%nat in I by lia. exact (grow_inside3 D OK P rsqrt SUB (d + 4) sp FE1 FB1 r (V r Ir) I).
        * intros r Ir I. replace (d + 5)%nat with (d + 4 + 1)%nat in I by lia. exact (grow_inside3 D OK P rsqrt SUB (d + 4) sp FE1' FB1' r (V' r Ir) I).
        * intros r r' Ir _ I Ec. replace (d + 4)%nat with (d + 2 + 2)%nat in I by lia. exact (grow_agr3 D OK P rsqrt SUB (d + 2) sp FE1 FE1' FB1 FB1' r r' AE2 AB2 (V r Ir) I Ec).
      + cbn [length] in L, L'. apply (IH SP' ps1 ps1'); auto; intros st0 r I; [apply (SL st0)|apply (SL' st0)]; right; exact I. }
  assert (Forall2 (part (d + 5)%nat) ps3 ps3') as HP3.
  { clear - HP2 W W' W1 W2 W3 X1 X2 X3 OK. revert ps3 ps3' W W'. induction HP2 as [|st st' ps2 ps2' H HP2 IH]; intros ps3 ps3' W W'; inversion W as [|? t ? ts T1 T2]; inversion W' as [|? t' ? ts' T1' T2']; subst; constructor; [|apply IH; assumption].
    rewrite <- X1, <- X2, <- X3, <- W1, <- W2, <- W3 in T1'.
    refine (ins3_canon D _ _ _ (particles t) (particles t') _ _ (ins3_map D (gwrap3 (Vx D) (Vy D) (Vz D) (e_dx D) (e_dy D) (e_dz D)) (gwrap3 (Vx D) (Vy D) (Vz D) (e_dx D) (e_dy D) (e_dz D)) (deep3 D (d + 5) P) _ (particles st) (particles st') _ _ _ H)).
    - rewrite map_map. apply Permutation_sym. exact T1.
    - rewrite map_map. apply Permutation_sym. exact T1'.
    - intros r _ I. rewrite <- (gwrap_inside3 D OK P (d + 5) r). exact I.
    - intros r _ I. rewrite <- (gwrap_inside3 D OK P (d + 5) r). exact I.
    - intros r r' _ _ _ Ec. apply gwrap3_eq. exact Ec. }
  apply (currents_ext3 D' _ (cur D sps ps2')) in C'.
  2:{ intros f g. rewrite <- X1, <- X2, <- X3, <- X4, <- W1, <- W2, <- W3. symmetry. apply (gcurrents_species3 _ _ _ _ _ _ _ _ _ _ sps sps' SP). }
  assert (agr3 D P 4 (d + 8) (cur D sps ps2) (cur D sps ps2')) as AJ2 by (replace (d + 8)%nat with (d + 5 + 3)%nat by lia; apply cur_agr3; assumption).
  set (FJ2 := cur D sps ps2) in *. set (FJ2' := cur D sps ps2') in *.
  pose proof (up_B3_ok eps D OK rank FE1 FB1 mE1 mB1 mB2 HB1 HE1 A7) as HB2.
  pose proof (up_B3_ok eps D' OK' rank' FE1' FB1' mE1' mB1' mB2' HB1' HE1' B7) as HB2'.
  apply (shows_ext (Q2Qc 0) _ _ _ _ _ _ (gB3 eps D FE1' FB1')) in HB2'; [|intros; apply gB3_same; assumption].
  assert (agr3 D P 3 (d + 7) (gB3 eps D FE1 FB1) (gB3 eps D FE1' FB1')) as AB3.
  { replace (d + 7)%nat with (d + 2 + 1 + 4)%nat by lia. apply agr3_more. apply agr_gB3; assumption. }
  set (FB2 := gB3 eps D FE1 FB1) in *. set (FB2' := gB3 eps D FE1' FB1') in *. fold (field3_is D' FB2' mB2') in HB2'.
  pose proof (up_E3_ok eps D OK rank FB2 FJ2 FE1 mB2 mJ2 mE1 mE2 HE1 HB2 C A8) as HE2.
  pose proof (up_E3_ok eps D' OK' rank' FB2' FJ2' FE1' mB2' mJ2' mE1' mE2' HE1' HB2' C' B8) as HE2'.
  apply (shows_ext (Q2Qc 0) _ _ _ _ _ _ (gE3 eps D FB2' FJ2' FE1')) in HE2'; [|intros; apply gE3_same; assumption].
  assert (agr3 D P 3 (d + 8) (gE3 eps D FB2 FJ2 FE1) (gE3 eps D FB2' FJ2' FE1')) as AE3.
  { replace (d + 8)%nat with (d + 7 + 1)%nat in AJ2 |- * by lia. apply agr_gE3; [exact OK|exact AB3|exact AJ2|].
    replace (d + 7)%nat with (d + 2 + 5)%nat by lia. apply agr3_more. exact AE2. }
  split; [|split; split; assumption].
  split; [exists (gE3 eps D FB2 FJ2 FE1), (gE3 eps D FB2' FJ2' FE1'); split; [exact HE2|split; [exact HE2'|exact AE3]]|].
  split; [exists FB2, FB2'; split; [exact HB2|split; [exact HB2'|replace (d + 8)%nat with (d + 7 + 1)%nat by lia; apply agr3_more; exact AB3]]|].
  split; [exists FJ2, FJ2'; split; [exact C|split; [exact C'|exact AJ2]]|].
  cbn [t_parts]. clear - HP3. replace (d + 8)%nat with (d + 5 + 3)%nat by lia. induction HP3; constructor; [apply part_more3; assumption|assumption].
Qed.
Lemma local_steps3 k : forall d s s' s1 s1', ready3 D sps s -> ready3 D' sps' s' -> local_state3 d s s' ->
  steps3d rsqrt eps D sps k s s1 -> steps3d rsqrt eps D' sps' k s' s1' ->
  local_state3 (d + 8 * k) s1 s1' /\ ready3 D sps s1 /\ ready3 D' sps' s1'.
Proof using SUB OK OK' SD SP U U'.
  induction k as [|k IH]; intros d s s' s1 s1' R R' S T T'; inversion T; inversion T'; subst; [rewrite Nat.mul_0_r, Nat.add_0_r; auto|].
  destruct (local_step3 _ _ _ _ _ _ _ R R' S ltac:(eassumption) ltac:(eassumption)) as (S2 & R2 & R2').
  replace (d + 8 * Datatypes.S k)%nat with (d + 8 + 8 * k)%nat by lia. eapply IH; [exact R2|exact R2'|exact S2|eassumption|eassumption].
Qed.
(** from what the arrays hold, and back *)
Lemma local_start3 s s' : consistent3 D s -> consistent3 D' s' -> agree3 D D' P s s' -> local_state3 0 s s'.
Proof using OK OK' SD.
  intros ((FE & HE) & (FB & HB) & (FJ & HJ)) ((FE' & HE') & (FB' & HB') & (FJ' & HJ')) [A AP].
  destruct (P_GaussD1.cells3_pos D OK) as (N1 & N2 & N3). pose proof SD as (W1 & W2 & W3 & _).
  assert (cells3_x D' = cells3_x D) as WX by (symmetry; exact W1). assert (cells3_y D' = cells3_y D) as WY by (symmetry; exact W2). assert (cells3_z D' = cells3_z D) as WZ by (symmetry; exact W3).
  assert (forall a b c, deep3 D 0 P a b c = true -> P (a mod cells3_x D) (b mod cells3_y D) (c mod cells3_z D) = true) as K.
  { intros a b c H. rewrite deep3_iff in H. specialize (H 0 0 0 ltac:(lia) ltac:(lia) ltac:(lia)). rewrite !Z.add_0_r in H. exact H. }
  split; [|split; [|split]].
  - exists FE, FE'. split; [exact HE|]. split; [exact HE'|]. intros f a b c Hf H. destruct (A f _ _ _ (Z.mod_pos_bound a _ N1) (Z.mod_pos_bound b _ N2) (Z.mod_pos_bound c _ N3) (K a b c H)) as [A1 _]. destruct (A1 Hf) as [A2 _].
    rewrite (read_field3 D OK FE _ f _ _ _ HE Hf), (read_field3 D' OK' FE' _ f _ _ _ HE' Hf), !shown0_3, WX, WY, WZ, !Zmod_mod in A2 by assumption. exact A2.
  - exists FB, FB'. split; [exact HB|]. split; [exact HB'|]. intros f a b c Hf H. destruct (A f _ _ _ (Z.mod_pos_bound a _ N1) (Z.mod_pos_bound b _ N2) (Z.mod_pos_bound c _ N3) (K a b c H)) as [A1 _]. destruct (A1 Hf) as [_ A2].
    rewrite (read_field3 D OK FB _ f _ _ _ HB Hf), (read_field3 D' OK' FB' _ f _ _ _ HB' Hf), !shown0_3, WX, WY, WZ, !Zmod_mod in A2 by assumption. exact A2.
  - exists FJ, FJ'. split; [exact HJ|]. split; [exact HJ'|]. intros f a b c Hf H. destruct (A f _ _ _ (Z.mod_pos_bound a _ N1) (Z.mod_pos_bound b _ N2) (Z.mod_pos_bound c _ N3) (K a b c H)) as [_ A1]. pose proof (A1 Hf) as A2.
    rewrite (read_currents3 D OK FJ _ f _ _ _ HJ Hf), (read_currents3 D' OK' FJ' _ f _ _ _ HJ' Hf), !shown0_3, WX, WY, WZ, !Zmod_mod in A2 by assumption. exact A2.
  - assert (forall r, inside3 D (deep3 D 0 P) r = inside3 D P r) as I0.
    { intro r. unfold inside3. destruct (px _ r) as [x|]; [|reflexivity]. destruct (py _ r) as [y|]; [|reflexivity]. destruct (pz _ r) as [z|]; [|reflexivity].
      unfold deep3, span. cbn [Nat.mul Nat.add seq map forallb Z.of_nat]. rewrite !Bool.andb_true_r. change (0 - 0) with 0. rewrite !Z.add_0_r, !Zmod_mod. reflexivity. }
    clear - AP I0. induction AP as [|st st' l l' H AP IH]; constructor; [|exact IH]. unfold same_inside3 in H. unfold ins3. rewrite !(filter_ext _ _ I0). exact H.
Qed.
Lemma local_end3 d s s' : local_state3 d s s' -> agree3 D D' (deep3 D d P) s s'.
Proof using OK OK' SD.
  intros ((FE & FE' & HE & HE' & AE) & (FB & FB' & HB & HB' & AB) & (FJ & FJ' & HJ & HJ' & AJ) & HP). pose proof SD as (W1 & W2 & W3 & _).
  assert (cells3_x D' = cells3_x D) as WX by (symmetry; exact W1). assert (cells3_y D' = cells3_y D) as WY by (symmetry; exact W2). assert (cells3_z D' = cells3_z D) as WZ by (symmetry; exact W3).
  split; [|exact HP]. intros f a b c _ _ _ H. split; intro Hf; [split|].
  - rewrite (read_field3 D OK FE _ f _ _ _ HE Hf), (read_field3 D' OK' FE' _ f _ _ _ HE' Hf), !shown0_3, WX, WY, WZ by assumption. apply AE; assumption.
  - rewrite (read_field3 D OK FB _ f _ _ _ HB Hf), (read_field3 D' OK' FB' _ f _ _ _ HB' Hf), !shown0_3, WX, WY, WZ by assumption. apply AB; assumption.
  - rewrite (read_currents3 D OK FJ _ f _ _ _ HJ Hf), (read_currents3 D' OK' FJ' _ f _ _ _ HJ' Hf), !shown0_3, WX, WY, WZ by assumption. apply AJ; assumption.
Qed.
End Two.
