(** Whole time steps in 3D, part 6: the exchange of particles wraps positions into the domain. *)
From Coq Require Import QArith Qabs Qround Qcanon Permutation Lqa.
From Verif Require Import Base M_Layout S_Layout M_PartSync S_PartSync M_FieldSync S_FieldSync M_Deposit M_Push P_Layout P_PartSync P_PartSync2 P_PartSync3 P_FieldSync5 Properties_PartSync M_Step S_Step P_Step1 P_Step2 P_Step5 P_Step6 M_Step3D S_Step3D P_StepD1 P_StepD2.
Local Open Scope list_scope.
Local Open Scope Z_scope.

Definition gwrap3 (Nx Ny Nz : Z) (dx dy dz : Q) (r : prow body) : prow body :=
  mkRow _ (option_map (wrap1 Nx dx) (px _ r)) (option_map (wrap1 Ny dy) (py _ r)) (option_map (wrap1 Nz dz) (pz _ r)) (other _ r).
Lemma gwrap3_eq Nx Ny Nz dx dy dz r r' : canon r = canon r' -> canon (gwrap3 Nx Ny Nz dx dy dz r) = canon (gwrap3 Nx Ny Nz dx dy dz r').
Proof.
  destruct r as [x y z b], r' as [x' y' z' b']. unfold canon, gwrap3. cbn [px py pz other]. intro H.
  assert (option_map Qred x = option_map Qred x') as E1 by congruence. assert (option_map Qred y = option_map Qred y') as E2 by congruence.
  assert (option_map Qred z = option_map Qred z') as E3 by congruence. assert (canon_body b = canon_body b') as E4 by congruence.
  assert (forall W d u u', option_map Qred u = option_map Qred u' -> option_map Qred (option_map (wrap1 W d) u) = option_map Qred (option_map (wrap1 W d) u')) as K.
  { intros W d [u|] [u'|] E; try discriminate; [|reflexivity]. cbn [option_map] in *. f_equal. apply Qred_complete. apply wrap1_eq.
    assert (Qred u = Qred u') as E' by congruence. rewrite <- (Qred_correct u), <- (Qred_correct u'), E'. reflexivity. }
  rewrite (K _ _ _ _ E1), (K _ _ _ _ E2), (K _ _ _ _ E3), E4. reflexivity.
Qed.

Section Exchange.
Variable D : domain3.
Hypothesis OK : domain3_ok D.
Local Notation n := (npatches3 D).
Local Notation nbr := (nbr3 (e_ax D) (e_ay D) (e_az D)).
Local Notation geo := (geo_of3 D).
Local Notation live_rows p st := (S_PartSync.alive (nth p st [])).
Local Notation wrapped := (gwrap3 (Vx D) (Vy D) (Vz D) (e_dx D) (e_dy D) (e_dz D)).

Lemma paired_axes3 : paired [e_ax D; e_ay D; e_az D].
Proof. destruct (ok3_px D OK) as [P1 P2]. destruct (ok3_py D OK) as [P3 P4]. destruct (ok3_pz D OK) as [P5 P6]. constructor; [congruence|constructor; [congruence|constructor; [congruence|constructor]]]. Qed.
Lemma nbr3_sym : nbr_symmetric n 26 opp3 nbr.
Proof. destruct (ok3_n D OK) as (N1 & N2 & N3). exact (sym3 _ _ _ paired_axes3 N1 N2 N3). Qed.
Lemma nbr3_some p b : (p < n)%nat -> (b < 26)%nat -> exists q, nbr p b = Some q.
Proof.
  intros Hp Hb. destruct (ok3_n D OK) as (N1 & N2 & N3). destruct (ok3_px D OK) as [P1 P2]. destruct (ok3_py D OK) as [P3 P4]. destruct (ok3_pz D OK) as [P5 P6].
  assert (exists i j k, wrap_all [e_ax D; e_ay D; e_az D] (add [c3x (e_ax D) p; c3y (e_ax D) (e_ay D) p; c3z (e_ax D) (e_ay D) p] (nth b bounds3 [])) = Some [i; j; k] /\ in_grid [e_ax D; e_ay D; e_az D] [i; j; k]) as (i & j & k & W & G).
  { assert (forall a x, ax_lo a = Periodic -> ax_hi a = Periodic -> 1 <= ax_n a -> exists k, wrap a x = Some k /\ 0 <= k < ax_n a) as K.
    { intros a x A1 A2 A3. unfold wrap. rewrite A1, A2. cbn [bc_eqb]. destruct (Z.ltb_spec x 0); [eexists; split; [reflexivity|lia]|].
      destruct (Z.leb_spec (ax_n a) x); eexists; (split; [reflexivity|lia]). }
    assert (exists u v w, nth b bounds3 [] = [u; v; w]) as (u & v & w & ->) by (do 26 (destruct b as [|b]; [eexists; eexists; eexists; reflexivity|]); lia).
    cbn [add wrap_all]. destruct (K (e_ax D) (c3x (e_ax D) p + u) P1 P2 N1) as (i & E1 & B1). destruct (K (e_ay D) (c3y (e_ax D) (e_ay D) p + v) P3 P4 N2) as (j & E2 & B2).
    destruct (K (e_az D) (c3z (e_ax D) (e_ay D) p + w) P5 P6 N3) as (k & E3 & B3).
    exists i, j, k. rewrite E1, E2, E3. split; [reflexivity|]. constructor; [lia|constructor; [lia|constructor; [lia|constructor]]]. }
  destruct (honto3 _ _ _ N1 N2 N3 [i; j; k] G) as (q & Hq & Eq). exists q. apply (nbr3_spec _ _ _ N1 N2 N3 p b q Hp Hb). split; [exact Hq|]. rewrite W, <- Eq. reflexivity.
Qed.
Lemma moved3_near p r : moved3 D p r -> near (e_nx D) (e_dx D) (qi D p) (px _ r) /\ near (e_ny D) (e_dy D) (qj D p) (py _ r) /\ near (e_nz D) (e_dz D) (qk D p) (pz _ r).
Proof.
  intros (x & y & z & E1 & E2 & E3 & V1 & V2 & V3 & R1 & R2 & R3). rewrite E1, E2, E3. destruct (cdt3_ok D OK) as (C0 & C1 & C2 & C3). destruct (ok3_d D OK) as (D1 & D2 & D3). destruct (ok3_g D OK) as (G1 & G2 & G3 & G4).
  destruct (half_cell _ _ _ _ C0 C1 V1) as [X1 X2]. destruct (half_cell _ _ _ _ C0 C2 V2) as [Y1 Y2]. destruct (half_cell _ _ _ _ C0 C3 V3) as [Z1 Z2].
  assert (forall m d i v w, 1 <= m -> (0 < d)%Q -> (- (d / 2) <= w)%Q -> (w <= d / 2)%Q -> in_reach m d i (v - w) -> near m d i (Some v)) as K.
  { intros m d i v w Hm Hd W1 W2 [A B]. cbn [near]. pose proof (width_pos m d Hm Hd) as WP.
    replace (i - 1) with (i + -1) by lia. replace (i + 2) with (i + 1 + 1) by lia. rewrite (edge_step m d i (-1)), (edge_step m d (i + 1) 1).
    change (inject_Z 1) with 1%Q. change (inject_Z (-1)) with (-1)%Q. set (e := cell_edge m d i) in *. set (e' := cell_edge m d (i + 1)) in *.
    set (w0 := (inject_Z m * d)%Q) in *. unfold Qdiv in *. change (/ 2)%Q with (1#2)%Q in *. clearbody e e' w0. split; lra. }
  split; [|split]; eapply K; try eassumption; lia.
Qed.
Lemma stays3 p r : moved3 D p r -> (p < n)%nat -> cl3 _ (geo p) r = None -> in_patch3 D p r /\ wrapped r = r.
Proof.
  intros M Hp C. destruct (ok3_n D OK) as (N1 & N2 & N3). destruct (ok3_d D OK) as (D1 & D2 & D3). destruct (ok3_g D OK) as (G1 & G2 & G3 & G4). destruct (pijk D OK p Hp) as (I1 & I2 & I3).
  pose proof (proj2 (sides3 body)) as SO. apply SO in C.
  destruct (C43_absorbed_3d body (e_ax D) (e_ay D) (e_az D) (e_nx D) (e_ny D) (e_nz D) 0 (e_dx D) (e_dy D) (e_dz D) p r N1 N2 N3 ltac:(lia) D1 D2 D3 C) as ((A1 & A2 & A3) & _).
  destruct M as (x & y & z & E1 & E2 & E3 & V1 & V2 & V3 & _). rewrite E1 in A1. rewrite E2 in A2. rewrite E3 in A3. cbn [in_cells'] in A1, A2, A3. split.
  - exists x, y, z. repeat (split; [assumption|]). assumption.
  - unfold gwrap3. rewrite E1, E2, E3. cbn [option_map].
    assert (forall a m d i v, 0 <= i < ax_n a -> 1 <= m -> (0 < d)%Q -> in_cells m d i v -> wrap1 (ax_n a * m) d v = v) as K.
    { intros a m d i v Hi Hm Hd [B1 B2]. pose proof (edge_mono m d 0 i Hm Hd ltac:(lia)) as M3. pose proof (edge_mono m d (i + 1) (ax_n a) Hm Hd ltac:(lia)) as M4.
      assert (cell_edge m d 0 == - (d / 2))%Q as E0 by (unfold cell_edge; change (inject_Z (0 * m)) with 0%Q; ring).
      assert (cell_edge m d (ax_n a) == inject_Z (ax_n a * m) * d - d / 2)%Q as En by reflexivity.
      apply wrap1_in; lra. }
    rewrite (K (e_ax D) (e_nx D) (e_dx D) (qi D p) x I1 ltac:(lia) D1 A1). rewrite (K (e_ay D) (e_ny D) (e_dy D) (qj D p) y I2 ltac:(lia) D2 A2). rewrite (K (e_az D) (e_nz D) (e_dz D) (qk D p) z I3 ltac:(lia) D3 A3).
    rewrite <- E1, <- E2, <- E3. destruct r; reflexivity.
Qed.
Lemma arrives3 p b q r : moved3 D p r -> (p < n)%nat -> nbr p b = Some q -> cl3 _ (geo p) r = Some b ->
  in_patch3 D q (sh3 _ (geo q) r) /\ canon (sh3 _ (geo q) r) = canon (wrapped r) /\ out3 _ (geo q) (sh3 _ (geo q) r) = false.
Proof.
  intros M Hp N C. destruct (ok3_n D OK) as (N1 & N2 & N3). destruct (ok3_d D OK) as (D1 & D2 & D3). destruct (ok3_g D OK) as (G1 & G2 & G3 & G4).
  destruct (ok3_px D OK) as [P1 P2]. destruct (ok3_py D OK) as [P3 P4]. destruct (ok3_pz D OK) as [P5 P6]. destruct (moved3_near p r M) as (Nx & Ny & Nz).
  destruct M as (x & y & z & E1 & E2 & E3 & V1 & V2 & V3 & _).
  assert (Hb : (b < 26)%nat) by exact (proj1 (sides3 body) _ _ _ C).
  pose proof (nbr3_lt _ _ _ N1 N2 N3 p b q Hp Hb N) as Hq. pose proof N as W. apply (nbr3_spec _ _ _ N1 N2 N3) in W; auto. destruct W as [_ W].
  pose proof C as C'. unfold cl3, geo_of3, geo3 in C'.
  match type of C' with classify3 ?gx ?gy ?gz _ _ _ = _ => pose proof (classify3_dirs gx gy gz (px _ r) (py _ r) (pz _ r)) as Cd end.
  rewrite C' in Cd. destruct Cd as [_ Cd]. rewrite Cd in W. clear C' Cd.
  rewrite E1, E2, E3 in W. cbn [wrap_all add] in W.
  destruct (wrap (e_ax D) _) as [k1|] eqn:W1 in W; [|discriminate]. destruct (wrap (e_ay D) _) as [k2|] eqn:W2 in W; [|discriminate]. destruct (wrap (e_az D) _) as [k3|] eqn:W3 in W; [|discriminate].
  assert (k1 = qi D q) by (unfold c3x in W; congruence). assert (k2 = qj D q) by (unfold c3y in W; congruence). assert (k3 = qk D q) by (unfold c3z in W; congruence). subst k1 k2 k3.
  destruct (pijk D OK p Hp) as (I1 & I2 & I3). rewrite E1 in Nx. rewrite E2 in Ny. rewrite E3 in Nz.
  destruct (axis_wrap (e_ax D) (e_nx D) (e_dx D) (qi D p) x (qi D q) P1 P2 I1 ltac:(lia) D1 Nx W1) as (x' & Hx & Ex & Cx).
  destruct (axis_wrap (e_ay D) (e_ny D) (e_dy D) (qj D p) y (qj D q) P3 P4 I2 ltac:(lia) D2 Ny W2) as (y' & Hy & Ey & Cy).
  destruct (axis_wrap (e_az D) (e_nz D) (e_dz D) (qk D p) z (qk D q) P5 P6 I3 ltac:(lia) D3 Nz W3) as (z' & Hz & Ez & Cz).
  assert (sh3 body (geo q) r = mkRow _ (Some x') (Some y') (Some z') (other _ r)) as Sh by (unfold sh3, geo_of3, geo3; rewrite E1, E2, E3, Hx, Hy, Hz; reflexivity).
  rewrite <- E1 in Nx. rewrite <- E2 in Ny. rewrite <- E3 in Nz.
  destruct (C06_arrivals_3d body (e_ax D) (e_ay D) (e_az D) (e_nx D) (e_ny D) (e_nz D) 0 (e_dx D) (e_dy D) (e_dz D) p b q r paired_axes3 N1 N2 N3 ltac:(lia) ltac:(lia) ltac:(lia) ltac:(lia) D1 D2 D3 Hp Hb N C Nx Ny Nz) as (_ & _ & _ & Lo).
  split; [|split].
  - rewrite Sh. exists x', y', z'. cbn [px py pz other]. repeat (split; [reflexivity || assumption|]). assumption.
  - rewrite Sh. unfold gwrap3, canon. cbn [px py pz other]. rewrite E1, E2, E3. cbn [option_map]. f_equal; f_equal; apply Qred_complete; assumption.
  - destruct (out3 body (geo q) (sh3 body (geo q) r)) eqn:O; [exfalso|reflexivity].
    destruct (cl3 body (geo q) (sh3 body (geo q) r)) as [c|] eqn:Ec.
    + destruct (Lo c Ec) as [L1 _]. destruct (nbr3_some q c Hq (proj1 (sides3 body) _ _ _ Ec)) as (q' & E'). congruence.
    + apply (proj2 (sides3 body)) in Ec. congruence.
Qed.
Lemma arrival3_in st q r : length st = n -> (q < n)%nat -> In r (arrivals 26 opp3 (cl3 body) geo nbr st q) ->
  exists p b, (p < n)%nat /\ nbr p b = Some q /\ cl3 _ (geo p) r = Some b /\ In r (live_rows p st).
Proof.
  intros L Hq I. unfold arrivals in I. apply in_flat_map in I. destruct I as (b & Hb & I). apply in_seq in Hb.
  destruct (nbr q b) as [p|] eqn:E; [|destruct I]. destruct (nbr3_sym q b p Hq ltac:(lia) E) as (Hp & Ho & Hoo & N').
  unfold left_by in I. apply filter_In in I. destruct I as [I S]. exists p, (opp3 b). split; [exact Hp|]. split; [exact N'|]. split; [|exact I].
  unfold on_side in S. destruct (cl3 body (geo p) r); [|discriminate]. apply Nat.eqb_eq in S. congruence.
Qed.
Lemma exchange3_ok rank st st'' : length st = n -> (forall p r, (p < n)%nat -> In r (live_rows p st) -> moved3 D p r) -> sync_particles3 D rank st st'' ->
  settled3 D st'' /\ Permutation (map canon (particles st'')) (map (fun r => canon (wrapped r)) (particles st)).
Proof.
  intros L M (fresh & st' & es & sched & E1 & Pm & E2). destruct (ok3_n D OK) as (N1 & N2 & N3). destruct (ok3_d D OK) as (D1 & D2 & D3). destruct (ok3_g D OK) as (G1 & G2 & G3 & G4).
  assert (Sy : nbr_symmetric (length st) 26 opp3 nbr) by (rewrite L; exact nbr3_sym).
  assert (Rm : remote_ok (length st) 26 opp3 nbr (remote_of rank nbr)) by (apply remote_of_ok; auto).
  destruct (C50_distribution _ _ 26 opp3 (cl3 body) (sh3 body) (out3 body) (clear3 body) false geo nbr fresh (remote_of rank nbr) st es sched st' st'' (sides3 body) Sy Rm) as [L'' R]; auto.
  { intros q b p r c Hq Hb N Hr C. exfalso. destruct (Sy q b p Hq Hb N) as (Hp & Ho & Hoo & N'). rewrite L in Hp, Hq.
    unfold left_by in Hr. apply filter_In in Hr. destruct Hr as [Hr Hs].
    assert (Cp : cl3 body (geo p) r = Some (opp3 b)) by (unfold on_side in Hs; destruct (cl3 body (geo p) r); [|discriminate]; apply Nat.eqb_eq in Hs; congruence).
    destruct (arrives3 p (opp3 b) q r (M p r Hp Hr) Hp N' Cp) as (_ & _ & O). apply (proj2 (sides3 body)) in O. congruence. }
  rewrite L in R, L''.
  assert (K : forall q, (q < n)%nat -> Permutation (live_rows q st'') (stayed (cl3 body) (geo q) (nth q st []) ++ map (sh3 body (geo q)) (arrivals 26 opp3 (cl3 body) geo nbr st q))).
  { intros q Hq. rewrite (R q Hq). apply Permutation_app_head. rewrite (filter_id _ (map _ _)); [reflexivity|].
    intros r' I. apply in_map_iff in I. destruct I as (r & <- & I). destruct (arrival3_in st q r L Hq I) as (p & b & Hp & N & C & I').
    destruct (arrives3 p b q r (M p r Hp I') Hp N C) as (_ & _ & O). rewrite O. reflexivity. }
  split.
  - split; [exact L''|]. intros q r Hq I. apply (Permutation_in r (K q Hq)) in I. apply in_app_or in I. destruct I as [I|I].
    + apply filter_In in I. destruct I as [I C]. destruct (cl3 body (geo q) r) eqn:Ec; [discriminate|]. exact (proj1 (stays3 q r (M q r Hq I) Hq Ec)).
    + apply in_map_iff in I. destruct I as (r0 & <- & I). destruct (arrival3_in st q r0 L Hq I) as (p & b & Hp & N & C & I').
      exact (proj1 (arrives3 p b q r0 (M p r0 Hp I') Hp N C)).
  - unfold particles. rewrite (flat_map_nth _ [] st''), L''. rewrite (flat_map_nth _ [] st), L.
    transitivity (map (fun r => canon (wrapped r)) (flat_map (fun q => stayed (cl3 body) (geo q) (nth q st []) ++ arrivals 26 opp3 (cl3 body) geo nbr st q) (seq 0 n))).
    + rewrite !flat_map_concat_map, !concat_map, !map_map, <- !flat_map_concat_map. apply flat_map_perm_ext. intros q Hq. apply in_seq in Hq.
      rewrite (K q ltac:(lia)), !map_app, map_map.
      assert (map canon (stayed (cl3 body) (geo q) (nth q st [])) = map (fun r => canon (wrapped r)) (stayed (cl3 body) (geo q) (nth q st []))) as ->.
      { apply map_ext_in. intros r I. apply filter_In in I. destruct I as [I C]. destruct (cl3 body (geo q) r) eqn:Ec; [discriminate|].
        rewrite (proj2 (stays3 q r (M q r ltac:(lia) I) ltac:(lia) Ec)). reflexivity. }
      apply Permutation_app_head. erewrite map_ext_in; [reflexivity|]. intros r I. destruct (arrival3_in st q r L ltac:(lia) I) as (p & b & Hp & N & C & I').
      exact (proj1 (proj2 (arrives3 p b q r (M p r Hp I') Hp N C))).
    + apply Permutation_map. rewrite flat_map_app2. pose proof (C04_arrive_once _ _ 26 opp3 (cl3 body) (out3 body) geo nbr st (sides3 body) Sy) as A. rewrite L in A. rewrite A.
      rewrite <- flat_map_app2. apply flat_map_perm_ext. intros q Hq. apply in_seq in Hq.
      rewrite (C04_stayed_left_or_lost _ _ (cl3 body) geo nbr st q). apply Permutation_app_head.
      rewrite (filter_all (fun r => match cl3 body (geo q) r with Some b => match nbr q b with Some _ => false | None => true end | None => false end)); [rewrite app_nil_r; reflexivity|].
      intros r I. destruct (cl3 body (geo q) r) as [b|] eqn:Ec; [|reflexivity]. destruct (nbr3_some q b ltac:(lia) (proj1 (sides3 body) _ _ _ Ec)) as (q' & ->). reflexivity.
Qed.
End Exchange.
