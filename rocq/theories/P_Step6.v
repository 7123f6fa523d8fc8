(** Whole time steps, part 6: the exchange of particles wraps positions into the domain. *)
From Coq Require Import QArith Qabs Qround Qcanon Permutation Lqa.
From Verif Require Import Base M_Layout S_Layout M_PartSync S_PartSync M_FieldSync S_FieldSync M_Deposit M_Push P_Layout P_PartSync P_PartSync2 P_PartSync3 P_FieldSync5 Properties_PartSync M_Step S_Step P_Step1 P_Step2 P_Step5.
Local Open Scope list_scope.
Local Open Scope Z_scope.

Lemma filter_id {A} (f : A -> bool) l : (forall x, In x l -> f x = true) -> filter f l = l.
Proof. induction l as [|a l IH]; intro H; [reflexivity|]. cbn [filter]. rewrite H by (left; reflexivity). f_equal. apply IH. intros x I. apply H. right. exact I. Qed.
Lemma flat_map_app2 {A B} (f g : A -> list B) l : Permutation (flat_map (fun a => f a ++ g a) l) (flat_map f l ++ flat_map g l).
Proof.
  induction l as [|a l IH]; [constructor|]. cbn [flat_map]. rewrite IH, <- !app_assoc. apply Permutation_app_head. rewrite !app_assoc. apply Permutation_app_tail. apply Permutation_app_comm.
Qed.
Lemma some_eq {A} (a b : A) : Some a = Some b -> a = b.
Proof. congruence. Qed.
Definition wrap1 (W : Z) (d v : Q) : Q :=
  if negb (Qle_bool v (inject_Z W * d - d / 2)) then (v - inject_Z W * d)%Q else if negb (Qle_bool (- (d / 2)) v) then (v + inject_Z W * d)%Q else v.
Definition gwrap (Nx Ny : Z) (dx dy : Q) (r : prow body) : prow body :=
  mkRow _ (option_map (wrap1 Nx dx) (px _ r)) (option_map (wrap1 Ny dy) (py _ r)) (pz _ r) (other _ r).
Lemma wrap1_eq W d v v' : (v == v')%Q -> (wrap1 W d v == wrap1 W d v')%Q.
Proof.
  intro E. unfold wrap1. rewrite (Qleb_comp v v' E _ _ (Qeq_refl _)), (Qleb_comp _ _ (Qeq_refl _) v v' E).
  destruct (negb _); [rewrite E; reflexivity|]. destruct (negb _); rewrite E; reflexivity.
Qed.
Lemma wrap1_in W d v : (- (d / 2) <= v)%Q -> (v <= inject_Z W * d - d / 2)%Q -> wrap1 W d v = v.
Proof. intros H1 H2. apply Qle_bool_iff in H1, H2. unfold wrap1. rewrite H1, H2. reflexivity. Qed.
Lemma wrap1_up W d v : (v < - (d / 2))%Q -> (v <= inject_Z W * d - d / 2)%Q -> wrap1 W d v = (v + inject_Z W * d)%Q.
Proof.
  intros H1 H2. apply Qle_bool_iff in H2. unfold wrap1. rewrite H2. destruct (Qle_bool (- (d / 2)) v) eqn:E; [apply Qle_bool_iff in E; lra|reflexivity].
Qed.
Lemma wrap1_down W d v : (inject_Z W * d - d / 2 < v)%Q -> wrap1 W d v = (v - inject_Z W * d)%Q.
Proof. intros H1. unfold wrap1. destruct (Qle_bool v _) eqn:E; [apply Qle_bool_iff in E; lra|reflexivity]. Qed.
Lemma gwrap_eq Nx Ny dx dy r r' : canon r = canon r' -> canon (gwrap Nx Ny dx dy r) = canon (gwrap Nx Ny dx dy r').
Proof.
  destruct r as [x y z b], r' as [x' y' z' b']. unfold canon, gwrap. cbn [px py pz other]. intro H.
  assert (option_map Qred x = option_map Qred x') as E1 by congruence. assert (option_map Qred y = option_map Qred y') as E2 by congruence.
  assert (option_map Qred z = option_map Qred z') as E3 by congruence. assert (canon_body b = canon_body b') as E4 by congruence.
  assert (forall W d u u', option_map Qred u = option_map Qred u' -> option_map Qred (option_map (wrap1 W d) u) = option_map Qred (option_map (wrap1 W d) u')) as K.
  { intros W d [u|] [u'|] E; try discriminate; [|reflexivity]. cbn [option_map] in *. f_equal. apply Qred_complete. apply wrap1_eq.
    assert (Qred u = Qred u') as E' by congruence. rewrite <- (Qred_correct u), <- (Qred_correct u'), E'. reflexivity. }
  rewrite (K _ _ _ _ E1), (K _ _ _ _ E2), E3, E4. reflexivity.
Qed.

Lemma axis_wrap a m d i v k : ax_lo a = Periodic -> ax_hi a = Periodic -> 0 <= i < ax_n a -> 1 <= m -> (0 < d)%Q -> near m d i (Some v) ->
  wrap a (i + dir1 (ax_geo a m 0 d i) (Some v)) = Some k ->
  exists v', handle_periodic (ax_geo a m 0 d k) (Some v) = Some v' /\ (v' == wrap1 (ax_n a * m) d v)%Q /\ in_cells m d k v'.
Proof.
  intros P1 P2 Hi Hm D N W.
  destruct (axis_arrival a m 0 d i (Some v) k ltac:(congruence) Hi Hm ltac:(lia) D N W) as [C _].
  assert (Hn : 1 <= ax_n a) by lia.
  assert (Hk : 0 <= k < ax_n a) by (eapply wrap_range; eauto).
  assert (forall j, lo_layer a 0 j = 0) as LL by (intro j; unfold lo_layer; destruct (_ && _); reflexivity).
  assert (forall j, hi_layer a 0 j = 0) as HL by (intro j; unfold hi_layer; destruct (_ && _); reflexivity).
  pose proof (geo_lo a m 0 d i Hn) as GL. pose proof (geo_hi a m 0 d i Hn) as GH. rewrite LL in GL. rewrite HL in GH.
  pose proof (geo_min a m 0 d k) as Gmin. pose proof (geo_max a m 0 d k) as Gmax.
  assert (cell_edge m d 0 == - (d / 2))%Q as E0 by (unfold cell_edge; change (inject_Z (0 * m)) with 0%Q; ring).
  assert (cell_edge m d (ax_n a) == inject_Z (ax_n a * m) * d - d / 2)%Q as En by reflexivity.
  assert (inject_Z 0 * d == 0)%Q as Z0 by ring.
  set (h := (d / 2)%Q) in *. set (L := (inject_Z (ax_n a * m) * d)%Q) in *.
  assert (forall w, (w == v -> in_cells m d k w -> in_cells m d k v))%Q as IC by (intros w E [C1 C2]; split; rewrite <- E; assumption).
  destruct (handle_periodic (ax_geo a m 0 d k) (Some v)) as [v'|] eqn:E; [|discriminate].
  exists v'. split; [reflexivity|]. split; [|exact C]. cbn [in_cells'] in C.
  pose proof (edge_mono m d 0 k Hm D ltac:(lia)) as M1. pose proof (edge_mono m d (k + 1) (ax_n a) Hm D ltac:(lia)) as M2.
  pose proof (edge_mono m d 0 i Hm D ltac:(lia)) as M3. pose proof (edge_mono m d (i + 1) (ax_n a) Hm D ltac:(lia)) as M4.
  pose proof (edge_mono m d k (k + 1) Hm D ltac:(lia)) as M5. pose proof (edge_mono m d i (i + 1) Hm D ltac:(lia)) as M6.
  destruct (Qlt_le_dec v (- h)) as [V1|V1].
  - (* below the domain: the patch is the first one *)
    rewrite (wrap1_up (ax_n a * m) d v) by (fold h; fold L; lra). fold L.
    assert (k = ax_n a - 1).
    { unfold dir1 in W. rewrite (proj2 (below_spec v _)) in W by lra. destruct (Z.eq_dec i 0) as [->|Ni].
      - unfold wrap in W. change (0 + -1 <? 0) with true in W. cbv iota in W. rewrite P1 in W. cbn [bc_eqb] in W. congruence.
      - exfalso. destruct N as [N1 _]. pose proof (edge_mono m d 0 (i - 1) Hm D ltac:(lia)). lra. }
    subst k. pose proof (geo_hi a m 0 d (ax_n a - 1) Hn) as GHk. rewrite HL in GHk. replace (ax_n a - 1 + 1) with (ax_n a) in GHk by lia.
    rewrite periodic_up in E; [|lra|lra|].
    + apply some_eq in E. subst v'. lra.
    + assert (g_hi (ax_geo a m 0 d (ax_n a - 1)) - g_max (ax_geo a m 0 d (ax_n a - 1)) == 0)%Q as Zz by lra. rewrite Zz. exact D.
  - destruct (Qlt_le_dec (L - h) v) as [V2|V2].
    + rewrite (wrap1_down (ax_n a * m) d v) by (fold h; fold L; lra). fold L.
      assert (k = 0).
      { unfold dir1 in W. rewrite (proj2 (below_false v _)) in W by lra. rewrite (proj2 (above_spec v _)) in W by lra. destruct (Z.eq_dec i (ax_n a - 1)) as [->|Ni].
        - unfold wrap in W. destruct (Z.ltb_spec (ax_n a - 1 + 1) 0); [lia|]. destruct (Z.leb_spec (ax_n a) (ax_n a - 1 + 1)); [|lia]. rewrite P2 in W. cbn [bc_eqb] in W. congruence.
        - exfalso. destruct N as [_ N1]. pose proof (edge_mono m d (i + 2) (ax_n a) Hm D ltac:(lia)). lra. }
      subst k. pose proof (geo_lo a m 0 d 0 Hn) as GLk. rewrite LL in GLk.
      rewrite periodic_down in E; [|lra|lra|].
      * apply some_eq in E. subst v'. lra.
      * assert (g_lo (ax_geo a m 0 d 0) - g_min (ax_geo a m 0 d 0) == 0)%Q as Zz by lra. rewrite Zz. exact D.
    + rewrite (wrap1_in (ax_n a * m) d v) by (fold h; try fold L; lra). rewrite periodic_inside in E by lra. apply some_eq in E. subst v'. reflexivity.
Qed.

Section Exchange.
Variable D : domain2.
Hypothesis OK : domain_ok D.
Local Notation n := (npatches2 D).
Local Notation nbr := (nbr2 (d_ax D) (d_ay D)).
Local Notation geo := (geo_of D).
Local Notation live_rows p st := (S_PartSync.alive (nth p st [])).
Local Notation wrapped := (gwrap (Wx D) (Wy D) (d_dx D) (d_dy D)).

Lemma paired_axes : paired [d_ax D; d_ay D].
Proof. destruct (ok_px D OK) as [P1 P2]. destruct (ok_py D OK) as [P3 P4]. constructor; [congruence|constructor; [congruence|constructor]]. Qed.
Lemma nbr_sym : nbr_symmetric n 8 opp2 nbr.
Proof. destruct (ok_n D OK) as [N1 N2]. exact (sym2 _ _ paired_axes N1 N2). Qed.
Lemma nbr_some p b : (p < n)%nat -> (b < 8)%nat -> exists q, nbr p b = Some q.
Proof.
  intros Hp Hb. destruct (ok_n D OK) as [N1 N2]. destruct (ok_px D OK) as [P1 P2]. destruct (ok_py D OK) as [P3 P4].
  destruct (coords2 _ _ N1 N2 p Hp) as (C1 & C2 & _).
  assert (exists i j, wrap_all [d_ax D; d_ay D] (add [cx (d_ax D) p; cy (d_ax D) p] (nth b bounds2 [])) = Some [i; j] /\ in_grid [d_ax D; d_ay D] [i; j]) as (i & j & W & G).
  { assert (forall a x, ax_lo a = Periodic -> ax_hi a = Periodic -> 1 <= ax_n a -> exists k, wrap a x = Some k /\ 0 <= k < ax_n a) as K.
    { intros a x A1 A2 A3. unfold wrap. rewrite A1, A2. cbn [bc_eqb]. destruct (Z.ltb_spec x 0); [eexists; split; [reflexivity|lia]|].
      destruct (Z.leb_spec (ax_n a) x); eexists; (split; [reflexivity|lia]). }
    assert (exists u v, nth b bounds2 [] = [u; v]) as (u & v & ->) by (do 8 (destruct b as [|b]; [eexists; eexists; reflexivity|]); lia).
    cbn [add wrap_all]. destruct (K (d_ax D) (cx (d_ax D) p + u) P1 P2 N1) as (i & E1 & B1). destruct (K (d_ay D) (cy (d_ax D) p + v) P3 P4 N2) as (j & E2 & B2).
    exists i, j. rewrite E1, E2. split; [reflexivity|]. constructor; [lia|constructor; [lia|constructor]]. }
  destruct (honto2 _ _ N1 N2 [i; j] G) as (q & Hq & Eq). exists q. apply (nbr2_spec _ _ N1 N2 p b q Hp Hb). split; [exact Hq|]. rewrite W, <- Eq. reflexivity.
Qed.
(** what the exchange needs: a velocity of at most c and a position in the patch or in one of the patches around it *)
Definition nearby (p : nat) (r : prow body) : Prop :=
  exists x y, px _ r = Some x /\ py _ r = Some y /\
    (Qabs (b_ux (other _ r) * b_ig (other _ r)) <= 1)%Q /\ (Qabs (b_uy (other _ r) * b_ig (other _ r)) <= 1)%Q /\
    near (d_nx D) (d_dx D) (pi D p) (px _ r) /\ near (d_ny D) (d_dy D) (pj D p) (py _ r).
Lemma moved_near p r : moved D p r -> nearby p r.
Proof.
  intros (x & y & E1 & E2 & V1 & V2 & R1 & R2). exists x, y. split; [exact E1|]. split; [exact E2|]. split; [exact V1|]. split; [exact V2|]. rewrite E1, E2. destruct (cdt2_ok D OK) as (C0 & C1 & C2). destruct (ok_d D OK) as [D1 D2]. destruct (ok_g D OK) as (G1 & G2 & G3).
  destruct (half_cell _ _ _ _ C0 C1 V1) as [X1 X2]. destruct (half_cell _ _ _ _ C0 C2 V2) as [Y1 Y2].
  assert (forall m d i v w, 1 <= m -> (0 < d)%Q -> (- (d / 2) <= w)%Q -> (w <= d / 2)%Q -> in_reach m d i (v - w) -> near m d i (Some v)) as K.
  { intros m d i v w Hm Hd W1 W2 [A B]. cbn [near]. pose proof (width_pos m d Hm Hd) as WP.
    replace (i - 1) with (i + -1) by lia. replace (i + 2) with (i + 1 + 1) by lia. rewrite (edge_step m d i (-1)), (edge_step m d (i + 1) 1).
    change (inject_Z 1) with 1%Q. change (inject_Z (-1)) with (-1)%Q. set (e := cell_edge m d i) in *. set (e' := cell_edge m d (i + 1)) in *.
    set (w0 := (inject_Z m * d)%Q) in *. unfold Qdiv in *. change (/ 2)%Q with (1#2)%Q in *. clearbody e e' w0. split; lra. }
  split; eapply K; try eassumption; lia.
Qed.
Lemma stays p r : nearby p r -> (p < n)%nat -> cl2 _ (geo p) r = None -> in_patch D p r /\ wrapped r = r.
Proof.
  intros M Hp C. destruct (ok_n D OK) as [N1 N2]. destruct (ok_d D OK) as [D1 D2]. destruct (ok_g D OK) as (G1 & G2 & G3). destruct (pij D OK p Hp) as [I1 I2].
  pose proof (proj2 (sides2 body)) as SO. apply SO in C.
  destruct (C43_absorbed_2d body (d_ax D) (d_ay D) (d_nx D) (d_ny D) 0 (d_dx D) (d_dy D) p r N1 N2 ltac:(lia) D1 D2 C) as (A1 & A2 & _).
  destruct M as (x & y & E1 & E2 & V1 & V2 & _). rewrite E1 in A1. rewrite E2 in A2. cbn [in_cells'] in A1, A2. split.
  - exists x, y. split; [exact E1|]. split; [exact E2|]. split; [exact A1|]. split; [exact A2|]. split; assumption.
  - unfold gwrap. rewrite E1, E2. cbn [option_map].
    assert (forall a m d i v, 0 <= i < ax_n a -> 1 <= m -> (0 < d)%Q -> in_cells m d i v -> wrap1 (ax_n a * m) d v = v) as K.
    { intros a m d i v Hi Hm Hd [B1 B2]. pose proof (edge_mono m d 0 i Hm Hd ltac:(lia)) as M3. pose proof (edge_mono m d (i + 1) (ax_n a) Hm Hd ltac:(lia)) as M4.
      assert (cell_edge m d 0 == - (d / 2))%Q as E0 by (unfold cell_edge; change (inject_Z (0 * m)) with 0%Q; ring).
      assert (cell_edge m d (ax_n a) == inject_Z (ax_n a * m) * d - d / 2)%Q as En by reflexivity.
      apply wrap1_in; lra. }
    rewrite (K (d_ax D) (d_nx D) (d_dx D) (pi D p) x I1 ltac:(lia) D1 A1). rewrite (K (d_ay D) (d_ny D) (d_dy D) (pj D p) y I2 ltac:(lia) D2 A2).
    rewrite <- E1, <- E2. destruct r; reflexivity.
Qed.
Lemma arrives p b q r : nearby p r -> (p < n)%nat -> nbr p b = Some q -> cl2 _ (geo p) r = Some b ->
  in_patch D q (sh2 _ (geo q) r) /\ canon (sh2 _ (geo q) r) = canon (wrapped r) /\ out2 _ (geo q) (sh2 _ (geo q) r) = false.
Proof.
  intros M Hp N C. destruct (ok_n D OK) as [N1 N2]. destruct (ok_d D OK) as [D1 D2]. destruct (ok_g D OK) as (G1 & G2 & G3).
  destruct (ok_px D OK) as [P1 P2]. destruct (ok_py D OK) as [P3 P4]. destruct M as (x & y & E1 & E2 & V1 & V2 & Nx & Ny).
  assert (Hb : (b < 8)%nat) by exact (proj1 (sides2 body) _ _ _ C).
  pose proof (nbr2_lt _ _ N1 N2 p b q Hp Hb N) as Hq. pose proof N as W. apply (nbr2_spec _ _ N1 N2) in W; auto. destruct W as [_ W].
  pose proof (classify2_dirs (fst (geo p)) (snd (geo p)) (px _ r) (py _ r)) as Cd. pose proof C as C'. unfold cl2 in C'. rewrite C' in Cd. destruct Cd as [_ Cd]. rewrite Cd in W.
  rewrite E1, E2 in W. unfold geo_of in W. cbn [wrap_all add geo2 fst snd] in W.
  destruct (wrap (d_ax D) _) as [k1|] eqn:W1 in W; [|discriminate]. destruct (wrap (d_ay D) _) as [k2|] eqn:W2 in W; [|discriminate].
  assert (k1 = pi D q) by (unfold cx in W; congruence). assert (k2 = pj D q) by (unfold cy in W; congruence). subst k1 k2.
  destruct (pij D OK p Hp) as [I1 I2]. rewrite E1 in Nx. rewrite E2 in Ny.
  destruct (axis_wrap (d_ax D) (d_nx D) (d_dx D) (pi D p) x (pi D q) P1 P2 I1 ltac:(lia) D1 Nx W1) as (x' & Hx & Ex & Cx).
  destruct (axis_wrap (d_ay D) (d_ny D) (d_dy D) (pj D p) y (pj D q) P3 P4 I2 ltac:(lia) D2 Ny W2) as (y' & Hy & Ey & Cy).
  assert (sh2 body (geo q) r = mkRow _ (Some x') (Some y') (pz _ r) (other _ r)) as Sh by (unfold sh2, geo_of; cbn [geo2 fst snd]; rewrite E1, E2, Hx, Hy; reflexivity).
  rewrite <- E1 in Nx. rewrite <- E2 in Ny.
  destruct (C06_arrivals_2d body (d_ax D) (d_ay D) (d_nx D) (d_ny D) 0 (d_dx D) (d_dy D) p b q r paired_axes N1 N2 ltac:(lia) ltac:(lia) ltac:(lia) D1 D2 Hp Hb N C Nx Ny) as (_ & _ & Lo).
  split; [|split].
  - rewrite Sh. exists x', y'. cbn [px py other]. repeat (split; [reflexivity || assumption|]). assumption.
  - rewrite Sh. unfold gwrap, canon. cbn [px py pz other]. rewrite E1, E2. cbn [option_map]. f_equal; f_equal; apply Qred_complete; assumption.
  - destruct (out2 body (geo q) (sh2 body (geo q) r)) eqn:O; [exfalso|reflexivity].
    destruct (cl2 body (geo q) (sh2 body (geo q) r)) as [c|] eqn:Ec.
    + destruct (Lo c Ec) as [L1 _]. destruct (nbr_some q c Hq (proj1 (sides2 body) _ _ _ Ec)) as (q' & E'). congruence.
    + apply (proj2 (sides2 body)) in Ec. congruence.
Qed.
Lemma arrival_in st q r : length st = n -> (q < n)%nat -> In r (arrivals 8 opp2 (cl2 body) geo nbr st q) ->
  exists p b, (p < n)%nat /\ nbr p b = Some q /\ cl2 _ (geo p) r = Some b /\ In r (live_rows p st).
Proof.
  intros L Hq I. unfold arrivals in I. apply in_flat_map in I. destruct I as (b & Hb & I). apply in_seq in Hb.
  destruct (nbr q b) as [p|] eqn:E; [|destruct I]. destruct (nbr_sym q b p Hq ltac:(lia) E) as (Hp & Ho & Hoo & N').
  unfold left_by in I. apply filter_In in I. destruct I as [I S]. exists p, (opp2 b). split; [exact Hp|]. split; [exact N'|]. split; [|exact I].
  unfold on_side in S. destruct (cl2 body (geo p) r); [|discriminate]. apply Nat.eqb_eq in S. congruence.
Qed.
Lemma exchange_near rank st st'' : length st = n -> (forall p r, (p < n)%nat -> In r (live_rows p st) -> nearby p r) -> sync_particles2 D rank st st'' ->
  settled D st'' /\ Permutation (map canon (particles st'')) (map (fun r => canon (wrapped r)) (particles st)).
Proof.
  intros L M (fresh & st' & es & sched & E1 & Pm & E2). destruct (ok_n D OK) as [N1 N2]. destruct (ok_d D OK) as [D1 D2]. destruct (ok_g D OK) as (G1 & G2 & G3).
  assert (Sy : nbr_symmetric (length st) 8 opp2 nbr) by (rewrite L; exact nbr_sym).
  assert (Rm : remote_ok (length st) 8 opp2 nbr (remote_of rank nbr)) by (apply remote_of_ok; auto).
  destruct (C50_distribution _ _ 8 opp2 (cl2 body) (sh2 body) (out2 body) (clear2 body) false geo nbr fresh (remote_of rank nbr) st es sched st' st'' (sides2 body) Sy Rm) as [L'' R]; auto.
  { intros q b p r c Hq Hb N Hr C. exfalso. destruct (Sy q b p Hq Hb N) as (Hp & Ho & Hoo & N'). rewrite L in Hp, Hq.
    unfold left_by in Hr. apply filter_In in Hr. destruct Hr as [Hr Hs].
    assert (Cp : cl2 body (geo p) r = Some (opp2 b)) by (unfold on_side in Hs; destruct (cl2 body (geo p) r); [|discriminate]; apply Nat.eqb_eq in Hs; congruence).
    destruct (arrives p (opp2 b) q r (M p r Hp Hr) Hp N' Cp) as (_ & _ & O). apply (proj2 (sides2 body)) in O. congruence. }
  rewrite L in R, L''.
  assert (K : forall q, (q < n)%nat -> Permutation (live_rows q st'') (stayed (cl2 body) (geo q) (nth q st []) ++ map (sh2 body (geo q)) (arrivals 8 opp2 (cl2 body) geo nbr st q))).
  { intros q Hq. rewrite (R q Hq). apply Permutation_app_head. rewrite (filter_id _ (map _ _)); [reflexivity|].
    intros r' I. apply in_map_iff in I. destruct I as (r & <- & I). destruct (arrival_in st q r L Hq I) as (p & b & Hp & N & C & I').
    destruct (arrives p b q r (M p r Hp I') Hp N C) as (_ & _ & O). rewrite O. reflexivity. }
  split.
  - split; [exact L''|]. intros q r Hq I. apply (Permutation_in r (K q Hq)) in I. apply in_app_or in I. destruct I as [I|I].
    + apply filter_In in I. destruct I as [I C]. destruct (cl2 body (geo q) r) eqn:Ec; [discriminate|]. exact (proj1 (stays q r (M q r Hq I) Hq Ec)).
    + apply in_map_iff in I. destruct I as (r0 & <- & I). destruct (arrival_in st q r0 L Hq I) as (p & b & Hp & N & C & I').
      exact (proj1 (arrives p b q r0 (M p r0 Hp I') Hp N C)).
  - unfold particles. rewrite (flat_map_nth _ [] st''), L''. rewrite (flat_map_nth _ [] st), L.
    transitivity (map (fun r => canon (wrapped r)) (flat_map (fun q => stayed (cl2 body) (geo q) (nth q st []) ++ arrivals 8 opp2 (cl2 body) geo nbr st q) (seq 0 n))).
    + rewrite !flat_map_concat_map, !concat_map, !map_map, <- !flat_map_concat_map. apply flat_map_perm_ext. intros q Hq. apply in_seq in Hq.
      rewrite (K q ltac:(lia)), !map_app, map_map.
      assert (map canon (stayed (cl2 body) (geo q) (nth q st [])) = map (fun r => canon (wrapped r)) (stayed (cl2 body) (geo q) (nth q st []))) as ->.
      { apply map_ext_in. intros r I. apply filter_In in I. destruct I as [I C]. destruct (cl2 body (geo q) r) eqn:Ec; [discriminate|].
        rewrite (proj2 (stays q r (M q r ltac:(lia) I) ltac:(lia) Ec)). reflexivity. }
      apply Permutation_app_head. erewrite map_ext_in; [reflexivity|]. intros r I. destruct (arrival_in st q r L ltac:(lia) I) as (p & b & Hp & N & C & I').
      exact (proj1 (proj2 (arrives p b q r (M p r Hp I') Hp N C))).
    + apply Permutation_map. rewrite flat_map_app2. pose proof (C04_arrive_once _ _ 8 opp2 (cl2 body) (out2 body) geo nbr st (sides2 body) Sy) as A. rewrite L in A. rewrite A.
      rewrite <- flat_map_app2. apply flat_map_perm_ext. intros q Hq. apply in_seq in Hq.
      rewrite (C04_stayed_left_or_lost _ _ (cl2 body) geo nbr st q). apply Permutation_app_head.
      rewrite (filter_all (fun r => match cl2 body (geo q) r with Some b => match nbr q b with Some _ => false | None => true end | None => false end)); [rewrite app_nil_r; reflexivity|].
      intros r I. destruct (cl2 body (geo q) r) as [b|] eqn:Ec; [|reflexivity]. destruct (nbr_some q b ltac:(lia) (proj1 (sides2 body) _ _ _ Ec)) as (q' & ->). reflexivity.
Qed.
Lemma exchange_ok rank st st'' : length st = n -> (forall p r, (p < n)%nat -> In r (live_rows p st) -> moved D p r) -> sync_particles2 D rank st st'' ->
  settled D st'' /\ Permutation (map canon (particles st'')) (map (fun r => canon (wrapped r)) (particles st)).
Proof. intros L M. apply exchange_near; [exact L|]. intros p r Hp I. apply moved_near. exact (M p r Hp I). Qed.
End Exchange.
