(** Whole 3D time steps with open sides, part 3: the exchange of particles wraps positions along periodic axes and removes the
    particles that entered a layer. *)
From Coq Require Import QArith Qabs Qround Qcanon Permutation Lqa.
From Verif Require Import Base M_Layout S_Layout M_PartSync S_PartSync M_FieldSync S_FieldSync M_Maxwell S_Maxwell M_Cpml S_Cpml M_Deposit M_Push P_Layout P_PartSync P_PartSync2 P_PartSync3 P_FieldSync5 P_Cpml P_Cpml2 P_Cpml3 P_Cpml4 P_Cpml5 Properties_PartSync M_Step S_Step M_Step3D S_Step3D M_StepO S_StepO M_StepO3D S_StepO3D P_Step1 P_Step2 P_Step5 P_Step6 P_StepD1 P_StepD2 P_StepD6 P_StepO1 P_StepO3 P_StepQ1.
Local Open Scope list_scope.
Local Open Scope Z_scope.

Definition okeep3 (ox oy oz : bool) (th Nx Ny Nz : Z) (dx dy dz : Q) (r : prow body) : list (prow body) :=
  match px _ r, py _ r, pz _ r with
  | Some x, Some y, Some z =>
    match keep1 ox th Nx dx x, keep1 oy th Ny dy y, keep1 oz th Nz dz z with Some x', Some y', Some z' => [mkRow _ (Some x') (Some y') (Some z') (other _ r)] | _, _, _ => [] end
  | _, _, _ => [r]
  end.
Lemma okeep3_eq ox oy oz th Nx Ny Nz dx dy dz r r' : canon r = canon r' -> map canon (okeep3 ox oy oz th Nx Ny Nz dx dy dz r) = map canon (okeep3 ox oy oz th Nx Ny Nz dx dy dz r').
Proof.
  intro H0. pose proof H0 as H. destruct r as [x y z b], r' as [x' y' z' b']. unfold canon, okeep3 in *. cbn [px py pz other] in *.
  assert (option_map Qred x = option_map Qred x') as E1 by congruence. assert (option_map Qred y = option_map Qred y') as E2 by congruence.
  assert (option_map Qred z = option_map Qred z') as E3 by congruence. assert (canon_body b = canon_body b') as E4 by congruence.
  assert (forall a c, Some (Qred a) = Some (Qred c) -> (a == c)%Q) as R by (intros a c E; assert (Qred a = Qred c) as E' by congruence; rewrite <- (Qred_correct a), <- (Qred_correct c), E'; reflexivity).
  destruct x as [x|], x' as [x'|]; cbn [option_map] in E1; try discriminate; destruct y as [y|], y' as [y'|]; cbn [option_map] in E2; try discriminate; destruct z as [z|], z' as [z'|]; cbn [option_map] in E3; try discriminate;
    cbn [map px py pz other option_map]; try congruence.
  pose proof (keep1_eq ox th Nx dx x x' (R _ _ E1)) as K1. pose proof (keep1_eq oy th Ny dy y y' (R _ _ E2)) as K2. pose proof (keep1_eq oz th Nz dz z z' (R _ _ E3)) as K3.
  destruct (keep1 ox th Nx dx x) as [u|], (keep1 ox th Nx dx x') as [u'|]; cbn [option_map] in K1; try discriminate; [|reflexivity].
  destruct (keep1 oy th Ny dy y) as [w|], (keep1 oy th Ny dy y') as [w'|]; cbn [option_map] in K2; try discriminate; [|reflexivity].
  destruct (keep1 oz th Nz dz z) as [s|], (keep1 oz th Nz dz z') as [s'|]; cbn [option_map] in K3; try discriminate; [|reflexivity].
  cbn [map px py pz other option_map]. rewrite E4, K1, K2, K3. reflexivity.
Qed.

Section Exchange.
Variable K : layer Qc. Variable D : domain3. Variable pmls : nat -> list pml_side.
Hypothesis OK : open3_ok K D pmls.
Local Notation OT := (twin3_ok K D pmls OK).
Local Notation n := (npatches3 D).
Local Notation nbr := (nbr3 (e_ax D) (e_ay D) (e_az D)).
Local Notation geo := (geo_open3 K D).
Local Notation live_rows p st := (S_PartSync.alive (nth p st [])).
Local Notation Nx := (ax_n (e_ax D) * e_nx D). Local Notation Ny := (ax_n (e_ay D) * e_ny D). Local Notation Nz := (ax_n (e_az D) * e_nz D).
Local Notation kept := (okeep3 (is_open (e_ax D)) (is_open (e_ay D)) (is_open (e_az D)) (thick K) Nx Ny Nz (e_dx D) (e_dy D) (e_dz D)).
Local Notation gx p := (ax_geo (e_ax D) (e_nx D) (thick K) (e_dx D) (qi D p)).
Local Notation gy p := (ax_geo (e_ay D) (e_ny D) (thick K) (e_dy D) (qj D p)).
Local Notation gz p := (ax_geo (e_az D) (e_nz D) (thick K) (e_dz D) (qk D p)).

Lemma geo_split p : geo p = (gx p, gy p, gz p).
Proof. reflexivity. Qed.
Lemma ok3_axes : ax_lo (e_ax D) = ax_hi (e_ax D) /\ ax_lo (e_ay D) = ax_hi (e_ay D) /\ ax_lo (e_az D) = ax_hi (e_az D).
Proof. pose proof (oo3_p K D pmls OK) as P. inversion P as [|? ? E1 P']; subst. inversion P' as [|? ? E2 P'']; subst. inversion P'' as [|? ? E3 _]; subst. auto. Qed.
Lemma ok3_fits : (ax_lo (e_ax D) = Pml -> thick K < e_nx D /\ 2 <= ax_n (e_ax D)) /\ (ax_lo (e_ay D) = Pml -> thick K < e_ny D /\ 2 <= ax_n (e_ay D)) /\ (ax_lo (e_az D) = Pml -> thick K < e_nz D /\ 2 <= ax_n (e_az D)).
Proof.
  pose proof (oo3_split K D pmls OK) as P. inversion P as [|? ? E1 P']; subst. inversion P' as [|? ? E2 P'']; subst. inversion P'' as [|? ? E3 _]; subst.
  pose proof (oo3_fit K D pmls OK) as F. unfold layers_fit in F. cbn [combine] in F. inversion F as [|? ? F1 F']; subst. inversion F' as [|? ? F2 F'']; subst. inversion F'' as [|? ? F3 _]; subst. cbn [fst snd] in *.
  split; [|split]; intro H; auto; split; auto; try (apply F1; exact H); try (apply F2; exact H); apply F3; exact H.
Qed.
Lemma onbr3_sym : nbr_symmetric n 26 opp3 nbr.
Proof. destruct (oo3_n K D pmls OK) as (N1 & N2 & N3). exact (sym3 _ _ _ (oo3_p K D pmls OK) N1 N2 N3). Qed.
Lemma opijk p : (p < n)%nat -> 0 <= qi D p < ax_n (e_ax D) /\ 0 <= qj D p < ax_n (e_ay D) /\ 0 <= qk D p < ax_n (e_az D).
Proof. exact (pijk (twin3 D) OT p). Qed.
Lemma moved3_step p r x y z : moved3 D p r -> px _ r = Some x -> py _ r = Some y -> pz _ r = Some z ->
  step_near (e_nx D) (e_dx D) (qi D p) x /\ step_near (e_ny D) (e_dy D) (qj D p) y /\ step_near (e_nz D) (e_dz D) (qk D p) z.
Proof.
  intros (x0 & y0 & z0 & E1 & E2 & E3 & V1 & V2 & V3 & R1 & R2 & R3) E1' E2' E3'. assert (x0 = x) by congruence. assert (y0 = y) by congruence. assert (z0 = z) by congruence. subst x0 y0 z0.
  destruct (cdt3_ok (twin3 D) OT) as (C0 & C1 & C2 & C3). change (cdt3 (twin3 D)) with (cdt3 D) in *. cbn [twin3 e_dx e_dy e_dz] in *.
  destruct (half_cell _ _ _ _ C0 C1 V1) as [X1 X2]. destruct (half_cell _ _ _ _ C0 C2 V2) as [Y1 Y2]. destruct (half_cell _ _ _ _ C0 C3 V3) as [Z1 Z2]. destruct R1 as [A1 A2], R2 as [B1 B2], R3 as [B3 B4].
  unfold step_near. set (wx := (cdt3 D * b_ig (other _ r) * b_ux (other _ r))%Q) in *. set (wy := (cdt3 D * b_ig (other _ r) * b_uy (other _ r))%Q) in *. set (wz := (cdt3 D * b_ig (other _ r) * b_uz (other _ r))%Q) in *.
  clearbody wx wy wz. unfold Qdiv in *. change (/ 2)%Q with (1#2)%Q in *. repeat split; lra.
Qed.
(** what becomes of one coordinate of a particle *)
Definition fate1 (a : axis) (m : Z) (d : Q) (i : Z) (v : Q) : Prop :=
  match wrap a (i + dir1 (ax_geo a m (thick K) d i) (Some v)) with
  | Some k => exists v' w, handle_periodic (ax_geo a m (thick K) d k) (Some v) = Some v' /\ keep1 (is_open a) (thick K) (ax_n a * m) d v = Some w /\ (v' == w)%Q /\
      in_cells m d k v' /\ dir1 (ax_geo a m (thick K) d k) (Some v') = 0
  | None => keep1 (is_open a) (thick K) (ax_n a * m) d v = None
  end.
Lemma fate3 p r x y z : (p < n)%nat -> moved3 D p r -> px _ r = Some x -> py _ r = Some y -> pz _ r = Some z ->
  fate1 (e_ax D) (e_nx D) (e_dx D) (qi D p) x /\ fate1 (e_ay D) (e_ny D) (e_dy D) (qj D p) y /\ fate1 (e_az D) (e_nz D) (e_dz D) (qk D p) z.
Proof.
  intros Hp M E1 E2 E3. destruct (moved3_step p r x y z M E1 E2 E3) as (S1 & S2 & S3). destruct (opijk p Hp) as (I1 & I2 & I3). destruct ok3_axes as (P1 & P2 & P3). destruct ok3_fits as (F1 & F2 & F3).
  destruct (oo3_g K D pmls OK) as (G1 & G2 & G3 & G4). destruct (oo3_d K D pmls OK) as (D1 & D2 & D3). pose proof (oo3_th K D pmls OK) as Th.
  set (u := qi D p) in *. set (v := qj D p) in *. set (w := qk D p) in *. clearbody u v w.
  split; [|split]; apply axis_keep; auto; lia.
Qed.
Definition clear_row3 (r : prow body) : Prop := forall x y z, px _ r = Some x -> py _ r = Some y -> pz _ r = Some z ->
  clear_of_layers (e_ax D) (thick K) Nx (e_dx D) x /\ clear_of_layers (e_ay D) (thick K) Ny (e_dy D) y /\ clear_of_layers (e_az D) (thick K) Nz (e_dz D) z.
Lemma wrap_in a i : 0 <= i < ax_n a -> wrap a i = Some i.
Proof. intro H. unfold wrap. destruct (Z.ltb_spec i 0); [lia|]. destruct (Z.leb_spec (ax_n a) i); [lia|reflexivity]. Qed.
Lemma ostays3 p r : moved3 D p r -> (p < n)%nat -> cl3 _ (geo p) r = None -> in_patch3 D p r /\ kept r = [r] /\ clear_row3 r.
Proof.
  intros M Hp C. destruct (oo3_n K D pmls OK) as (N1 & N2 & N3). destruct (oo3_d K D pmls OK) as (D1 & D2 & D3). destruct (oo3_g K D pmls OK) as (G1 & G2 & G3 & G4). destruct (opijk p Hp) as (I1 & I2 & I3).
  pose proof C as C'. rewrite geo_split in C'. unfold cl3 in C'. pose proof (classify3_dirs (gx p) (gy p) (gz p) (px _ r) (py _ r) (pz _ r)) as Cd. rewrite C' in Cd. destruct Cd as (Z1 & Z2 & Z3).
  apply (proj2 (P_PartSync3.sides3 body)) in C.
  destruct (C43_absorbed_3d body (e_ax D) (e_ay D) (e_az D) (e_nx D) (e_ny D) (e_nz D) (thick K) (e_dx D) (e_dy D) (e_dz D) p r N1 N2 N3 (oo3_th K D pmls OK) D1 D2 D3 C) as ((A1 & A2 & A3) & _).
  pose proof M as M'. destruct M' as (x & y & z & E1 & E2 & E3 & V1 & V2 & V3 & _). rewrite E1 in A1, Z1. rewrite E2 in A2, Z2. rewrite E3 in A3, Z3. cbn [in_cells'] in A1, A2, A3.
  destruct (fate3 p r x y z Hp M E1 E2 E3) as (Fx & Fy & Fz). unfold fate1 in Fx, Fy, Fz. rewrite Z1, Z.add_0_r, (wrap_in _ _ I1) in Fx. rewrite Z2, Z.add_0_r, (wrap_in _ _ I2) in Fy. rewrite Z3, Z.add_0_r, (wrap_in _ _ I3) in Fz.
  destruct Fx as (x' & wx & _ & Kx & _). destruct Fy as (y' & wy & _ & Ky & _). destruct Fz as (z' & wz & _ & Kz & _).
  assert (wx = x). { eapply (keep1_same _ _ _ (e_nx D)); [eexists; split; [reflexivity|exact I1]|lia|exact D1|exact A1|exact Kx]. }
  assert (wy = y). { eapply (keep1_same _ _ _ (e_ny D)); [eexists; split; [reflexivity|exact I2]|lia|exact D2|exact A2|exact Ky]. }
  assert (wz = z). { eapply (keep1_same _ _ _ (e_nz D)); [eexists; split; [reflexivity|exact I3]|lia|exact D3|exact A3|exact Kz]. }
  subst wx wy wz. split; [|split].
  - exists x, y, z. repeat (split; [assumption|]). assumption.
  - unfold okeep3. rewrite E1, E2, E3, Kx, Ky, Kz. rewrite <- E1, <- E2, <- E3. destruct r; reflexivity.
  - intros x0 y0 z0 E1' E2' E3'. assert (x0 = x) by congruence. assert (y0 = y) by congruence. assert (z0 = z) by congruence. subst. split; [|split]; (eapply keep1_clear; [eassumption|reflexivity]).
Qed.
Lemma oarrives3 p b q r : moved3 D p r -> (p < n)%nat -> nbr p b = Some q -> cl3 _ (geo p) r = Some b ->
  in_patch3 D q (sh3 _ (geo q) r) /\ map canon (kept r) = [canon (sh3 _ (geo q) r)] /\ clear_row3 (sh3 _ (geo q) r) /\ out3 _ (geo q) (sh3 _ (geo q) r) = false.
Proof.
  intros M Hp N C. destruct (oo3_n K D pmls OK) as (N1 & N2 & N3).
  pose proof M as M'. destruct M' as (x & y & z & E1 & E2 & E3 & V1 & V2 & V3 & _).
  assert (Hb : (b < 26)%nat) by exact (proj1 (P_PartSync3.sides3 body) _ _ _ C).
  pose proof (nbr3_lt _ _ _ N1 N2 N3 p b q Hp Hb N) as Hq. pose proof N as W. apply (nbr3_spec _ _ _ N1 N2 N3) in W; auto. destruct W as [_ W].
  pose proof (classify3_dirs (gx p) (gy p) (gz p) (px _ r) (py _ r) (pz _ r)) as Cd. pose proof C as C'. rewrite geo_split in C'. unfold cl3 in C'. rewrite C' in Cd. destruct Cd as [_ Cd]. rewrite Cd in W. clear C' Cd.
  rewrite E1, E2, E3 in W. cbn [wrap_all add] in W.
  destruct (fate3 p r x y z Hp M E1 E2 E3) as (Fx & Fy & Fz). unfold fate1 in Fx, Fy, Fz.
  unfold c3x, c3y, c3z in W.
  destruct (wrap (e_ax D) _) as [k1|] in W, Fx; [|discriminate]. destruct (wrap (e_ay D) _) as [k2|] in W, Fy; [|discriminate]. destruct (wrap (e_az D) _) as [k3|] in W, Fz; [|discriminate].
  assert (k1 = qi D q) by congruence. assert (k2 = qj D q) by congruence. assert (k3 = qk D q) by congruence. subst k1 k2 k3.
  destruct Fx as (x' & wx & Hx & Kx & Ex & Cx & Zx). destruct Fy as (y' & wy & Hy & Ky & Ey & Cy & Zy). destruct Fz as (z' & wz & Hz & Kz & Ez & Cz & Zz).
  assert (sh3 body (geo q) r = mkRow _ (Some x') (Some y') (Some z') (other _ r)) as Sh by (rewrite geo_split; unfold sh3; rewrite E1, E2, E3, Hx, Hy, Hz; reflexivity).
  rewrite Sh. split; [|split; [|split]].
  - exists x', y', z'. cbn [px py pz other]. repeat (split; [reflexivity || assumption|]). assumption.
  - unfold okeep3. rewrite E1, E2, E3, Kx, Ky, Kz. cbn [map]. unfold canon. cbn [px py pz other option_map]. rewrite (Qred_complete _ _ Ex), (Qred_complete _ _ Ey), (Qred_complete _ _ Ez). reflexivity.
  - intros x0 y0 z0 F1 F2 F3. cbn [px py pz] in F1, F2, F3. apply some_eq in F1, F2, F3. subst x0 y0 z0. split; [|split]; eapply keep1_clear; eassumption.
  - rewrite geo_split. unfold out3. cbn [px py pz]. apply out1_dir in Zx, Zy, Zz. rewrite Zx, Zy, Zz. reflexivity.
Qed.
Lemma olost3 p b r : moved3 D p r -> (p < n)%nat -> nbr p b = None -> cl3 _ (geo p) r = Some b -> kept r = [].
Proof.
  intros M Hp N C. destruct (oo3_n K D pmls OK) as (N1 & N2 & N3).
  pose proof M as M'. destruct M' as (x & y & z & E1 & E2 & E3 & V1 & V2 & V3 & _).
  assert (Hb : (b < 26)%nat) by exact (proj1 (P_PartSync3.sides3 body) _ _ _ C).
  pose proof (classify3_dirs (gx p) (gy p) (gz p) (px _ r) (py _ r) (pz _ r)) as Cd. pose proof C as C'. rewrite geo_split in C'. unfold cl3 in C'. rewrite C' in Cd. destruct Cd as [_ Cd].
  destruct (fate3 p r x y z Hp M E1 E2 E3) as (Fx & Fy & Fz). unfold fate1 in Fx, Fy, Fz. unfold okeep3. rewrite E1, E2, E3.
  destruct (wrap (e_ax D) (qi D p + dir1 (gx p) (Some x))) as [k1|] eqn:W1; [|rewrite Fx; reflexivity].
  destruct (wrap (e_ay D) (qj D p + dir1 (gy p) (Some y))) as [k2|] eqn:W2; [|rewrite Fy; destruct (keep1 _ _ _ _ x); reflexivity].
  destruct (wrap (e_az D) (qk D p + dir1 (gz p) (Some z))) as [k3|] eqn:W3; [|rewrite Fz; destruct (keep1 _ _ _ _ x), (keep1 _ _ _ _ y); reflexivity].
  exfalso. pose proof (wrap_range _ _ _ N1 W1) as R1. pose proof (wrap_range _ _ _ N2 W2) as R2. pose proof (wrap_range _ _ _ N3 W3) as R3.
  destruct (honto3 _ _ _ N1 N2 N3 [k1; k2; k3]) as (q & Hq & Eq). { constructor; [assumption|constructor; [assumption|constructor; [assumption|constructor]]]. }
  assert (nbr p b = Some q); [|congruence]. apply (nbr3_spec _ _ _ N1 N2 N3 p b q Hp Hb). split; [exact Hq|]. rewrite Cd, E1, E2, E3. cbn [wrap_all add].
  unfold c3x at 1, c3y at 1, c3z at 1. rewrite W1, W2, W3. f_equal. symmetry. exact Eq.
Qed.
Lemma oarrival3_in st q r : length st = n -> (q < n)%nat -> In r (arrivals 26 opp3 (cl3 body) geo nbr st q) ->
  exists p b, (p < n)%nat /\ nbr p b = Some q /\ cl3 _ (geo p) r = Some b /\ In r (live_rows p st).
Proof.
  intros L Hq I. unfold arrivals in I. apply in_flat_map in I. destruct I as (b & Hb & I). apply in_seq in Hb.
  destruct (nbr q b) as [p|] eqn:E; [|destruct I]. destruct (onbr3_sym q b p Hq ltac:(lia) E) as (Hp & Ho & Hoo & N').
  unfold left_by in I. apply filter_In in I. destruct I as [I S]. exists p, (opp3 b). split; [exact Hp|]. split; [exact N'|]. split; [|exact I].
  unfold on_side in S. destruct (cl3 body (geo p) r); [|discriminate]. apply Nat.eqb_eq in S. congruence.
Qed.
Lemma oexchange3_ok rank st st'' : length st = n -> (forall p r, (p < n)%nat -> In r (live_rows p st) -> moved3 D p r) -> sync_particles_open3 K D rank st st'' ->
  settled3 D st'' /\ none_in_layers3 (thick K) D st'' /\ Permutation (map canon (particles st'')) (flat_map (fun r => map canon (kept r)) (particles st)).
Proof.
  intros L M (fresh & st' & es & sched & E1 & Pm & E2).
  assert (Sy : nbr_symmetric (length st) 26 opp3 nbr) by (rewrite L; exact onbr3_sym).
  assert (Rm : remote_ok (length st) 26 opp3 nbr (remote_of rank nbr)) by (apply remote_of_ok; auto).
  destruct (C50_distribution _ _ 26 opp3 (cl3 body) (sh3 body) (out3 body) (clear3 body) false geo nbr fresh (remote_of rank nbr) st es sched st' st'' (P_PartSync3.sides3 body) Sy Rm) as [L'' R]; auto.
  { intros q b p r c Hq Hb N Hr C. exfalso. destruct (Sy q b p Hq Hb N) as (Hp & Ho & Hoo & N'). rewrite L in Hp, Hq.
    unfold left_by in Hr. apply filter_In in Hr. destruct Hr as [Hr Hs].
    assert (Cp : cl3 body (geo p) r = Some (opp3 b)) by (unfold on_side in Hs; destruct (cl3 body (geo p) r); [|discriminate]; apply Nat.eqb_eq in Hs; congruence).
    destruct (oarrives3 p (opp3 b) q r (M p r Hp Hr) Hp N' Cp) as (_ & _ & _ & O). apply (proj2 (P_PartSync3.sides3 body)) in O. congruence. }
  rewrite L in R, L''.
  assert (Kq : forall q, (q < n)%nat -> Permutation (live_rows q st'') (stayed (cl3 body) (geo q) (nth q st []) ++ map (sh3 body (geo q)) (arrivals 26 opp3 (cl3 body) geo nbr st q))).
  { intros q Hq. rewrite (R q Hq). apply Permutation_app_head. rewrite (filter_id _ (map _ _)); [reflexivity|].
    intros r' I. apply in_map_iff in I. destruct I as (r & <- & I). destruct (oarrival3_in st q r L Hq I) as (p & b & Hp & N & C & I').
    destruct (oarrives3 p b q r (M p r Hp I') Hp N C) as (_ & _ & _ & O). rewrite O. reflexivity. }
  assert (Each : forall q r, (q < n)%nat -> In r (live_rows q st'') -> in_patch3 D q r /\ clear_row3 r).
  { intros q r Hq I. apply (Permutation_in r (Kq q Hq)) in I. apply in_app_or in I. destruct I as [I|I].
    + apply filter_In in I. destruct I as [I C]. destruct (cl3 body (geo q) r) eqn:Ec; [discriminate|]. destruct (ostays3 q r (M q r Hq I) Hq Ec) as (X & _ & Y). auto.
    + apply in_map_iff in I. destruct I as (r0 & <- & I). destruct (oarrival3_in st q r0 L Hq I) as (p & b & Hp & N & C & I').
      destruct (oarrives3 p b q r0 (M p r0 Hp I') Hp N C) as (X & _ & Y & _). auto. }
  split; [|split].
  - split; [exact L''|]. intros q r Hq I. exact (proj1 (Each q r Hq I)).
  - intros r x y z I Ex Ey Ez. unfold particles in I. rewrite (flat_map_nth _ [] st''), L'' in I. apply in_flat_map in I. destruct I as (q & Hq & I). apply in_seq in Hq.
    exact (proj2 (Each q r ltac:(lia) I) x y z Ex Ey Ez).
  - set (g := fun r => map canon (kept r)). unfold particles. rewrite (flat_map_nth _ [] st''), L''. rewrite (flat_map_nth _ [] st), L.
    transitivity (flat_map g (flat_map (fun q => stayed (cl3 body) (geo q) (nth q st []) ++ arrivals 26 opp3 (cl3 body) geo nbr st q) (seq 0 n))).
    + rewrite flat_map_flat, flat_map_concat_map, concat_map, map_map, <- flat_map_concat_map. apply flat_map_perm_ext. intros q Hq. apply in_seq in Hq.
      rewrite (Kq q ltac:(lia)), map_app, map_map, flat_map_app.
      rewrite (flat_map_single g canon (stayed _ _ _)).
      2:{ intros r I. apply filter_In in I. destruct I as [I C]. destruct (cl3 body (geo q) r) eqn:Ec; [discriminate|].
        unfold g. rewrite (proj1 (proj2 (ostays3 q r (M q r ltac:(lia) I) ltac:(lia) Ec))). reflexivity. }
      rewrite (flat_map_single g (fun r => canon (sh3 body (geo q) r)) (arrivals _ _ _ _ _ _ _)); [reflexivity|].
      intros r I. destruct (oarrival3_in st q r L ltac:(lia) I) as (p & b & Hp & N & C & I'). exact (proj1 (proj2 (oarrives3 p b q r (M p r Hp I') Hp N C))).
    + rewrite flat_map_flat.
      transitivity (flat_map g (flat_map (fun q => stayed (cl3 body) (geo q) (nth q st []) ++ leavers (cl3 body) geo nbr st q) (seq 0 n))).
      { rewrite <- flat_map_flat. apply Permutation_flat_map. rewrite flat_map_app2. pose proof (C04_arrive_once _ _ 26 opp3 (cl3 body) (out3 body) geo nbr st (P_PartSync3.sides3 body) Sy) as A. rewrite L in A. rewrite A.
        rewrite <- flat_map_app2. reflexivity. }
      rewrite !flat_map_flat. apply flat_map_perm_ext. intros q Hq. apply in_seq in Hq.
      rewrite (C04_stayed_left_or_lost _ _ (cl3 body) geo nbr st q), app_assoc, (flat_map_app g (_ ++ _)).
      rewrite (flat_map_nil g (filter _ _)); [rewrite app_nil_r; reflexivity|].
      intros r I. apply filter_In in I. destruct I as [I C]. destruct (cl3 body (geo q) r) as [b|] eqn:Ec; [|discriminate]. destruct (nbr q b) eqn:En; [discriminate|].
      unfold g. rewrite (olost3 q b r (M q r ltac:(lia) I) ltac:(lia) En Ec). reflexivity.
Qed.
End Exchange.
