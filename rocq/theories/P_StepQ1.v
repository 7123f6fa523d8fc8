(** Whole 3D time steps with open sides, part 1: the push of the particles. *)
From Coq Require Import QArith Qabs Qround Qcanon Permutation Lqa.
From Verif Require Import Base M_Layout S_Layout M_PartSync S_PartSync M_FieldSync S_FieldSync M_Maxwell S_Maxwell M_Cpml S_Cpml M_Deposit S_Deposit M_Push S_Push P_Deposit P_Deposit2 P_Deposit5 P_Interp P_Push P_Layout P_FieldGeo P_FieldSync4 P_Maxwell P_Maxwell3 M_Step S_Step M_Step3D S_Step3D M_StepO S_StepO M_StepO3D S_StepO3D P_Step1 P_Step2 P_Step3 P_Step4 P_StepD1 P_StepD2 P_StepD3 P_StepD4.
Local Open Scope list_scope.
Local Open Scope Z_scope.

(** the same domain with periodic sides: what does not depend on the sides is known for it *)
Definition twin3 (D : domain3) : domain3 :=
  mkDomain3 (mkAxis (ax_n (e_ax D)) Periodic Periodic) (mkAxis (ax_n (e_ay D)) Periodic Periodic) (mkAxis (ax_n (e_az D)) Periodic Periodic) (e_nx D) (e_ny D) (e_nz D) (e_ng D) (e_dx D) (e_dy D) (e_dz D) (e_dt D).
Lemma twin3_ok K D pmls : open3_ok K D pmls -> domain3_ok (twin3 D).
Proof. intros [P N G DD T O Th F Sp L]. constructor; cbn [twin3 e_ax e_ay e_az e_nx e_ny e_nz e_ng e_dx e_dy e_dz e_dt ax_n ax_lo ax_hi]; auto. Qed.

(** cell of the whole grid *)
Definition PL3 (D : domain3) (g : list Z) : option (list Z) := place [e_ax D; e_ay D; e_az D] [e_nx D; e_ny D; e_nz D] [0; 0; 0] g.
Definition oget3 (pl : list Z -> option (list Z)) (F : nat -> list Z -> Qc) (f : nat) (a b c : Z) : Q := match pl [a; b; c] with Some g => this (F f g) | None => 0%Q end.
Lemma place_PL3 D p a b c : place [e_ax D; e_ay D; e_az D] [e_nx D; e_ny D; e_nz D] (position3 (e_ax D) (e_ay D) p) [a; b; c] = PL3 D [qi D p * e_nx D + a; qj D p * e_ny D + b; qk D p * e_nz D + c].
Proof. unfold position3, PL3. cbn [place]. unfold place1. cbv zeta. rewrite !Z.mul_0_l, !Z.add_0_l. reflexivity. Qed.

Section Patch.
Variable K : layer Qc. Variable D : domain3. Variable pmls : nat -> list pml_side.
Hypothesis OK : open3_ok K D pmls.
Local Notation nx := (e_nx D). Local Notation ny := (e_ny D). Local Notation nz := (e_nz D). Local Notation ng := (e_ng D).
Local Notation n := (npatches3 D).
Local Notation axes := [e_ax D; e_ay D; e_az D]. Local Notation ns := [e_nx D; e_ny D; e_nz D].
Local Notation NX := (nx + 2 * ng). Local Notation NY := (ny + 2 * ng). Local Notation NZ := (nz + 2 * ng).
Local Notation OT := (twin3_ok K D pmls OK).
Lemma ofield3_read F m f p a b c : field3_is D F m -> (f < 3)%nat -> (p < n)%nat -> within ng ns [a; b; c] ->
  rd (array_of3 D m f p) (INDEX3 NX NY NZ a b c) = Some (oget3 (PL3 D) F f (qi D p * nx + a) (qj D p * ny + b) (qk D p * nz + c)).
Proof.
  intros FI Hf Hp W. etransitivity; [exact (array3_read (twin3 D) m f p _ (index3_in (twin3 D) OT a b c W))|]. specialize (FI f p [a; b; c] Hf Hp W).
  unfold shown in FI. rewrite place_PL3 in FI. f_equal. transitivity (this (m (cell ns ng f p [a; b; c]))); [unfold cell; rewrite index3_same; reflexivity|]. rewrite FI. unfold oget3. destruct (PL3 D _); reflexivity.
Qed.
Lemma ointerp_patch3 FE FB mE mB p x y z : field3_is D FE mE -> field3_is D FB mB -> (p < n)%nat ->
  (-1 <= (x - h_x0 (grid_of3 D p)) / e_dx D <= inject_Z nx)%Q -> (-1 <= (y - h_y0 (grid_of3 D p)) / e_dy D <= inject_Z ny)%Q -> (-1 <= (z - h_z0 (grid_of3 D p)) / e_dz D <= inject_Z nz)%Q ->
  exists v, interpolation_3d (grid_of3 D p) (fields_of3 D mE mB p) x y z = Some v /\
    same6 v (gat3 (oget3 (PL3 D) FE) (oget3 (PL3 D) FB) (x / e_dx D) (y / e_dy D) (z / e_dz D)).
Proof.
  intros HE HB Hp [X1 X2] [Y1 Y2] [Z1 Z2]. unfold interpolation_3d.
  set (X := ((x - h_x0 (grid_of3 D p)) / e_dx D)%Q) in *. set (Y := ((y - h_y0 (grid_of3 D p)) / e_dy D)%Q) in *. set (Z := ((z - h_z0 (grid_of3 D p)) / e_dz D)%Q) in *.
  change ((x - h_x0 (grid_of3 D p)) / h_dx (grid_of3 D p))%Q with X. change ((y - h_y0 (grid_of3 D p)) / h_dy (grid_of3 D p))%Q with Y. change ((z - h_z0 (grid_of3 D p)) / h_dz (grid_of3 D p))%Q with Z.
  destruct (oo3_g K D pmls OK) as (G1 & G2 & G3 & G4). destruct (oo3_d K D pmls OK) as (D1 & D2 & D3).
  set (E := fun f a b c => oget3 (PL3 D) FE f (qi D p * nx + a) (qj D p * ny + b) (qk D p * nz + c)).
  set (B := fun f a b c => oget3 (PL3 D) FB f (qi D p * nx + a) (qj D p * ny + b) (qk D p * nz + c)).
  pose proof (Qfloor_resp_le _ _ X1) as FX1. change (Qfloor (-1)) with (-1)%Z in FX1. pose proof (Qfloor_resp_le _ _ X2) as FX2. rewrite Qfloor_Z in FX2.
  pose proof (Qfloor_resp_le _ _ Y1) as FY1. change (Qfloor (-1)) with (-1)%Z in FY1. pose proof (Qfloor_resp_le _ _ Y2) as FY2. rewrite Qfloor_Z in FY2.
  pose proof (Qfloor_resp_le _ _ Z1) as FZ1. change (Qfloor (-1)) with (-1)%Z in FZ1. pose proof (Qfloor_resp_le _ _ Z2) as FZ2. rewrite Qfloor_Z in FZ2.
  exists (gat3 E B X Y Z). split.
  - apply interp3_total. intros a b c Ha Hb Hc. assert (within ng ns [a; b; c]) as W by (apply (within3 (twin3 D)); cbn [twin3 e_nx e_ny e_nz e_ng]; lia).
    unfold fields_of3. cbn [s_ex s_ey s_ez s_bx s_by s_bz]. unfold E, B. cbn [grid_of3 h_nx h_ny h_nz].
    rewrite !(ofield3_read FE mE) by (auto with arith). rewrite !(ofield3_read FB mB) by (auto with arith). auto 10.
  - apply (gat3_shift _ _ _ _ _ _ _ _ _ _ (qi D p * nx) (qj D p * ny) (qk D p * nz)).
    + unfold X. cbn [grid_of3 h_x0]. field. lra.
    + unfold Y. cbn [grid_of3 h_y0]. field. lra.
    + unfold Z. cbn [grid_of3 h_z0]. field. lra.
    + intros f a b c _ _ _ _. unfold E, B. rewrite (Z.add_comm a), (Z.add_comm b), (Z.add_comm c). split; reflexivity.
Qed.
End Patch.

Section Global.
Variable rsqrt : Q -> Q.
Hypothesis SUB : subluminal rsqrt.
Variables (pl : list Z -> option (list Z)) (dx dy dz dt : Q).
(** the push of one particle on the whole grid *)
Definition ointerp3 (FE FB : nat -> list Z -> Qc) (p : part) : option (six Q) :=
  Some (gat3 (oget3 pl FE) (oget3 pl FB) (p_x p / dx) (p_y p / dy) (p_z p / dz)).
Definition oslot3 (sp : species) FE FB (s : M_Push.slot) : M_Push.slot :=
  match one rsqrt push_position_3d (ointerp3 FE FB) (sp_q sp) (sp_m sp) dt s with Some t => t | None => s end.
Definition orow3 (sp : species) FE FB (r : prow body) : prow body := rowof (store3 (live r) (oslot3 sp FE FB (load3 (live r)))).
Lemma orow3_eq sp FE FB r r' : canon r = canon r' -> canon (orow3 sp FE FB r) = canon (orow3 sp FE FB r').
Proof.
  intro H. unfold orow3. apply canon_store3; [exact H|]. unfold oslot3.
  destruct (one3_eq rsqrt (proj1 SUB) (ointerp3 FE FB) (ointerp3 FE FB) (sp_q sp) (sp_m sp) dt _ _ (canon_load3 r r' H)) as (t & t' & -> & -> & E); [|exact E].
  intro S. cbv zeta. unfold interp_eq, ointerp3.
  destruct (move3_eq rsqrt (proj1 SUB) (LIGHT_SPEED * (1 # 2) * dt) _ _ (proj1 (canon_load3 r r' H))) as (K1 & K2 & K3 & _).
  apply gat3_eq; [rewrite K1; reflexivity|rewrite K2; reflexivity|rewrite K3; reflexivity].
Qed.
Lemma orow3_canon sp FE FB r : canon (orow3 sp FE FB (canon r)) = canon (orow3 sp FE FB r).
Proof. apply orow3_eq, canon_idem. Qed.
End Global.

Section Particles.
Variable rsqrt : Q -> Q.
Hypothesis SUB : subluminal rsqrt.
Variable K : layer Qc. Variable D : domain3. Variable pmls : nat -> list pml_side.
Hypothesis OK : open3_ok K D pmls.
Local Notation orow := (orow3 rsqrt (PL3 D) (e_dx D) (e_dy D) (e_dz D) (e_dt D)).
Local Notation loc mE mB p := (fun a => interpolation_3d (grid_of3 D p) (fields_of3 D mE mB p) (p_x a) (p_y a) (p_z a)).

Lemma opush_live3 FE FB mE mB sp p r : field3_is D FE mE -> field3_is D FB mB -> (p < npatches3 D)%nat -> in_patch3 D p r ->
  exists t, one rsqrt push_position_3d (loc mE mB p) (sp_q sp) (sp_m sp) (e_dt D) (load3 (live r)) = Some t /\
    canon (rowof (store3 (live r) t)) = canon (orow sp FE FB r) /\ moved3 D p (rowof (store3 (live r) t)).
Proof.
  intros HE HB Hp (x & y & z & Ex & Ey & Ez & Ix & Iy & Iz & Ax & Ay & Az). destruct (cdt3_ok (twin3 D) (twin3_ok K D pmls OK)) as (T1 & T2 & T3 & T4). destruct (oo3_d K D pmls OK) as (D1 & D2 & D3).
  set (lc := loc mE mB p).
  set (s := load3 (live r)). assert (p_x (l_p s) = x /\ p_y (l_p s) = y /\ p_z (l_p s) = z /\ skipped s = false) as (Sx & Sy & Sz & Sk).
  { unfold s, load3, skipped. cbn [M_PartSync.row M_PartSync.dead l_p p_x p_y p_z p_dead p_nan]. rewrite Ex, Ey, Ez. auto. }
  assert (in_reach (e_nx D) (e_dx D) (qi D p) (p_x (push_position_3d (cdt3 D) (l_p s)))) as Rx.
  { cbn [push_position_3d p_x]. rewrite Sx. apply reach_half; assumption. }
  assert (in_reach (e_ny D) (e_dy D) (qj D p) (p_y (push_position_3d (cdt3 D) (l_p s)))) as Ry.
  { cbn [push_position_3d p_y]. rewrite Sy. apply reach_half; assumption. }
  assert (in_reach (e_nz D) (e_dz D) (qk D p) (p_z (push_position_3d (cdt3 D) (l_p s)))) as Rz.
  { cbn [push_position_3d p_z]. rewrite Sz. apply reach_half; assumption. }
  destruct (ointerp_patch3 K D pmls OK FE FB mE mB p _ _ _ HE HB Hp (reach_cells _ _ _ _ D1 Rx) (reach_cells _ _ _ _ D2 Ry) (reach_cells _ _ _ _ D3 Rz)) as (v & Ev & Sv).
  destruct (one3_eq rsqrt (proj1 SUB) lc (ointerp3 (PL3 D) (e_dx D) (e_dy D) (e_dz D) FE FB) (sp_q sp) (sp_m sp) (e_dt D) s s) as (t & t' & Et & Et' & E).
  { apply canon_load3. reflexivity. }
  { intros _. cbv zeta. unfold interp_eq, lc, ointerp3. fold (cdt3 D). rewrite Ev. exact Sv. }
  exists t. split; [exact Et|]. split; [unfold orow3, oslot3; fold s; rewrite Et'; apply canon_store3; [reflexivity|exact E]|].
  unfold one in Et. rewrite Sk in Et. cbv zeta in Et. fold (cdt3 D) in Et. unfold lc in Et. rewrite Ev in Et. cbn [obind] in Et. apply some_inj in Et. subst t.
  unfold moved3, rowof, store3. cbn [M_PartSync.row px py pz other]. rewrite Ex, Ey, Ez. cbn [isnan l_p push_position_3d p_x p_y p_z p_ux p_uy p_uz p_ig b_ux b_uy b_uz b_ig].
  match goal with |- context [push_momentum rsqrt ?q ?m ?dt ?a] => destruct (momentum_slow3 rsqrt SUB q m dt a) as (M1 & M2 & M3 & _ & M4 & M5 & M6); set (u := l_p (push_momentum rsqrt q m dt a)) in * end.
  cbn [l_p] in M1, M2, M3.
  eexists. eexists. eexists. split; [reflexivity|]. split; [reflexivity|]. split; [reflexivity|]. split; [exact M4|]. split; [exact M5|]. split; [exact M6|]. rewrite M1, M2, M3.
  clearbody u. split; [|split].
  - unfold in_reach in *. set (xh := p_x (push_position_3d (cdt3 D) (l_p s))) in *. assert (xh + cdt3 D * p_ig u * p_ux u - cdt3 D * p_ig u * p_ux u == xh)%Q as -> by ring. exact Rx.
  - unfold in_reach in *. set (yh := p_y (push_position_3d (cdt3 D) (l_p s))) in *. assert (yh + cdt3 D * p_ig u * p_uy u - cdt3 D * p_ig u * p_uy u == yh)%Q as -> by ring. exact Ry.
  - unfold in_reach in *. set (zh := p_z (push_position_3d (cdt3 D) (l_p s))) in *. assert (zh + cdt3 D * p_ig u * p_uz u - cdt3 D * p_ig u * p_uz u == zh)%Q as -> by ring. exact Rz.
Qed.
Lemma opush_loop3 FE FB mE mB sp p : field3_is D FE mE -> field3_is D FB mB -> (p < npatches3 D)%nat ->
  forall l : list prt, (forall r, In r (S_PartSync.alive l) -> in_patch3 D p r) ->
  exists ts, loop (one rsqrt push_position_3d (loc mE mB p) (sp_q sp) (sp_m sp) (e_dt D)) (map load3 l) = Some ts /\
    let l' := map (fun ss => store3 (fst ss) (snd ss)) (combine l ts) in
    length l' = length l /\ map canon (S_PartSync.alive l') = map (fun r => canon (orow sp FE FB r)) (S_PartSync.alive l) /\ (forall r, In r (S_PartSync.alive l') -> moved3 D p r).
Proof.
  intros HE HB Hp. induction l as [|s l IH]; intro H.
  - exists []. split; [reflexivity|]. split; [reflexivity|]. split; [reflexivity|]. intros r [].
  - destruct s as [r [|]].
    + destruct IH as (ts & E & L & M & N); [exact H|]. exists (load3 (M_PartSync.mkSlot _ r true) :: ts). cbv zeta in *. split.
      * cbn [map loop]. unfold one at 1. cbn [skipped load3 l_p p_dead M_PartSync.dead orb obind]. rewrite E. reflexivity.
      * cbn [combine map fst snd]. rewrite store_load3, !alive_cons_dead. split; [cbn [length]; f_equal; exact L|]. split; [exact M|exact N].
    + rewrite alive_cons_live in H. destruct IH as (ts & E & L & M & N); [intros r' I; apply H; right; exact I|].
      destruct (opush_live3 FE FB mE mB sp p r HE HB Hp (H r (or_introl eq_refl))) as (t & Et & Ct & Mt). exists (t :: ts). cbv zeta in *. split.
      * cbn [map loop]. rewrite Et. cbn [obind]. rewrite E. reflexivity.
      * cbn [combine map fst snd].
        assert (store3 (live r) t = live (rowof (store3 (live r) t))) as -> by reflexivity. rewrite !alive_cons_live.
        split; [cbn [length]; f_equal; exact L|]. split; [cbn [map]; f_equal; [exact Ct|exact M]|]. intros r' [<-|I]; [exact Mt|exact (N r' I)].
Qed.
Lemma opush_patch3_ok FE FB mE mB sp p l : sp_unified sp = true -> field3_is D FE mE -> field3_is D FB mB -> (p < npatches3 D)%nat ->
  (forall r, In r (S_PartSync.alive l) -> in_patch3 D p r) ->
  exists l', push_patch3 rsqrt D sp mE mB p l = Some l' /\ length l' = length l /\
    map canon (S_PartSync.alive l') = map (fun r => canon (orow sp FE FB r)) (S_PartSync.alive l) /\ (forall r, In r (S_PartSync.alive l') -> moved3 D p r).
Proof.
  intros U HE HB Hp H. destruct (opush_loop3 FE FB mE mB sp p HE HB Hp l H) as (ts & E & L & M & N). cbv zeta in *.
  eexists. split; [|split; [exact L|split; [exact M|exact N]]].
  unfold push_patch3. rewrite U, fused_3d_loop.
  rewrite (one_ext rsqrt push_position_3d _ (loc mE mB p)) by (intro a; apply fused_interp_3d). rewrite E. reflexivity.
Qed.
End Particles.
Section All.
Variable rsqrt : Q -> Q.
Hypothesis SUB : subluminal rsqrt.
Variable K : layer Qc. Variable D : domain3. Variable pmls : nat -> list pml_side.
Hypothesis OK : open3_ok K D pmls.
Local Notation n := (npatches3 D).
Local Notation NX := (e_nx D + 2 * e_ng D). Local Notation NY := (e_ny D + 2 * e_ng D). Local Notation NZ := (e_nz D + 2 * e_ng D).
Local Notation orow := (orow3 rsqrt (PL3 D) (e_dx D) (e_dy D) (e_dz D) (e_dt D)).
Local Notation live_rows p st := (S_PartSync.alive (nth p st [])).
Variables (FE FB : nat -> list Z -> Qc) (mE mB : memory Qc).
Hypothesis HE : field3_is D FE mE.
Hypothesis HB : field3_is D FB mB.

Lemma odeposit_here3 sp m p l f o : sp_unified sp = true -> (forall r, In r (S_PartSync.alive l) -> placed r) -> (f < 4)%nat -> 0 <= o < NX * NY * NZ ->
  deposit_patch3 D sp m p l (Fld f p o) = Q2Qc (this (m (Fld f p o)) + qsum (fun r => contrib3 D sp p r f o) (S_PartSync.alive l)).
Proof. exact (deposit_here3 (twin3 D) (twin3_ok K D pmls OK) sp m p l f o). Qed.
Lemma opush_patches3_ok sp : sp_unified sp = true -> forall (st : list (list prt)) p mJ, (p + length st <= n)%nat ->
  (forall k r, (k < length st)%nat -> In r (live_rows k st) -> in_patch3 D (p + k) r) ->
  exists mJ' st', push_patches3 rsqrt D sp mE mB mJ p st = Some (mJ', st') /\ length st' = length st /\
    (forall k, (k < length st)%nat -> map canon (live_rows k st') = map (fun r => canon (orow sp FE FB r)) (live_rows k st) /\
       (forall r, In r (live_rows k st') -> moved3 D (p + k) r)) /\
    (forall f q o, (f < 4)%nat -> 0 <= o < NX * NY * NZ ->
       (this (mJ' (Fld f q o)) == this (mJ (Fld f q o)) + (if (p <=? q)%nat && (q <? p + length st)%nat then qsum (fun r => contrib3 D sp q r f o) (live_rows (q - p) st') else 0))%Q).
Proof.
  intro U. induction st as [|l st IH]; intros p mJ L H.
  - exists mJ, []. split; [reflexivity|]. split; [reflexivity|]. split; [intros k Hk; cbn [length] in Hk; lia|].
    intros f q o _ _. cbn [length]. rewrite Nat.add_0_r. destruct (Nat.leb_spec p q), (Nat.ltb_spec q p); cbn [andb]; try lia; ring.
  - cbn [length] in *. destruct (opush_patch3_ok rsqrt SUB K D pmls OK FE FB mE mB sp p l U HE HB ltac:(lia)) as (l' & E & Ll & Ml & Nl).
    { intros r I. specialize (H 0%nat r ltac:(lia) I). rewrite Nat.add_0_r in H. exact H. }
    destruct (IH (S p) (deposit_patch3 D sp mJ p l') ltac:(lia)) as (mJ' & st' & E' & L' & M' & V').
    { intros k r Hk I. specialize (H (S k) r ltac:(lia) I). rewrite <- Nat.add_succ_comm in H. exact H. }
    exists mJ', (l' :: st'). cbn [push_patches3]. rewrite E, E'. split; [reflexivity|]. split; [cbn [length]; lia|]. split.
    + intros [|k] Hk; cbn [nth]; [rewrite Nat.add_0_r; split; [exact Ml|exact Nl]|]. rewrite <- Nat.add_succ_comm. apply M'. lia.
    + intros f q o Hf Ho. rewrite V' by assumption.
      destruct (Nat.eq_dec q p) as [->|N].
      * rewrite odeposit_here3; [|exact U|intros r I; exact (moved3_placed D p r (Nl r I))|exact Hf|exact Ho]. rewrite this_q2qc.
        destruct (Nat.leb_spec (S p) p); [lia|]. destruct (Nat.leb_spec p p); [|lia]. destruct (Nat.ltb_spec p (p + S (length st))); [|lia]. cbn [andb].
        rewrite Nat.sub_diag. cbn [nth]. ring.
      * rewrite deposit_other3 by exact N.
        destruct (Nat.leb_spec (S p) q), (Nat.leb_spec p q); try lia; cbn [andb]; try ring.
        replace (S p + length st)%nat with (p + S (length st))%nat by lia. destruct (q <? p + S (length st))%nat; [|ring].
        replace (q - p)%nat with (S (q - S p)) by lia. cbn [nth]. reflexivity.
Qed.
(** the particles of one species before and after *)
Definition opushed3 (sp : species) (st st' : list (list prt)) : Prop :=
  length st' = n /\ forall p, (p < n)%nat ->
    map canon (live_rows p st') = map (fun r => canon (orow sp FE FB r)) (live_rows p st) /\ (forall r, In r (live_rows p st') -> moved3 D p r).
Lemma opush_species3_ok : forall sps pss mJ, all_fused sps -> length pss = length sps -> Forall (settled3 D) pss ->
  exists mJ' pss', push_species3 rsqrt D sps mE mB mJ pss = Some (mJ', pss') /\
    Forall2 (fun ss st' => opushed3 (fst ss) (snd ss) st') (combine sps pss) pss' /\
    (forall f q o, (f < 4)%nat -> (q < n)%nat -> 0 <= o < NX * NY * NZ ->
       (this (mJ' (Fld f q o)) == this (mJ (Fld f q o)) + qsum (fun ss => qsum (fun r => contrib3 D (fst ss) q r f o) (live_rows q (snd ss))) (combine sps pss'))%Q).
Proof.
  induction sps as [|sp sps IH]; intros [|st pss] mJ U L F; cbn [length] in L; try lia.
  - exists mJ, []. split; [reflexivity|]. split; [constructor|]. intros f q o _ _ _. cbn [combine]. change (qsum _ []) with 0%Q. ring.
  - inversion U as [|? ? U1 U2]; subst. inversion F as [|? ? Fs F']; subst. pose proof Fs as Fs0. destruct Fs as [Ls Hs].
    destruct (opush_patches3_ok sp U1 st 0 mJ ltac:(lia)) as (mJ1 & st' & E & Ls' & M & V).
    { intros k r Hk I. apply (settled3_in D st k r Fs0); [lia|exact I]. }
    destruct (IH pss mJ1 U2 ltac:(lia) F') as (mJ' & pss' & E' & F2 & V'). exists mJ', (st' :: pss').
    cbn [push_species3]. rewrite E, E'. split; [reflexivity|]. split.
    + cbn [combine]. constructor; [|exact F2]. cbn [fst snd]. split; [lia|]. intros p Hp. apply M. lia.
    + intros f q o Hf Hq Ho. rewrite V', V by assumption. cbn [combine]. rewrite qsum_cons. cbn [fst snd].
      cbn [Nat.add Nat.leb andb]. destruct (Nat.ltb_spec q (length st)); [|lia]. rewrite Nat.sub_0_r. ring.
Qed.
End All.
