(** Whole time steps with open sides, part 1: the push of the particles. *)
From Coq Require Import QArith Qabs Qround Qcanon Permutation Lqa.
From Verif Require Import Base M_Layout S_Layout M_PartSync S_PartSync M_FieldSync S_FieldSync M_Maxwell S_Maxwell M_Cpml S_Cpml M_Deposit S_Deposit M_Push S_Push P_Deposit P_Deposit2 P_Deposit5 P_Interp P_Push P_Layout P_FieldGeo P_FieldSync4 P_Maxwell P_Maxwell3 M_Step S_Step M_StepO S_StepO P_Step1 P_Step2 P_Step3 P_Step4.
Local Open Scope list_scope.
Local Open Scope Z_scope.

(** the same domain with periodic sides: what does not depend on the sides is known for it *)
Definition twin (D : domain2) : domain2 :=
  mkDomain2 (mkAxis (ax_n (d_ax D)) Periodic Periodic) (mkAxis (ax_n (d_ay D)) Periodic Periodic) (d_nx D) (d_ny D) (d_ng D) (d_dx D) (d_dy D) (d_dt D).
Lemma twin_ok K D pmls : open_ok K D pmls -> domain_ok (twin D).
Proof. intros [P N G DD T O Th F L]. constructor; cbn [twin d_ax d_ay d_nx d_ny d_ng d_dx d_dy d_dt ax_n ax_lo ax_hi]; auto. Qed.

(** cell of the whole grid *)
Definition PL (D : domain2) (g : list Z) : option (list Z) := place [d_ax D; d_ay D] [d_nx D; d_ny D] [0; 0] g.
Definition oget (pl : list Z -> option (list Z)) (F : nat -> list Z -> Qc) (f : nat) (a b : Z) : Q := match pl [a; b] with Some g => this (F f g) | None => 0%Q end.
Lemma place_PL D p a b : place [d_ax D; d_ay D] [d_nx D; d_ny D] (position2 (d_ax D) p) [a; b] = PL D [pi D p * d_nx D + a; pj D p * d_ny D + b].
Proof. unfold position2, PL. cbn [place]. unfold place1. cbv zeta. rewrite !Z.mul_0_l, !Z.add_0_l. reflexivity. Qed.

Section Patch.
Variable K : layer Qc. Variable D : domain2. Variable pmls : nat -> list pml_side.
Hypothesis OK : open_ok K D pmls.
Local Notation nx := (d_nx D). Local Notation ny := (d_ny D). Local Notation ng := (d_ng D).
Local Notation n := (npatches2 D).
Local Notation axes := [d_ax D; d_ay D]. Local Notation ns := [d_nx D; d_ny D].
Local Notation OT := (twin_ok K D pmls OK).
Lemma ofield_read F m f p a b : field_is D F m -> (f < 3)%nat -> (p < n)%nat -> within ng ns [a; b] ->
  rd (array_of D m f p) (INDEX2 (nx + 2 * ng) (ny + 2 * ng) a b) = Some (oget (PL D) F f (pi D p * nx + a) (pj D p * ny + b)).
Proof.
  intros FI Hf Hp W. etransitivity; [exact (array_read (twin D) m f p _ (index_in (twin D) OT a b W))|]. specialize (FI f p [a; b] Hf Hp W).
  unfold shown in FI. rewrite place_PL in FI. f_equal. transitivity (this (m (cell ns ng f p [a; b]))); [reflexivity|]. rewrite FI. unfold oget. destruct (PL D _); reflexivity.
Qed.
Lemma ointerp_patch FE FB mE mB p x y : field_is D FE mE -> field_is D FB mB -> (p < n)%nat ->
  (-1 <= (x - g_x0 (grid_of D p)) / d_dx D <= inject_Z nx)%Q -> (-1 <= (y - g_y0 (grid_of D p)) / d_dy D <= inject_Z ny)%Q ->
  exists v, interpolation_2d (grid_of D p) (fields_of D mE mB p) x y = Some v /\
    same6 v (gat (oget (PL D) FE) (oget (PL D) FB) (x / d_dx D) (y / d_dy D)).
Proof.
  intros HE HB Hp [X1 X2] [Y1 Y2]. unfold interpolation_2d.
  set (X := ((x - g_x0 (grid_of D p)) / d_dx D)%Q) in *. set (Y := ((y - g_y0 (grid_of D p)) / d_dy D)%Q) in *.
  change ((x - g_x0 (grid_of D p)) / g_dx (grid_of D p))%Q with X. change ((y - g_y0 (grid_of D p)) / g_dy (grid_of D p))%Q with Y.
  destruct (oo_g K D pmls OK) as (G1 & G2 & G3). destruct (oo_d K D pmls OK) as [D1 D2].
  set (E := fun f a b => oget (PL D) FE f (pi D p * nx + a) (pj D p * ny + b)).
  set (B := fun f a b => oget (PL D) FB f (pi D p * nx + a) (pj D p * ny + b)).
  pose proof (Qfloor_resp_le _ _ X1) as FX1. change (Qfloor (-1)) with (-1) in FX1. pose proof (Qfloor_resp_le _ _ X2) as FX2. rewrite Qfloor_Z in FX2.
  pose proof (Qfloor_resp_le _ _ Y1) as FY1. change (Qfloor (-1)) with (-1) in FY1. pose proof (Qfloor_resp_le _ _ Y2) as FY2. rewrite Qfloor_Z in FY2.
  exists (gat E B X Y). split.
  - apply interp_total. intros a b Ha Hb. assert (within ng ns [a; b]) as W by (apply (within2 (twin D)); cbn [twin d_nx d_ny d_ng]; lia).
    unfold fields_of. cbn [s_ex s_ey s_ez s_bx s_by s_bz]. unfold E, B. cbn [grid_of g_nx g_ny].
    rewrite !(ofield_read FE mE) by (auto with arith). rewrite !(ofield_read FB mB) by (auto with arith). auto 10.
  - apply (gat_shift _ _ _ _ _ _ _ _ (pi D p * nx) (pj D p * ny)).
    + unfold X. cbn [grid_of g_x0]. field. lra.
    + unfold Y. cbn [grid_of g_y0]. field. lra.
    + intros f a b _ _ _. unfold E, B. rewrite (Z.add_comm a), (Z.add_comm b). split; reflexivity.
Qed.
End Patch.

Section Global.
Variable rsqrt : Q -> Q.
Hypothesis SUB : subluminal rsqrt.
Variables (pl : list Z -> option (list Z)) (dx dy dt : Q).
(** the push of one particle on the whole grid *)
Definition ointerp (FE FB : nat -> list Z -> Qc) (p : part) : option (six Q) :=
  Some (gat (oget pl FE) (oget pl FB) (p_x p / dx) (p_y p / dy)).
Definition oslot (sp : species) FE FB (s : M_Push.slot) : M_Push.slot :=
  match one rsqrt push_position_2d (ointerp FE FB) (sp_q sp) (sp_m sp) dt s with Some t => t | None => s end.
Definition orow (sp : species) FE FB (r : prow body) : prow body := rowof (store (live r) (oslot sp FE FB (load (live r)))).
Lemma orow_eq sp FE FB r r' : canon r = canon r' -> canon (orow sp FE FB r) = canon (orow sp FE FB r').
Proof.
  intro H. unfold orow. apply canon_store; [exact H|]. unfold oslot.
  destruct (one_eq rsqrt (proj1 SUB) (ointerp FE FB) (ointerp FE FB) (sp_q sp) (sp_m sp) dt _ _ (canon_load r r' H)) as (t & t' & -> & -> & E); [|exact E].
  intro S. cbv zeta. unfold interp_eq, ointerp.
  destruct (move_eq (LIGHT_SPEED * (1 # 2) * dt) _ _ (proj1 (canon_load r r' H))) as (K1 & K2 & _).
  apply gat_eq; [rewrite K1; reflexivity|rewrite K2; reflexivity].
Qed.
Lemma orow_canon sp FE FB r : canon (orow sp FE FB (canon r)) = canon (orow sp FE FB r).
Proof. apply orow_eq, canon_idem. Qed.
End Global.

Section Particles.
Variable rsqrt : Q -> Q.
Hypothesis SUB : subluminal rsqrt.
Variable K : layer Qc. Variable D : domain2. Variable pmls : nat -> list pml_side.
Hypothesis OK : open_ok K D pmls.
Local Notation orow := (orow rsqrt (PL D) (d_dx D) (d_dy D) (d_dt D)).
Local Notation pushp FE FB sp := (one rsqrt push_position_2d (ointerp (PL D) (d_dx D) (d_dy D) FE FB) (sp_q sp) (sp_m sp) (d_dt D)).

Lemma opush_live FE FB mE mB sp p r : field_is D FE mE -> field_is D FB mB -> (p < npatches2 D)%nat -> in_patch D p r ->
  exists t, one rsqrt push_position_2d (fun a => interpolation_2d (grid_of D p) (fields_of D mE mB p) (p_x a) (p_y a)) (sp_q sp) (sp_m sp) (d_dt D) (load (live r)) = Some t /\
    canon (rowof (store (live r) t)) = canon (orow sp FE FB r) /\ moved D p (rowof (store (live r) t)).
Proof.
  intros HE HB Hp (x & y & Ex & Ey & Ix & Iy & Vx & Vy). destruct (cdt2_ok (twin D) (twin_ok K D pmls OK)) as (T1 & T2 & T3). destruct (oo_d K D pmls OK) as [D1 D2].
  set (loc := fun a => interpolation_2d (grid_of D p) (fields_of D mE mB p) (p_x a) (p_y a)).
  set (s := load (live r)). assert (p_x (l_p s) = x /\ p_y (l_p s) = y /\ skipped s = false) as (Sx & Sy & Sk).
  { unfold s, load, skipped. cbn [M_PartSync.row M_PartSync.dead l_p p_x p_y p_dead p_nan]. rewrite Ex, Ey. auto. }
  assert (in_reach (d_nx D) (d_dx D) (pi D p) (p_x (push_position_2d (cdt2 D) (l_p s)))) as Rx.
  { cbn [push_position_2d p_x]. rewrite Sx. apply reach_half; assumption. }
  assert (in_reach (d_ny D) (d_dy D) (pj D p) (p_y (push_position_2d (cdt2 D) (l_p s)))) as Ry.
  { cbn [push_position_2d p_y]. rewrite Sy. apply reach_half; assumption. }
  destruct (ointerp_patch K D pmls OK FE FB mE mB p _ _ HE HB Hp (reach_cells _ _ _ _ D1 Rx) (reach_cells _ _ _ _ D2 Ry)) as (v & Ev & Sv).
  destruct (one_eq rsqrt (proj1 SUB) loc (ointerp (PL D) (d_dx D) (d_dy D) FE FB) (sp_q sp) (sp_m sp) (d_dt D) s s) as (t & t' & Et & Et' & E).
  { apply canon_load. reflexivity. }
  { intros _. cbv zeta. unfold interp_eq, loc, ointerp. fold (cdt2 D). rewrite Ev. exact Sv. }
  exists t. split; [exact Et|]. split; [unfold orow, P_StepO1.orow, oslot; fold s; rewrite Et'; apply canon_store; [reflexivity|exact E]|].
  unfold one in Et. rewrite Sk in Et. cbv zeta in Et. fold (cdt2 D) in Et. unfold loc in Et. rewrite Ev in Et. cbn [obind] in Et. apply some_inj in Et. subst t.
  unfold moved, rowof, store. cbn [M_PartSync.row px py other]. rewrite Ex, Ey. cbn [isnan l_p push_position_2d p_x p_y p_ux p_uy p_ig b_ux b_uy b_ig].
  match goal with |- context [push_momentum rsqrt ?q ?m ?dt ?a] => destruct (momentum_slow rsqrt SUB q m dt a) as (M1 & M2 & _ & _ & M3 & M4); set (u := l_p (push_momentum rsqrt q m dt a)) in * end.
  cbn [l_p] in M1, M2.
  eexists. eexists. split; [reflexivity|]. split; [reflexivity|]. split; [exact M3|]. split; [exact M4|]. rewrite M1, M2.
  clearbody u. split.
  - unfold in_reach in *. set (xh := p_x (push_position_2d (cdt2 D) (l_p s))) in *. assert (xh + cdt2 D * p_ig u * p_ux u - cdt2 D * p_ig u * p_ux u == xh)%Q as -> by ring. exact Rx.
  - unfold in_reach in *. set (yh := p_y (push_position_2d (cdt2 D) (l_p s))) in *. assert (yh + cdt2 D * p_ig u * p_uy u - cdt2 D * p_ig u * p_uy u == yh)%Q as -> by ring. exact Ry.
Qed.

Lemma opush_loop FE FB mE mB sp p : field_is D FE mE -> field_is D FB mB -> (p < npatches2 D)%nat ->
  forall l : list prt, (forall r, In r (S_PartSync.alive l) -> in_patch D p r) ->
  exists ts, loop (one rsqrt push_position_2d (fun a => interpolation_2d (grid_of D p) (fields_of D mE mB p) (p_x a) (p_y a)) (sp_q sp) (sp_m sp) (d_dt D)) (map load l) = Some ts /\
    let l' := map (fun ss => store (fst ss) (snd ss)) (combine l ts) in
    length l' = length l /\ map canon (S_PartSync.alive l') = map (fun r => canon (orow sp FE FB r)) (S_PartSync.alive l) /\ (forall r, In r (S_PartSync.alive l') -> moved D p r).
Proof.
  intros HE HB Hp. induction l as [|s l IH]; intro H.
  - exists []. split; [reflexivity|]. split; [reflexivity|]. split; [reflexivity|]. intros r [].
  - destruct s as [r [|]].
    + destruct IH as (ts & E & L & M & N); [exact H|]. exists (load (M_PartSync.mkSlot _ r true) :: ts). cbv zeta in *. split.
      * cbn [map loop]. unfold one at 1. cbn [skipped load l_p p_dead M_PartSync.dead orb obind]. rewrite E. reflexivity.
      * cbn [combine map fst snd]. rewrite store_load, !alive_cons_dead. split; [cbn [length]; f_equal; exact L|]. split; [exact M|exact N].
    + rewrite alive_cons_live in H. destruct IH as (ts & E & L & M & N); [intros r' I; apply H; right; exact I|].
      destruct (opush_live FE FB mE mB sp p r HE HB Hp (H r (or_introl eq_refl))) as (t & Et & Ct & Mt). exists (t :: ts). cbv zeta in *. split.
      * cbn [map loop]. rewrite Et. cbn [obind]. rewrite E. reflexivity.
      * cbn [combine map fst snd].
        assert (store (live r) t = live (rowof (store (live r) t))) as -> by reflexivity. rewrite !alive_cons_live.
        split; [cbn [length]; f_equal; exact L|]. split; [cbn [map]; f_equal; [exact Ct|exact M]|]. intros r' [<-|I]; [exact Mt|exact (N r' I)].
Qed.
Lemma opush_patch_ok FE FB mE mB sp p l : field_is D FE mE -> field_is D FB mB -> (p < npatches2 D)%nat ->
  (forall r, In r (S_PartSync.alive l) -> in_patch D p r) ->
  exists l', push_patch rsqrt D sp mE mB p l = Some l' /\ length l' = length l /\
    map canon (S_PartSync.alive l') = map (fun r => canon (orow sp FE FB r)) (S_PartSync.alive l) /\ (forall r, In r (S_PartSync.alive l') -> moved D p r).
Proof.
  intros HE HB Hp H. destruct (opush_loop FE FB mE mB sp p HE HB Hp l H) as (ts & E & L & M & N). cbv zeta in *.
  eexists. split; [|split; [exact L|split; [exact M|exact N]]].
  assert (defined_when_alive (map load l)) as W.
  { intros s I A. apply in_map_iff in I. destruct I as (s0 & <- & I). unfold load in *. cbn [l_p p_dead p_nan] in *.
    destruct (H _ (alive_in s0 l I A)) as (x & y & -> & -> & _). reflexivity. }
  unfold push_patch.
  assert ((if sp_unified sp then fused_push_2d else staged_push_2d) rsqrt (grid_of D p) (fields_of D mE mB p) (sp_q sp) (sp_m sp) (d_dt D) (map load l) = Some ts) as ->; [|reflexivity].
  assert (staged_push_2d rsqrt (grid_of D p) (fields_of D mE mB p) (sp_q sp) (sp_m sp) (d_dt D) (map load l) = Some ts) as S.
  { unfold staged_push_2d. rewrite <- E. cbv zeta. apply (staged_one rsqrt push_position_2d flags_2d (fun a => interpolation_2d (grid_of D p) (fields_of D mE mB p) (p_x a) (p_y a)) (sp_q sp) (sp_m sp) (d_dt D) (map load l) W). }
  destruct (sp_unified sp); [rewrite push_same_2d by exact W|]; exact S.
Qed.
End Particles.
Section All.
Variable rsqrt : Q -> Q.
Hypothesis SUB : subluminal rsqrt.
Variable K : layer Qc. Variable D : domain2. Variable pmls : nat -> list pml_side.
Hypothesis OK : open_ok K D pmls.
Local Notation n := (npatches2 D).
Local Notation NX := (d_nx D + 2 * d_ng D). Local Notation NY := (d_ny D + 2 * d_ng D).
Local Notation orow := (orow rsqrt (PL D) (d_dx D) (d_dy D) (d_dt D)).
Local Notation live_rows p st := (S_PartSync.alive (nth p st [])).
Variables (FE FB : nat -> list Z -> Qc) (mE mB : memory Qc).
Hypothesis HE : field_is D FE mE.
Hypothesis HB : field_is D FB mB.

Lemma omoved_defined p r : moved D p r -> exists x y, px _ r = Some x /\ py _ r = Some y.
Proof. intros (x & y & H1 & H2 & _). exists x, y. auto. Qed.
Lemma odeposit_here sp m p l f o : (forall r, In r (S_PartSync.alive l) -> exists x y, px _ r = Some x /\ py _ r = Some y) -> (f < 4)%nat -> 0 <= o < NX * NY ->
  deposit_patch D sp m p l (Fld f p o) = Q2Qc (this (m (Fld f p o)) + qsum (fun r => contrib D sp p r f o) (S_PartSync.alive l)).
Proof. exact (deposit_here (twin D) (twin_ok K D pmls OK) sp m p l f o). Qed.
Lemma opush_patches_ok sp : forall (st : list (list prt)) p mJ, (p + length st <= n)%nat ->
  (forall k r, (k < length st)%nat -> In r (live_rows k st) -> in_patch D (p + k) r) ->
  exists mJ' st', push_patches rsqrt D sp mE mB mJ p st = Some (mJ', st') /\ length st' = length st /\
    (forall k, (k < length st)%nat -> map canon (live_rows k st') = map (fun r => canon (orow sp FE FB r)) (live_rows k st) /\
       (forall r, In r (live_rows k st') -> moved D (p + k) r)) /\
    (forall f q o, (f < 4)%nat -> 0 <= o < NX * NY ->
       (this (mJ' (Fld f q o)) == this (mJ (Fld f q o)) + (if (p <=? q)%nat && (q <? p + length st)%nat then qsum (fun r => contrib D sp q r f o) (live_rows (q - p) st') else 0))%Q).
Proof.
  induction st as [|l st IH]; intros p mJ L H.
  - exists mJ, []. split; [reflexivity|]. split; [reflexivity|]. split; [intros k Hk; cbn [length] in Hk; lia|].
    intros f q o _ _. cbn [length]. rewrite Nat.add_0_r. destruct (Nat.leb_spec p q), (Nat.ltb_spec q p); cbn [andb]; try lia; ring.
  - cbn [length] in *. destruct (opush_patch_ok rsqrt SUB K D pmls OK FE FB mE mB sp p l HE HB ltac:(lia)) as (l' & E & Ll & Ml & Nl).
    { intros r I. specialize (H 0%nat r ltac:(lia) I). rewrite Nat.add_0_r in H. exact H. }
    destruct (IH (S p) (deposit_patch D sp mJ p l') ltac:(lia)) as (mJ' & st' & E' & L' & M' & V').
    { intros k r Hk I. specialize (H (S k) r ltac:(lia) I). rewrite <- Nat.add_succ_comm in H. exact H. }
    exists mJ', (l' :: st'). cbn [push_patches]. rewrite E, E'. split; [reflexivity|]. split; [cbn [length]; lia|]. split.
    + intros [|k] Hk; cbn [nth]; [rewrite Nat.add_0_r; split; [exact Ml|exact Nl]|]. rewrite <- Nat.add_succ_comm. apply M'. lia.
    + intros f q o Hf Ho. rewrite V' by assumption.
      destruct (Nat.eq_dec q p) as [->|N].
      * rewrite odeposit_here; [|intros r I; exact (omoved_defined p r (Nl r I))|exact Hf|exact Ho]. rewrite this_q2qc.
        destruct (Nat.leb_spec (S p) p); [lia|]. destruct (Nat.leb_spec p p); [|lia]. destruct (Nat.ltb_spec p (p + S (length st))); [|lia]. cbn [andb].
        rewrite Nat.sub_diag. cbn [nth]. ring.
      * rewrite deposit_other by exact N.
        destruct (Nat.leb_spec (S p) q), (Nat.leb_spec p q); try lia; cbn [andb]; try ring.
        replace (S p + length st)%nat with (p + S (length st))%nat by lia. destruct (q <? p + S (length st))%nat; [|ring].
        replace (q - p)%nat with (S (q - S p)) by lia. cbn [nth]. reflexivity.
Qed.
(** the particles of one species before and after *)
Definition opushed (sp : species) (st st' : list (list prt)) : Prop :=
  length st' = n /\ forall p, (p < n)%nat ->
    map canon (live_rows p st') = map (fun r => canon (orow sp FE FB r)) (live_rows p st) /\ (forall r, In r (live_rows p st') -> moved D p r).
Lemma osettled_in st p r : settled D st -> (p < n)%nat -> In r (live_rows p st) -> in_patch D p r.
Proof. intros [L H] Hp I. exact (H p r Hp I). Qed.
Lemma opush_species_ok : forall sps pss mJ, length pss = length sps -> Forall (settled D) pss ->
  exists mJ' pss', push_species rsqrt D sps mE mB mJ pss = Some (mJ', pss') /\
    Forall2 (fun ss st' => opushed (fst ss) (snd ss) st') (combine sps pss) pss' /\
    (forall f q o, (f < 4)%nat -> (q < n)%nat -> 0 <= o < NX * NY ->
       (this (mJ' (Fld f q o)) == this (mJ (Fld f q o)) + qsum (fun ss => qsum (fun r => contrib D (fst ss) q r f o) (live_rows q (snd ss))) (combine sps pss'))%Q).
Proof.
  induction sps as [|sp sps IH]; intros [|st pss] mJ L F; cbn [length] in L; try lia.
  - exists mJ, []. split; [reflexivity|]. split; [constructor|]. intros f q o _ _ _. cbn [combine]. change (qsum _ []) with 0%Q. ring.
  - inversion F as [|? ? Fs F']; subst. pose proof Fs as Fs0. destruct Fs as [Ls Hs].
    destruct (opush_patches_ok sp st 0 mJ ltac:(lia)) as (mJ1 & st' & E & Ls' & M & V).
    { intros k r Hk I. apply (osettled_in st k r Fs0); [lia|exact I]. }
    destruct (IH pss mJ1 ltac:(lia) F') as (mJ' & pss' & E' & F2 & V'). exists mJ', (st' :: pss').
    cbn [push_species]. rewrite E, E'. split; [reflexivity|]. split.
    + cbn [combine]. constructor; [|exact F2]. cbn [fst snd]. split; [lia|]. intros p Hp. apply M. lia.
    + intros f q o Hf Hq Ho. rewrite V', V by assumption. cbn [combine]. rewrite qsum_cons. cbn [fst snd].
      cbn [Nat.add Nat.leb andb]. destruct (Nat.ltb_spec q (length st)); [|lia]. rewrite Nat.sub_0_r. ring.
Qed.
End All.
