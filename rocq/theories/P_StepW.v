(** Steps with switches, part 1: what the push does to the particles and to the currents. *)
From Coq Require Import QArith Qabs Qround Qcanon Permutation Lqa.
From Verif Require Import Base M_Layout S_Layout M_PartSync S_PartSync M_FieldSync S_FieldSync M_Maxwell S_Maxwell M_Deposit S_Deposit M_Push S_Push P_Layout P_Deposit P_Deposit2 P_Deposit5 P_Interp P_Push P_FieldGeo P_FieldSync4 M_Step S_Step P_Step1 P_Step2 P_Step3 P_Step4 P_Step5 P_Step6 S_Gauss P_Gauss1 P_Gauss2 M_StepW S_StepW.
Local Open Scope list_scope.
Local Open Scope Z_scope.

Lemma store_live r t : store (live r) t = live (rowof (store (live r) t)).
Proof. reflexivity. Qed.
(** a loop over the slots that leaves dead slots alone *)
Lemma slots_loop (f : M_Push.slot -> option M_Push.slot) (P : prow body -> Prop) (R : prow body -> prow body -> Prop) :
  (forall r, f (load (M_PartSync.mkSlot _ r true)) = Some (load (M_PartSync.mkSlot _ r true))) ->
  (forall r, P r -> exists t, f (load (live r)) = Some t /\ R r (rowof (store (live r) t))) ->
  forall l : list prt, (forall r, In r (S_PartSync.alive l) -> P r) ->
  exists ts, loop f (map load l) = Some ts /\ let l' := map (fun ss => store (fst ss) (snd ss)) (combine l ts) in
    length l' = length l /\ Forall2 R (S_PartSync.alive l) (S_PartSync.alive l').
Proof.
  intros H0 H1. induction l as [|s l IH]; intro H.
  - exists []. split; [reflexivity|]. split; [reflexivity|]. constructor.
  - destruct s as [r [|]].
    + destruct IH as (ts & E & L & M); [exact H|]. exists (load (M_PartSync.mkSlot _ r true) :: ts). cbv zeta in *. split.
      * cbn [map loop]. rewrite H0. cbn [obind]. rewrite E. reflexivity.
      * cbn [combine map fst snd]. rewrite store_load, !alive_cons_dead. split; [cbn [length]; f_equal; exact L|exact M].
    + rewrite alive_cons_live in H. destruct IH as (ts & E & L & M); [intros r' I; apply H; right; exact I|].
      destruct (H1 r (H r (or_introl eq_refl))) as (t & Et & Rt). exists (t :: ts). cbv zeta in *. split.
      * cbn [map loop]. rewrite Et. cbn [obind]. rewrite E. reflexivity.
      * cbn [combine map fst snd]. rewrite store_live, !alive_cons_live.
        split; [cbn [length]; f_equal; exact L|]. constructor; assumption.
Qed.
Lemma loop_some {A} (g : A -> A) l : loop (fun s => Some (g s)) l = Some (map g l).
Proof. induction l as [|s l IH]; [reflexivity|]. cbn [loop map obind]. rewrite IH. reflexivity. Qed.

Section W.
Variable rsqrt : Q -> Q.
Hypothesis SUB : subluminal rsqrt.
Variable D : domain2.
Hypothesis OK : domain_ok D.
Local Notation n := (npatches2 D).
Local Notation NX := (d_nx D + 2 * d_ng D). Local Notation NY := (d_ny D + 2 * d_ng D).
Local Notation live_rows p st := (S_PartSync.alive (nth p st [])).

(** what the deposition and the exchange need of a particle that started at r and is at r' *)
Definition carried (p : nat) (r r' : prow body) : Prop :=
  moved D p r' /\ forall q i j, (charge_of D q (-1#2) i j r' == charge_of D q (1#2) i j r)%Q.
Definition held (p : nat) (r r' : prow body) : Prop :=
  moved D p r' /\ nearby D p r' /\ forall q h i j, (charge_of D q h i j r' == charge_of D q h i j r)%Q.
Definition after_push (pu : bool) (p : nat) := if pu then carried p else held p.

Lemma in_patch_moved p r : in_patch D p r -> moved D p r.
Proof.
  intros (x & y & E1 & E2 & I1 & I2 & V1 & V2). destruct (cdt2_ok D OK) as (T1 & T2 & T3). exists x, y. repeat (split; [assumption|]).
  split.
  - destruct (half_cell _ _ _ _ T1 T2 V1) as [A B]. destruct I1 as [A1 B1]. split; lra.
  - destruct (half_cell _ _ _ _ T1 T3 V2) as [A B]. destruct I2 as [A1 B1]. split; lra.
Qed.
Lemma held_same p r r' : in_patch D p r -> px _ r' = px _ r -> py _ r' = py _ r -> b_ux (other _ r') = b_ux (other _ r) -> b_uy (other _ r') = b_uy (other _ r) -> b_ig (other _ r') = b_ig (other _ r) -> b_w (other _ r') = b_w (other _ r) -> held p r r'.
Proof.
  intros H E1 E2 E3 E4 E5 E6. assert (in_patch D p r') as H' by (unfold in_patch in *; rewrite E1, E2, E3, E4, E5; exact H).
  split; [apply in_patch_moved; exact H'|]. split; [apply (moved_near D OK), in_patch_moved; exact H'|].
  intros q h i j. unfold charge_of. cbv zeta. rewrite E1, E2, E3, E4, E5, E6. reflexivity.
Qed.
Lemma held_refl p r : in_patch D p r -> held p r r.
Proof. intro H. apply held_same; auto. Qed.
Lemma after_moved pu p r r' : after_push pu p r r' -> moved D p r'.
Proof. destruct pu; intros [H _]; exact H. Qed.

Section Fields.
Variables (FE FB : nat -> list Z -> Qc) (mE mB : memory Qc).
Hypothesis HE : field_is D FE mE.
Hypothesis HB : field_is D FB mB.

Lemma stale_push sp p r : in_patch D p r -> let cdt := (LIGHT_SPEED * ((1#2) * d_dt D))%Q in let s := load (live r) in
  let t := push_momentum rsqrt (sp_q sp) (sp_m sp) (d_dt D) (M_Push.mkSlot (push_position_2d cdt (l_p s)) (l_f s)) in
  carried p r (rowof (store (live r) (M_Push.mkSlot (push_position_2d cdt (l_p t)) (l_f t)))).
Proof.
  intros (x & y & Ex & Ey & Ix & Iy & Vx & Vy) cdt s t. destruct (cdt2_ok D OK) as (T1 & T2 & T3).
  assert (Ec : (cdt == cdt2 D)%Q) by (unfold cdt, cdt2; ring).
  pose proof (momentum_slow rsqrt SUB (sp_q sp) (sp_m sp) (d_dt D) (M_Push.mkSlot (push_position_2d cdt (l_p s)) (l_f s))) as (M1 & M2 & _ & M5 & M3 & M4). fold t in M1, M2, M3, M4, M5. cbn [l_p] in M1, M2, M5. clearbody t.
  assert (Sx : p_x (l_p s) = x) by (unfold s, load; cbn [l_p p_x M_PartSync.row]; rewrite Ex; reflexivity).
  assert (Sy : p_y (l_p s) = y) by (unfold s, load; cbn [l_p p_y M_PartSync.row]; rewrite Ey; reflexivity).
  assert (Rx : in_reach (d_nx D) (d_dx D) (pi D p) (x + cdt * b_ig (other _ r) * b_ux (other _ r))).
  { unfold in_reach. setoid_replace (x + cdt * b_ig (other body r) * b_ux (other body r))%Q with (x + cdt2 D * b_ig (other body r) * b_ux (other body r))%Q by (rewrite Ec; reflexivity). apply reach_half; assumption. }
  assert (Ry : in_reach (d_ny D) (d_dy D) (pj D p) (y + cdt * b_ig (other _ r) * b_uy (other _ r))).
  { unfold in_reach. setoid_replace (y + cdt * b_ig (other body r) * b_uy (other body r))%Q with (y + cdt2 D * b_ig (other body r) * b_uy (other body r))%Q by (rewrite Ec; reflexivity). apply reach_half; assumption. }
  cbn [push_position_2d p_x p_y] in M1, M2. rewrite Sx in M1. rewrite Sy in M2. cbn [s load l_p p_ig p_ux p_uy M_PartSync.row] in M1, M2.
  split.
  - unfold moved, rowof, store. cbn [M_PartSync.row px py other]. rewrite Ex, Ey. cbn [isnan l_p push_position_2d p_x p_y p_ux p_uy p_ig b_ux b_uy b_ig]. eexists. eexists. split; [reflexivity|]. split; [reflexivity|]. split; [exact M3|]. split; [exact M4|].
    rewrite M1, M2. split.
    + unfold in_reach in *. match goal with |- ((_ <= ?v)%Q /\ _) => assert (v == x + cdt * b_ig (other body r) * b_ux (other body r))%Q as -> by (rewrite Ec; ring) end. exact Rx.
    + unfold in_reach in *. match goal with |- ((_ <= ?v)%Q /\ _) => assert (v == y + cdt * b_ig (other body r) * b_uy (other body r))%Q as -> by (rewrite Ec; ring) end. exact Ry.
  - intros q i j. apply charge_of_rw; unfold rowof, store; cbn [l_p l_f M_PartSync.row px py other b_w b_ux b_uy b_ig val push_position_2d p_x p_y p_ux p_uy p_ig]; rewrite ?Ex, ?Ey; cbn [isnan val].
    + exact OK.
    + reflexivity.
    + rewrite M1. unfold cdt. ring.
    + rewrite M2. unfold cdt. ring.
Qed.
Lemma cells_reach m d i x : (0 < d)%Q -> in_cells m d i x -> in_reach m d i x.
Proof. intros Hd [A B]. unfold in_reach, Qdiv. change (/ 2)%Q with (1#2)%Q. split; lra. Qed.
Lemma interp_only p r : in_patch D p r -> (p < n)%nat ->
  exists v, interpolation_2d (grid_of D p) (fields_of D mE mB p) (p_x (l_p (load (live r)))) (p_y (l_p (load (live r)))) = Some v.
Proof.
  intros (x & y & Ex & Ey & Ix & Iy & Vx & Vy) Hp. destruct (ok_d D OK) as [D1 D2]. cbn [load l_p p_x p_y M_PartSync.row]. rewrite Ex, Ey. cbn [val].
  pose proof (cells_reach _ _ _ _ D1 Ix) as Rx. pose proof (cells_reach _ _ _ _ D2 Iy) as Ry.
  destruct (interp_patch D OK FE FB mE mB p _ _ HE HB Hp (reach_cells _ _ _ _ D1 Rx) (reach_cells _ _ _ _ D2 Ry)) as (v & Ev & _). exists v. exact Ev.
Qed.
Lemma same_rows r t : px _ (rowof (store (live r) (M_Push.mkSlot (l_p (load (live r))) t))) = px _ r /\ py _ (rowof (store (live r) (M_Push.mkSlot (l_p (load (live r))) t))) = py _ r.
Proof. unfold rowof, store, load. cbn [M_PartSync.row px py l_p p_x p_y]. destruct (px body r), (py body r); split; reflexivity. Qed.
Lemma held_push p r t : in_patch D p r -> held p r (rowof (store (live r) (M_Push.mkSlot (l_p (load (live r))) t))).
Proof. intro H. destruct (same_rows r t) as [E1 E2]. apply held_same; auto. Qed.
Lemma full_push sp p l : (p < n)%nat -> (forall r, In r (S_PartSync.alive l) -> in_patch D p r) ->
  exists l', push_patch rsqrt D sp mE mB p l = Some l' /\ length l' = length l /\ Forall2 (carried p) (S_PartSync.alive l) (S_PartSync.alive l').
Proof.
  intros Hp H. destruct (push_patch_ok rsqrt SUB D OK FE FB mE mB sp p l HE HB Hp H) as (l' & E & L & M & N). exists l'. split; [exact E|]. split; [exact L|].
  assert (K : Forall (in_patch D p) (S_PartSync.alive l)) by (apply Forall_forall; exact H). clear - K M N OK.
  revert M N. generalize (S_PartSync.alive l') as m. revert K. generalize (S_PartSync.alive l) as k. induction k as [|a k IH]; intros K [|b m] M N; cbn [map] in M; try discriminate; constructor.
  - inversion K as [|? ? Ka]; subst. split; [apply N; left; reflexivity|]. intros q i j. destruct Ka as (x & y & E1 & E2 & _).
    rewrite <- (charge_of_grow D OK rsqrt sp FE FB q i j a) by (exists x, y; auto). apply charge_of_eq; [exact OK|]. apply (f_equal (hd (canon b))) in M. exact M.
  - apply IH; [inversion K; assumption|apply (f_equal (@tl _)) in M; exact M|intros r I; apply N; right; exact I].
Qed.
Lemma push_patch_w_ok W i sp p l : (p < n)%nat -> (forall r, In r (S_PartSync.alive l) -> in_patch D p r) ->
  exists l', push_patch_w rsqrt D W i sp mE mB p l = Some l' /\ length l' = length l /\ Forall2 (after_push (w_pusher W i) p) (S_PartSync.alive l) (S_PartSync.alive l').
Proof.
  intros Hp H. unfold push_patch_w. destruct (sp_unified sp) eqn:U.
  - destruct (w_pusher W i); cbn [after_push].
    + destruct (full_push sp p l Hp H) as (l' & E & R). unfold push_patch in E. rewrite U in E. exists l'. split; [exact E|exact R].
    + destruct (slots_loop Some (in_patch D p) (held p)) with (l := l) as (ts & E & R); [reflexivity|intros r Hr; eexists; split; [reflexivity|]|exact H|].
      { rewrite store_load. apply held_refl. exact Hr. }
      assert (ts = map load l) as -> by (assert (forall k : list M_Push.slot, loop Some k = Some k) as X by (induction k as [|a k IH]; [reflexivity|]; cbn [loop obind]; rewrite IH; reflexivity); rewrite X in E; congruence).
      eexists. split; [reflexivity|exact R].
  - unfold staged_push_w. cbv zeta. destruct (w_pusher W i) eqn:Pu; cbn [after_push].
    + destruct (w_interp W) eqn:It.
      * destruct (full_push sp p l Hp H) as (l' & E & R). unfold push_patch in E. rewrite U in E. exists l'. split; [exact E|exact R].
      * cbn [obind]. set (cdt := (LIGHT_SPEED * ((1 # 2) * d_dt D))%Q).
        set (g := fun s : M_Push.slot => if p_dead (l_p s) then s else let t := push_momentum rsqrt (sp_q sp) (sp_m sp) (d_dt D) (M_Push.mkSlot (push_position_2d cdt (l_p s)) (l_f s)) in M_Push.mkSlot (push_position_2d cdt (l_p t)) (l_f t)).
        destruct (slots_loop (fun s => Some (g s)) (in_patch D p) (carried p)) with (l := l) as (ts & E & R); [reflexivity|intros r Hr; eexists; split; [reflexivity|exact (stale_push sp p r Hr)]|exact H|].
        rewrite loop_some in E. assert (stage_position push_position_2d cdt (stage_momentum rsqrt (sp_q sp) (sp_m sp) (d_dt D) (stage_position push_position_2d cdt (map load l))) = ts) as ->; [|eexists; split; [reflexivity|exact R]].
        assert (ts = map g (map load l)) as -> by congruence. unfold stage_position, stage_momentum. rewrite !map_map. apply map_ext. intro s. unfold g.
        destruct (p_dead (l_p (load s))) eqn:Ed; [rewrite Ed, Ed; reflexivity|]. cbn [l_p push_position_2d p_dead]. rewrite Ed. cbv zeta.
        assert (p_dead (l_p (push_momentum rsqrt (sp_q sp) (sp_m sp) (d_dt D) (M_Push.mkSlot (push_position_2d cdt (l_p (load s))) (l_f (load s))))) = false) as X.
        { unfold push_momentum. cbv zeta. destruct (boris_inline _ _ _ _ _ _ _ _) as [[[a b] c] d]. cbn [l_p p_dead push_position_2d]. exact Ed. }
        cbn [push_position_2d] in X. rewrite X. reflexivity.
    + destruct (w_interp W) eqn:It; cbn [obind].
      * set (f := fun q => interpolation_2d (grid_of D p) (fields_of D mE mB p) (p_x q) (p_y q)).
        destruct (slots_loop (fun s => if skipped s then Some s else obind (f (l_p s)) (fun v => Some (M_Push.mkSlot (l_p s) v))) (in_patch D p) (held p)) with (l := l) as (ts & E & R); [reflexivity| |exact H|].
        { intros r Hr. destruct (interp_only p r Hr Hp) as [v Ev]. exists (M_Push.mkSlot (l_p (load (live r))) v). split; [|apply held_push; exact Hr].
          destruct (skipped (load (live r))) eqn:Sk; [|unfold f; rewrite Ev; reflexivity]. exfalso. destruct Hr as (x & y & E1 & E2 & _). unfold skipped, load in Sk. cbn [l_p p_dead p_nan M_PartSync.row M_PartSync.dead] in Sk. rewrite E1, E2 in Sk. discriminate Sk. }
        unfold stage_interpolation. rewrite E. cbn [obind]. eexists. split; [reflexivity|exact R].
      * destruct (slots_loop Some (in_patch D p) (held p)) with (l := l) as (ts & E & R); [reflexivity|intros r Hr; eexists; split; [reflexivity|]|exact H|].
        { rewrite store_load. apply held_refl. exact Hr. }
        assert (ts = map load l) as -> by (assert (forall k : list M_Push.slot, loop Some k = Some k) as X by (induction k as [|a k IH]; [reflexivity|]; cbn [loop obind]; rewrite IH; reflexivity); rewrite X in E; congruence).
        eexists. split; [reflexivity|exact R].
Qed.
Lemma forall2_in_r {A B} (R : A -> B -> Prop) l m b : Forall2 R l m -> In b m -> exists a, R a b.
Proof. intros F I. induction F as [|x y l m H F IH]; [destruct I|]. destruct I as [<-|I]; [exists x; exact H|exact (IH I)]. Qed.

Lemma push_patches_w_ok W i sp : forall (st : list (list prt)) p mJ, (p + length st <= n)%nat ->
  (forall k r, (k < length st)%nat -> In r (live_rows k st) -> in_patch D (p + k) r) ->
  exists mJ' st', push_patches_w rsqrt D W i sp mE mB mJ p st = Some (mJ', st') /\ length st' = length st /\
    (forall k, (k < length st)%nat -> Forall2 (after_push (w_pusher W i) (p + k)) (live_rows k st) (live_rows k st')) /\
    (forall f q o, (f < 4)%nat -> 0 <= o < NX * NY ->
       (this (mJ' (Fld f q o)) == this (mJ (Fld f q o)) + (if deposits W i sp && ((p <=? q)%nat && (q <? p + length st)%nat) then qsum (fun r => contrib D sp q r f o) (live_rows (q - p) st') else 0))%Q).
Proof.
  induction st as [|l st IH]; intros p mJ L H.
  - exists mJ, []. split; [reflexivity|]. split; [reflexivity|]. split; [intros k Hk; cbn [length] in Hk; lia|].
    intros f q o _ _. cbn [length]. rewrite Nat.add_0_r. destruct (deposits W i sp), (Nat.leb_spec p q), (Nat.ltb_spec q p); cbn [andb]; try lia; ring.
  - cbn [length] in *. destruct (push_patch_w_ok W i sp p l ltac:(lia)) as (l' & E & Ll & Ml).
    { intros r I. specialize (H 0%nat r ltac:(lia) I). rewrite Nat.add_0_r in H. exact H. }
    assert (Nl : forall r, In r (S_PartSync.alive l') -> moved D p r) by (intros r I; destruct (forall2_in_r _ _ _ _ Ml I) as [r0 X]; exact (after_moved _ _ _ _ X)).
    destruct (IH (S p) (if deposits W i sp then deposit_patch D sp mJ p l' else mJ) ltac:(lia)) as (mJ' & st' & E' & L' & M' & V').
    { intros k r Hk I. specialize (H (S k) r ltac:(lia) I). rewrite <- Nat.add_succ_comm in H. exact H. }
    exists mJ', (l' :: st'). cbn [push_patches_w]. rewrite E, E'. split; [reflexivity|]. split; [cbn [length]; lia|]. split.
    + intros [|k] Hk; cbn [nth]; [rewrite Nat.add_0_r; exact Ml|]. rewrite <- Nat.add_succ_comm. apply M'. lia.
    + intros f q o Hf Ho. rewrite V' by assumption. destruct (deposits W i sp); cbn [andb]; [|ring].
      destruct (Nat.eq_dec q p) as [->|N].
      * rewrite deposit_here; [|exact OK|intros r I; exact (moved_defined D p r (Nl r I))|exact Hf|exact Ho]. rewrite this_q2qc.
        destruct (Nat.leb_spec (S p) p); [lia|]. destruct (Nat.leb_spec p p); [|lia]. destruct (Nat.ltb_spec p (p + S (length st))); [|lia]. cbn [andb].
        rewrite Nat.sub_diag. cbn [nth]. ring.
      * rewrite deposit_other by exact N.
        destruct (Nat.leb_spec (S p) q), (Nat.leb_spec p q); try lia; cbn [andb]; try ring.
        replace (S p + length st)%nat with (p + S (length st))%nat by lia. destruct (q <? p + S (length st))%nat; [|ring].
        replace (q - p)%nat with (S (q - S p)) by lia. cbn [nth]. reflexivity.
Qed.
(** the particles of one species before and after *)
Definition pushed_w (pu : bool) (st st' : list (list prt)) : Prop :=
  length st' = n /\ forall p, (p < n)%nat -> Forall2 (after_push pu p) (live_rows p st) (live_rows p st').
Fixpoint pushed_all (W : switches) (i : nat) (pss pss' : list (list (list prt))) : Prop :=
  match pss, pss' with
  | [], [] => True
  | st :: pss, st' :: pss' => pushed_w (w_on W i && w_pusher W i) st st' /\ (w_on W i = false -> st' = st) /\ pushed_all W (S i) pss pss'
  | _, _ => False
  end.
(** the species that deposit, with their particles *)
Fixpoint depositing (W : switches) (i : nat) (sps : list species) (pss : list (list (list prt))) : list (species * list (list prt)) :=
  match sps, pss with
  | sp :: sps, st :: pss => (if seen W i sp then [(sp, st)] else []) ++ depositing W (S i) sps pss
  | _, _ => []
  end.
Lemma push_species_w_ok W : forall sps pss i mJ, length pss = length sps -> Forall (settled D) pss ->
  exists mJ' pss', push_species_w rsqrt D W i sps mE mB mJ pss = Some (mJ', pss') /\ pushed_all W i pss pss' /\
    (forall f q o, (f < 4)%nat -> (q < n)%nat -> 0 <= o < NX * NY ->
       (this (mJ' (Fld f q o)) == this (mJ (Fld f q o)) + qsum (fun ss => qsum (fun r => contrib D (fst ss) q r f o) (live_rows q (snd ss))) (depositing W i sps pss'))%Q).
Proof.
  induction sps as [|sp sps IH]; intros [|st pss] i mJ L F; cbn [length] in L; try lia.
  - exists mJ, []. split; [reflexivity|]. split; [exact I|]. intros f q o _ _ _. cbn [depositing]. change (qsum _ []) with 0%Q. ring.
  - inversion F as [|? ? Fs F']; subst. pose proof Fs as Fs0. destruct Fs as [Ls Hs].
    assert (X : exists mJ1 st', (if w_on W i then push_patches_w rsqrt D W i sp mE mB mJ 0 st else Some (mJ, st)) = Some (mJ1, st') /\ pushed_w (w_on W i && w_pusher W i) st st' /\ (w_on W i = false -> st' = st) /\
      (forall f q o, (f < 4)%nat -> (q < n)%nat -> 0 <= o < NX * NY ->
       (this (mJ1 (Fld f q o)) == this (mJ (Fld f q o)) + (if seen W i sp then qsum (fun r => contrib D sp q r f o) (live_rows q st') else 0))%Q)).
    { unfold seen. fold (deposits W i sp). destruct (w_on W i); cbn [andb].
      - destruct (push_patches_w_ok W i sp st 0 mJ ltac:(lia)) as (mJ1 & st' & E & Ls' & M & V).
        { intros k r Hk I. apply (settled_in D st k r Fs0); [lia|exact I]. }
        exists mJ1, st'. split; [exact E|]. split; [split; [lia|intros p Hp; apply M; lia]|]. split; [discriminate|].
        intros f q o Hf Hq Ho. rewrite V by assumption. cbn [Nat.add Nat.leb andb]. destruct (Nat.ltb_spec q (length st)); [|lia]. rewrite Nat.sub_0_r, andb_true_r. reflexivity.
      - exists mJ, st. split; [reflexivity|]. split; [split; [exact Ls|]|].
        + intros p Hp. cbn [after_push]. assert (K : Forall (in_patch D p) (live_rows p st)) by (apply Forall_forall; intros r Ir; exact (settled_in D st p r Fs0 Hp Ir)).
          clear - K OK. induction K; constructor; [apply held_refl; assumption|assumption].
        + split; [reflexivity|]. intros. ring. }
    destruct X as (mJ1 & st' & E & M & Z & V).
    destruct (IH pss (S i) mJ1 ltac:(lia) F') as (mJ' & pss' & E' & F2 & V'). exists mJ', (st' :: pss').
    cbn [push_species_w]. rewrite E, E'. split; [reflexivity|]. split; [split; [exact M|split; [exact Z|exact F2]]|].
    intros f q o Hf Hq Ho. rewrite V', V by assumption. cbn [depositing]. destruct (seen W i sp); cbn [app]; [rewrite qsum_cons; cbn [fst snd]; ring|ring].
Qed.
End Fields.
End W.
