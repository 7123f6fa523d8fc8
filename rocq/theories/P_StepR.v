(** Steps with collisions and QED events: settled particles, the change of Gauss' law, the total charge. *)
From Coq Require Import QArith Qabs Qround Qcanon Permutation Lqa.
From Verif Require Import Base M_Layout S_Layout M_PartSync S_PartSync M_FieldSync S_FieldSync M_Maxwell S_Maxwell M_Deposit S_Deposit M_Push P_Layout P_PartSync3 P_Deposit P_Deposit2 P_Deposit5 P_Deposit9 P_FieldGeo P_Maxwell P_Maxwell3 M_Step S_Step P_Step1 P_Step2 P_Step3 P_Step4 P_Step5 P_Step6 P_Step7 P_Step8 S_Gauss P_Gauss1 P_Gauss2 P_Gauss3 M_StepR S_StepR.
Local Open Scope list_scope.
Local Open Scope Z_scope.
Local Notation live l := (S_PartSync.alive l).

(** * Lists *)
Lemma alive_cons (s : prt) l : live (s :: l) = if M_PartSync.dead _ s then live l else rowof s :: live l.
Proof. unfold S_PartSync.alive. cbn [filter]. destruct (M_PartSync.dead _ s); reflexivity. Qed.
Lemma in_alive_upd a (v : prt) l r : In r (live (upd a v l)) -> (r = rowof v /\ M_PartSync.dead _ v = false) \/ In r (live l).
Proof.
  revert a. induction l as [|s l IH]; intros [|a]; cbn [upd]; try (intros []); rewrite !alive_cons.
  - destruct (M_PartSync.dead _ v) eqn:E; destruct (M_PartSync.dead _ s); cbn [In]; intuition.
  - destruct (M_PartSync.dead _ s) eqn:E; cbn [In]; intro H.
    + exact (IH a H).
    + destruct H as [H|H]; [right; left; exact H|]. destruct (IH a H) as [K|K]; [left; exact K|right; right; exact K].
Qed.
Lemma sum_alive_upd (f : prow body -> Q) a (v s : prt) l : nth_error l a = Some s ->
  (qsum f (live (upd a v l)) == qsum f (live l) + ((if M_PartSync.dead _ v then 0 else f (rowof v)) - (if M_PartSync.dead _ s then 0 else f (rowof s))))%Q.
Proof.
  revert a. induction l as [|x l IH]; intros [|a] E; cbn [nth_error upd] in *; try discriminate.
  - injection E as ->. rewrite !alive_cons. destruct (M_PartSync.dead _ v); destruct (M_PartSync.dead _ s); rewrite ?qsum_cons; ring.
  - rewrite !alive_cons. destruct (M_PartSync.dead _ x); rewrite ?qsum_cons, (IH a E); ring.
Qed.
Lemma alive_room (l : list prt) rows : live (l ++ map (fun r => M_PartSync.mkSlot _ r true) rows) = live l.
Proof. induction l as [|s l IH]; [induction rows as [|r rows IH]; [reflexivity|exact IH]|]. cbn [app]. rewrite !alive_cons, IH. reflexivity. Qed.
Lemma particles_cons l st : particles (l :: st) = live l ++ particles st. Proof. reflexivity. Qed.
Lemma sum_particles_upd (f : prow body -> Q) p (l : list prt) st : (p < length st)%nat ->
  (qsum f (particles (upd p l st)) == qsum f (particles st) + (qsum f (live l) - qsum f (live (nth p st []))))%Q.
Proof.
  revert p. induction st as [|x st IH]; intros [|p] H; cbn [length] in H; try lia; cbn [upd nth]; rewrite !particles_cons, !qsum_app.
  - ring.
  - rewrite (IH p) by lia. ring.
Qed.
Lemma upd_out {A} i (v : A) l : (length l <= i)%nat -> upd i v l = l.
Proof. revert i. induction l as [|x l IH]; intros [|i] H; cbn [upd length] in *; try reflexivity; try lia. f_equal. apply IH. lia. Qed.
(** sums over all species *)
Definition spsum (F : species -> prow body -> Q) (sps : list species) (pss : list (list (list prt))) : Q :=
  qsum (fun ss => qsum (F (fst ss)) (particles (snd ss))) (combine sps pss).
Lemma spsum_upd F i st sps : forall pss sp, nth_error sps i = Some sp -> (i < length pss)%nat ->
  (spsum F sps (upd i st pss) == spsum F sps pss + (qsum (F sp) (particles st) - qsum (F sp) (particles (nth i pss []))))%Q.
Proof.
  revert i. induction sps as [|s sps IH]; intros i pss sp E H; [destruct i; discriminate|]. destruct pss as [|x pss]; [cbn [length] in H; lia|].
  unfold spsum in *. destruct i as [|i]; cbn [nth_error upd combine nth length] in *.
  - injection E as ->. rewrite !qsum_cons. cbn [fst snd]. ring.
  - rewrite !qsum_cons, (IH i pss sp E) by lia. cbn [fst snd]. ring.
Qed.

Section R.
Variable rsqrt : Q -> Q.
Hypothesis SUB : subluminal rsqrt.
Variable D : domain2.
Hypothesis OK : domain_ok D.
Local Notation n := (npatches2 D).

Lemma with_u_slow ux uy uz r : (Qabs (b_ux (other _ (with_u rsqrt ux uy uz r)) * b_ig (other _ (with_u rsqrt ux uy uz r))) <= 1)%Q /\
  (Qabs (b_uy (other _ (with_u rsqrt ux uy uz r)) * b_ig (other _ (with_u rsqrt ux uy uz r))) <= 1)%Q.
Proof. unfold with_u. cbn [other b_ux b_uy b_ig]. pose proof (sq_nonneg ux). pose proof (sq_nonneg uy). pose proof (sq_nonneg uz). split; apply (proj2 SUB); lra. Qed.

(** * Collisions keep the particles in their patches *)
Lemma scattered_in l l' r' : Forall2 (scattered rsqrt) l l' -> In r' (live l') ->
  exists r, In r (live l) /\ px _ r' = px _ r /\ py _ r' = py _ r /\ (r' = r \/ exists ux uy uz, r' = with_u rsqrt ux uy uz r).
Proof.
  induction 1 as [|s s' l l' S F IH]; [intros []|]. rewrite !alive_cons. destruct S as [s|s ux uy uz E].
  - destruct (M_PartSync.dead _ s); [exact IH|]. intros [<-|I]; [exists (rowof s); cbn [In]; auto 6|]. destruct (IH I) as (r & A & B). exists r. split; [right; exact A|exact B].
  - rewrite E. cbn [M_PartSync.dead]. intros [<-|I].
    + exists (rowof s). split; [left; reflexivity|]. split; [reflexivity|]. split; [reflexivity|]. right. exists ux, uy, uz. reflexivity.
    + destruct (IH I) as (r & A & B). exists r. split; [right; exact A|exact B].
Qed.
Lemma forall2_nth {A} (P : list A -> list A -> Prop) l l' p : P [] [] -> Forall2 P l l' -> P (nth p l []) (nth p l' []).
Proof. intros H F. revert p. induction F as [|x y l l' K F IH]; intros [|p]; cbn [nth]; auto. Qed.
Lemma forall2_len {A B} (P : A -> B -> Prop) l l' : Forall2 P l l' -> length l = length l'.
Proof. induction 1; cbn [length]; congruence. Qed.
Lemma collided_settled st st' : settled D st -> collided rsqrt st st' -> settled D st'.
Proof.
  intros [L H] C. split; [rewrite <- (forall2_len _ _ _ C); exact L|]. intros p r' Hp I.
  destruct (scattered_in (nth p st []) (nth p st' []) r' (forall2_nth _ _ _ p (Forall2_nil _) C) I) as (r & Ir & E1 & E2 & Hr).
  destruct (H p r Hp Ir) as (x & y & X1 & X2 & B1 & B2 & V1 & V2). exists x, y. rewrite E1, E2. split; [exact X1|]. split; [exact X2|]. split; [exact B1|]. split; [exact B2|].
  destruct Hr as [->|(ux & uy & uz & ->)]; [auto|apply with_u_slow].
Qed.
Lemma collided_all ps ps' : Forall (settled D) ps -> Forall2 (collided rsqrt) ps ps' -> Forall (settled D) ps'.
Proof. intros F C. induction C as [|st st' ps ps' H C IH]; [constructor|]. inversion F as [|? ? F1 F2]; subst. constructor; [eapply collided_settled; eassumption|auto]. Qed.
Lemma scattered_weight q l l' : Forall2 (scattered rsqrt) l l' -> (qsum (wq D q) (live l') == qsum (wq D q) (live l))%Q.
Proof.
  induction 1 as [|s s' l l' S F IH]; [reflexivity|]. rewrite !alive_cons. destruct S as [s|s ux uy uz E].
  - destruct (M_PartSync.dead _ s); [exact IH|]. rewrite !qsum_cons, IH. reflexivity.
  - rewrite E. cbn [M_PartSync.dead]. rewrite !qsum_cons, IH. reflexivity.
Qed.
Lemma collided_weight sps ps ps' : Forall2 (collided rsqrt) ps ps' -> (wtotal D sps ps' == wtotal D sps ps)%Q.
Proof.
  intro F. unfold wtotal. revert sps. induction F as [|st st' ps ps' H F IH]; intros [|sp sps]; try reflexivity. cbn [combine]. rewrite !qsum_cons, IH. cbn [fst snd].
  apply Qplus_comp; [|reflexivity]. change (qsum (wq D (sp_q sp)) (particles st') == qsum (wq D (sp_q sp)) (particles st))%Q.
  induction H as [|l l' st st' K H IH']; [reflexivity|]. rewrite !particles_cons, !qsum_app, IH', (scattered_weight _ _ _ K). reflexivity.
Qed.

(** * QED events *)
Variable pairs : list (nat * nat).
Definition around (pss : list (list (list prt))) : Prop :=
  forall st, In st pss -> length st = n /\ forall p r, (p < n)%nat -> In r (live (nth p st [])) -> nearby D p r.
Lemma in_upd {A} i (v : A) l x : In x (upd i v l) -> x = v \/ In x l.
Proof. revert i. induction l as [|y l IH]; intros [|i]; cbn [upd In]; intuition. destruct (IH i H0); intuition. Qed.
Lemma around_patch pss i p l : around pss -> (forall r, (i < length pss)%nat -> (p < n)%nat -> In r (live l) -> nearby D p r) -> around (set_patch i p l pss).
Proof.
  intros A H st I. unfold set_patch in I. destruct (Nat.lt_ge_cases i (length pss)) as [Hi|Hi].
  - apply in_upd in I. destruct I as [->|I]; [|exact (A st I)]. destruct (A (nth i pss []) (nth_In _ _ Hi)) as [L K]. split; [rewrite upd_length; exact L|].
    intros p' r Hp Ir. rewrite nth_upd in Ir. destruct (Nat.eqb_spec p p') as [->|Np]; cbn [andb] in Ir; [|exact (K p' r Hp Ir)].
    destruct (Nat.ltb_spec p' (length (nth i pss []))); [exact (H r Hi Hp Ir)|exact (K p' r Hp Ir)].
  - rewrite (upd_out i _ _ Hi) in I. exact (A st I).
Qed.
Lemma around_slot pss i p a v : around pss -> (M_PartSync.dead _ v = false -> (i < length pss)%nat -> (p < n)%nat -> nearby D p (rowof v)) -> around (set_slot i p a v pss).
Proof.
  intros A H. apply around_patch; [exact A|]. intros r Hi Hp I. destruct (A (nth i pss []) (nth_In _ _ Hi)) as [L K].
  apply in_alive_upd in I. destruct I as [[-> Hd]|I]; [exact (H Hd Hi Hp)|exact (K p r Hp I)].
Qed.
Lemma in_alive_slot (l : list prt) a s : nth_error l a = Some s -> M_PartSync.dead _ s = false -> In (rowof s) (live l).
Proof. intros E H. apply in_map. apply filter_In. split; [eapply nth_error_In; eassumption|]. rewrite H. reflexivity. Qed.
Lemma photon_near m d i v x0 : (0 < d)%Q -> 1 <= m -> (LIGHT_SPEED * d_dt D <= d)%Q -> (Qabs v <= 1)%Q -> in_cells m d i x0 -> S_PartSync.near m d i (Some (x0 + LIGHT_SPEED * d_dt D * v)%Q).
Proof.
  intros Hd Hm Hc Hv [A B]. destruct (ok_t D OK) as (T1 & _). cbn [S_PartSync.near]. apply Qabs_Qle_condition in Hv. destruct Hv as [V1 V2].
  assert (0 < LIGHT_SPEED * d_dt D)%Q as Hk by (apply Qmult_lt_0_compat; [reflexivity|exact T1]). set (k := (LIGHT_SPEED * d_dt D)%Q) in *. clearbody k.
  assert (- d <= k * v /\ k * v <= d)%Q as [W1 W2].
  { split.
    - apply Qle_trans with (k * - (1))%Q; [lra|]. rewrite !(Qmult_comm k). apply Qmult_le_compat_r; lra.
    - apply Qle_trans with (k * 1)%Q; [|lra]. rewrite !(Qmult_comm k). apply Qmult_le_compat_r; lra. }
  replace (i - 1) with (i + -1) by lia. replace (i + 2) with (i + 1 + 1) by lia. rewrite (edge_step m d i (-1)), (edge_step m d (i + 1) 1).
  change (inject_Z 1) with 1%Q. change (inject_Z (-1)) with (-1)%Q.
  assert (d <= inject_Z m * d)%Q as WP.
  { apply Qle_trans with (1 * d)%Q; [lra|]. apply Qmult_le_compat_r; [|lra]. change 1%Q with (inject_Z 1). rewrite <- Zle_Qle. exact Hm. }
  set (w := (inject_Z m * d)%Q) in *. set (e := cell_edge m d i) in *. set (e' := cell_edge m d (i + 1)) in *. set (kv := (k * v)%Q) in *. clearbody e e' w kv. split; lra.
Qed.
Lemma newborn_near p f x y ux uy uz w old : photon_at D p x y -> nearby D p (newborn rsqrt f x y ux uy uz w old).
Proof.
  intros (x0 & y0 & vx & vy & I1 & I2 & V1 & V2 & -> & ->). destruct (ok_t D OK) as (T1 & T2 & T3). destruct (ok_d D OK) as [D1 D2]. destruct (ok_g D OK) as (G1 & G2 & G3).
  unfold newborn. eexists. eexists. split; [reflexivity|]. split; [reflexivity|]. split; [apply with_u_slow|]. split; [apply with_u_slow|].
  unfold with_u. cbn [px py other]. split; apply photon_near; auto; lia.
Qed.
Lemma event_around pss pss' : around pss -> qed_event rsqrt D pairs pss pss' -> around pss'.
Proof.
  intros A E. destruct E as [pss i p a s delta Es Hd|pss i j p a b sa sb x y ux uy uz w delta Hij Nij Ph Ea Da Eb Db|pss i p rows].
  - apply around_slot; [exact A|]. intros _ Hi Hp. cbn [M_PartSync.row rowof]. destruct (A (nth i pss []) (nth_In _ _ Hi)) as [L K].
    destruct (K p (rowof s) Hp (in_alive_slot _ a s Es Hd)) as (x & y & E1 & E2 & V1 & V2 & N1 & N2).
    unfold recoiled. exists x, y. split; [exact E1|]. split; [exact E2|]. split; [apply with_u_slow|]. split; [apply with_u_slow|]. split; [exact N1|exact N2].
  - apply around_slot; [apply around_slot; [exact A|]|]; intros _ _ _; apply newborn_near; exact Ph.
  - apply around_patch; [exact A|]. intros r Hi Hp I. rewrite alive_room in I. destruct (A (nth i pss []) (nth_In _ _ Hi)) as [L K]. exact (K p r Hp I).
Qed.
Lemma event_length pss pss' : qed_event rsqrt D pairs pss pss' -> length pss' = length pss.
Proof. intro E. destruct E; unfold set_slot, set_patch; rewrite ?upd_length; reflexivity. Qed.
Lemma stage_around pss pss' : around pss -> qed_stage rsqrt D pairs pss pss' -> around pss' /\ length pss' = length pss.
Proof. intros A S. induction S as [pss|pss p1 p2 E S IH]; [auto|]. destruct (IH (event_around _ _ A E)) as [B L]. split; [exact B|]. rewrite L. exact (event_length _ _ E). Qed.

(** total charge *)
Lemma slot_here pss i p a s : slot_at pss i p a = Some s -> (i < length pss)%nat /\ (p < length (nth i pss []))%nat.
Proof.
  unfold slot_at. intro E. split.
  - destruct (Nat.lt_ge_cases i (length pss)) as [H|H]; [exact H|]. rewrite (nth_overflow pss) in E by exact H. destruct p, a; discriminate E.
  - destruct (Nat.lt_ge_cases p (length (nth i pss []))) as [H|H]; [exact H|]. rewrite (nth_overflow (nth i pss [])) in E by exact H. destruct a; discriminate E.
Qed.
Lemma spsum_patch F sps pss i p l sp : nth_error sps i = Some sp -> (i < length pss)%nat -> (p < length (nth i pss []))%nat ->
  (spsum F sps (set_patch i p l pss) == spsum F sps pss + (qsum (F sp) (live l) - qsum (F sp) (live (nth p (nth i pss []) []))))%Q.
Proof. intros E Hi Hp. unfold set_patch. rewrite (spsum_upd F i _ sps pss sp E Hi), (sum_particles_upd (F sp) p l _ Hp). ring. Qed.
Lemma spsum_slot F sps pss i p a v s sp : nth_error sps i = Some sp -> slot_at pss i p a = Some s ->
  (spsum F sps (set_slot i p a v pss) == spsum F sps pss + ((if M_PartSync.dead _ v then 0 else F sp (rowof v)) - (if M_PartSync.dead _ s then 0 else F sp (rowof s))))%Q.
Proof. intros E Es. destruct (slot_here _ _ _ _ _ Es) as [Hi Hp]. unfold set_slot. rewrite (spsum_patch F sps pss i p _ sp E Hi Hp), (sum_alive_upd (F sp) a v s _ Es). ring. Qed.
Lemma other_slot pss i j p a b v : i <> j -> slot_at (set_slot i p a v pss) j p b = slot_at pss j p b.
Proof. intro N. unfold slot_at, set_slot, set_patch. rewrite nth_upd_neq by auto. reflexivity. Qed.
Lemma species_at {A B} (l : list A) (l' : list B) i : length l' = length l -> (i < length l')%nat -> exists x, nth_error l i = Some x.
Proof. intros L H. destruct (nth_error l i) as [x|] eqn:E; [exists x; reflexivity|]. apply nth_error_None in E. lia. Qed.
Definition wF (sp : species) (r : prow body) : Q := wq D (sp_q sp) r.
Lemma wtotal_spsum sps pss : wtotal D sps pss = spsum wF sps pss. Proof. reflexivity. Qed.
Lemma event_weight sps pss pss' : length pss = length sps -> opposite sps pairs -> qed_event rsqrt D pairs pss pss' -> (wtotal D sps pss' == wtotal D sps pss)%Q.
Proof.
  intros L O E. rewrite !wtotal_spsum. destruct E as [pss i p a s delta Es Hd|pss i j p a b sa sb x y ux uy uz w delta Hij Nij Ph Ea Da Eb Db|pss i p rows].
  - destruct (slot_here _ _ _ _ _ Es) as [Hi Hp]. destruct (species_at sps pss i L Hi) as [sp E]. rewrite (spsum_slot _ _ _ _ _ _ _ s sp E Es), Hd. cbn [M_PartSync.dead M_PartSync.row rowof].
    unfold wF, wq, recoiled, with_u. cbn [other b_w]. ring.
  - destruct (slot_here _ _ _ _ _ Ea) as [Hi _]. destruct (slot_here _ _ _ _ _ Eb) as [Hj _]. destruct (species_at sps pss i L Hi) as [sp E]. destruct (species_at sps pss j L Hj) as [sp' E'].
    rewrite (spsum_slot _ _ _ j p b _ sb sp' E') by (rewrite other_slot by exact Nij; exact Eb). rewrite (spsum_slot _ _ _ i p a _ sa sp E Ea), Da, Db. cbn [M_PartSync.dead M_PartSync.row rowof].
    unfold wF, wq, newborn, with_u. cbn [other b_w]. rewrite (O i j Hij sp sp' E E'). unfold Qdiv. ring.
  - unfold set_patch. destruct (Nat.lt_ge_cases i (length pss)) as [Hi|Hi].
    + destruct (species_at sps pss i L Hi) as [sp E]. rewrite (spsum_upd wF i _ sps pss sp E Hi). destruct (Nat.lt_ge_cases p (length (nth i pss []))) as [Hp|Hp].
      * rewrite (sum_particles_upd (wF sp) p _ _ Hp), alive_room. ring.
      * rewrite (upd_out p _ _ Hp). ring.
    + rewrite (upd_out i _ _ Hi). reflexivity.
Qed.
Lemma stage_weight sps pss pss' : length pss = length sps -> opposite sps pairs -> qed_stage rsqrt D pairs pss pss' -> (wtotal D sps pss' == wtotal D sps pss)%Q.
Proof. intros L O S. induction S as [pss|pss p1 p2 E S IH]; [reflexivity|]. rewrite IH by (rewrite (event_length _ _ E); exact L). exact (event_weight sps _ _ L O E). Qed.
End R.
