(** The laser stage on a rectangular domain with absorbing layers. *)
From Coq Require Import QArith Field_theory Field.
From Verif Require Import Base M_Layout S_Layout M_PartSync S_PartSync M_FieldSync S_FieldSync M_Maxwell S_Maxwell M_Cpml S_Cpml M_Deposit M_Push M_Laser S_Laser.
From Verif Require Import P_Layout P_PartSync P_PartSync2 P_PartSync3 P_Threads P_FieldGeo P_FieldPar P_FieldSync P_FieldSync2 P_FieldSync3 P_FieldSync4 P_FieldSync5 P_AutoPatch P_Maxwell P_Maxwell2 P_Maxwell3 P_Cpml P_Cpml2 P_Cpml3 P_Cpml4 P_Cpml5 P_Laser P_Laser2 P_Laser3.
Local Open Scope list_scope.
Local Open Scope Z_scope.

Lemma monoid_of {V} (A : arith V) zero one inv : field_theory zero one (plus_ A) (times_ A) (minus_ A) (minus1_ A) (over_ A) inv (@eq V) -> monoid zero (plus_ A).
Proof.
  intro F. destruct (F_R F) as [R0 Rc Ra _ _ _ _ _ _]. split; [|split]; [|exact Rc|exact Ra]. intro x. rewrite Rc. apply R0.
Qed.

Section Two.
Context {V : Type} (A : arith V) (K : layer V) (cl zero : V).
Variables (ax ay : axis) (nx ny ng : Z) (dx dy : V) (qdy : Q) (pmls : nat -> list pml_side).
Variables (nproc : nat) (rank : nat -> nat) (l : laser (V := V)) (time : Q) (dt : V) (mE mJ : memory V).
Local Notation n := (npatch2 ax ay).
Local Notation st dis mB := (laser_stage_2d A K cl ax ay nx ny ng dx dy qdy pmls nproc rank l time dt mE mJ (dis, mB)).
Local Notation ce f p i j := (cell [nx; ny] ng f p [i; j]).
Definition src2 := sources2 A ay ny qdy l time.
Local Notation off2 := (off (left2 ax) pmls (tstop_of l) time).
Lemma stage2_is dis mB :
  (forall r, fst (st dis mB) r = if (r <? nproc)%nat then off2 (mine n rank r) (dis r) else dis r) /\
  (forall p, (p < n)%nat -> (rank p < nproc)%nat -> agree p (snd (st dis mB)) (if off2 (mine n rank (rank p)) (dis (rank p)) then mB else at_patch (left2 ax) src2 (update_bfields_2d A K cl ax nx ny ng dx dy qdy pmls dt mE mJ) mB p)) /\
  (forall a, (forall p, (p < n)%nat -> (rank p < nproc)%nat -> elsewhere p a) -> snd (st dis mB) a = mB a).
Proof.
  apply stage_is.
  - intros s m m' p H. apply inject_2d_in. exact H.
  - intros s m p a H. apply inject_2d_out. exact H.
Qed.
Hypothesis Hpa : paired [ax; ay].
Hypothesis Nx : 1 <= ax_n ax.
Hypothesis Ny : 1 <= ax_n ay.
Hypothesis HL : layers2 ax ay nx ny (thick K) pmls.
Lemma left2_ok p : left2 ax p = true <-> Z.of_nat p mod ax_n ax = 0.
Proof using. clear. unfold left2. apply Z.eqb_eq. Qed.
Lemma xmin_in p : (p < n)%nat -> In PXmin (pmls p) <-> ax_lo ax = Pml /\ Z.of_nat p mod ax_n ax = 0.
Proof using Hpa HL.
  intro Hp. rewrite (layers2_filter ax ay nx ny (thick K) pmls Hpa HL p Hp), filter_In. clear. unfold present, sides2. cbn.
  rewrite andb_true_iff, Z.eqb_eq. unfold opens, open_. cbn. rewrite bc_eqb_eq. tauto.
Qed.
Lemma ymin_in p : (p < n)%nat -> In PYmin (pmls p) <-> ax_lo ay = Pml /\ Z.of_nat p / ax_n ax = 0.
Proof using Hpa HL.
  intro Hp. rewrite (layers2_filter ax ay nx ny (thick K) pmls Hpa HL p Hp), filter_In. clear. unfold present, sides2. cbn.
  rewrite andb_true_iff, Z.eqb_eq. unfold opens, open_. cbn. rewrite bc_eqb_eq. tauto.
Qed.
Lemma ymax_in p : (p < n)%nat -> In PYmax (pmls p) <-> ax_lo ay = Pml /\ Z.of_nat p / ax_n ax = ax_n ay - 1.
Proof using Hpa HL.
  intro Hp. rewrite (layers2_filter ax ay nx ny (thick K) pmls Hpa HL p Hp), filter_In. clear. unfold present, sides2. cbn.
  rewrite andb_true_iff, Z.eqb_eq. unfold opens, open_. cbn. rewrite bc_eqb_eq. tauto.
Qed.
Lemma running_off r d : ax_lo ax = Pml -> running time l -> off2 (mine n rank r) d = d.
Proof using Hpa HL.
  intros HP HR. unfold off. rewrite (proj1 (running_stop time l) HR). rewrite count_enough; [now rewrite !orb_false_r|].
  intros p I. apply filter_In in I as [I L]. apply mine_in in I as [I _]. apply xmin_in; auto. split; auto. now apply left2_ok.
Qed.
Lemma no_layer_off r d p : ax_lo ax <> Pml -> (p < n)%nat -> Z.of_nat p mod ax_n ax = 0 -> rank p = r -> off2 (mine n rank r) d = true.
Proof using Hpa HL.
  intros HP Hp Hl Hr. unfold off. rewrite count_none; [|intros q I X; apply filter_In in I as [I _]; apply mine_in in I as [I _]; apply xmin_in in X; tauto].
  assert (In p (filter (left2 ax) (mine n rank r))) as I by (apply filter_In; split; [apply mine_in; auto|now apply left2_ok]).
  destruct (filter (left2 ax) (mine n rank r)); [contradiction|]. cbn. apply orb_true_r.
Qed.
(** without a layer on the left nothing is injected *)
Lemma no_layer2 dis mB a : ax_lo ax <> Pml -> (forall p, (p < n)%nat -> (rank p < nproc)%nat) -> snd (st dis mB) a = mB a.
Proof using Hpa HL.
  intros HP HR. destruct (stage2_is dis mB) as (_ & S2 & S3).
  assert (D : (exists p f o, (p < n)%nat /\ a = Fld f p o) \/ (forall p, (p < n)%nat -> (rank p < nproc)%nat -> elsewhere p a)).
  { destruct a as [f p o| |]; [|right; intros p' _ _ f' o'; discriminate|right; intros p' _ _ f' o'; discriminate].
    destruct (le_lt_dec n p) as [L|L]; [right; intros p' Hp _ f' o' E; injection E; lia|left; exists p, f, o; auto]. }
  destruct D as [(p & f & o & Hp & ->)|D]; [|now apply S3]. rewrite (S2 p Hp (HR p Hp)). destruct (Z.eq_dec (Z.of_nat p mod ax_n ax) 0) as [E|E].
  - rewrite (no_layer_off (rank p) _ p); auto.
  - unfold at_patch. destruct (left2 ax p) eqn:L; [apply left2_ok in L; contradiction|]. now destruct (off2 _ _).
Qed.

Hypothesis Hg : 0 < ng.
Hypothesis Hx : ng <= nx.
Hypothesis Hy : ng <= ny.
Local Notation th := (thick K).
Local Notation lp := (thick K + 2).
Hypothesis Hth : 0 <= thick K.
Hypothesis Hlp : thick K + 2 < nx + ng.
Hypothesis HP : ax_lo ax = Pml.
Hypothesis HR : running time l.
Hypothesis HC : centred l.
Hypothesis Hm : monoid zero (plus_ A).
Definition want_y2 (p : nat) (j : Z) : V := requested_y A zero (inject_Z (ax_n ay * ny) * qdy) 0 qdy 0 false time l (inject_Z (Z.of_nat p / ax_n ax * ny + j) * qdy) 0.
Definition want_z2 (p : nat) (j : Z) : V := requested_z A zero (inject_Z (ax_n ay * ny) * qdy) 0 qdy 0 false time l (inject_Z (Z.of_nat p / ax_n ax * ny + j) * qdy) 0.
(** rows outside the layers across y *)
Definition row_in (p : nat) (j : Z) : Prop := 0 <= j < ny /\ (In PYmin (pmls p) -> th <= j) /\ (In PYmax (pmls p) -> j < ny - th).
Lemma row_in_ok p j : (p < n)%nat -> row_in p j <-> row_start K (pmls p) <= j < row_end K ny (pmls p) /\ 0 <= j < ny.
Proof using.
  intro Hp. unfold row_in, row_start, row_end. destruct (has_side PYmin (pmls p)) eqn:E1; destruct (has_side PYmax (pmls p)) eqn:E2.
  all: assert (X1 := has_side_in PYmin (pmls p)); assert (X2 := has_side_in PYmax (pmls p)); rewrite E1 in X1; rewrite E2 in X2; clear E1 E2.
  all: destruct X1 as [X1 X1']; destruct X2 as [X2 X2']; clear - X1 X1' X2 X2'.
  all: repeat match goal with H : true = true -> _ |- _ => specialize (H eq_refl) | H : In _ _ -> false = true |- _ => assert (~ In PYmin (pmls p)) by (intro I; discriminate (H I)); clear H || assert (~ In PYmax (pmls p)) by (intro I; discriminate (H I)); clear H end.
  all: split; intros; repeat split; try tauto; try lia.
Qed.

Lemma src2_is : exists s, src2 = Some s /\ forall p j, s (inject_Z (Z.of_nat p / ax_n ax * ny + j) * qdy)%Q 0%Q = (want_y2 p j, want_z2 p j).
Proof using HR HC Hm.
  unfold src2, sources2. pose proof (bound_is A zero Hm (Ly2 ay ny qdy) 0 qdy 0 false time l HC) as B. pose proof (proj1 (running_none A (Ly2 ay ny qdy) 0 qdy 0 false time l) HR) as N.
  destruct (bound_fields A (Ly2 ay ny qdy) 0 qdy 0 false time l) as [s|]; [|congruence]. exists s. split; [reflexivity|]. intros p j. apply B.
Qed.
Lemma stage2_left dis mB p : (p < n)%nat -> (rank p < nproc)%nat -> dis (rank p) = false -> Z.of_nat p mod ax_n ax = 0 ->
  let m := snd (st dis mB) in
  (forall j, row_in p j -> m (ce 0 p (lp - 1) j) = mB (ce 0 p 0 j)) /\
  (forall j, row_in p j -> m (ce 2 p (lp - 1) j) =
     bz2 A K cl dx dt (want_y2 p j) (mE (ce 1 p 0 j)) (mB (ce 2 p 0 j)) (mB (ce 2 p (-1) j)) (mE (ce 1 p lp j)) (mJ (ce 1 p lp j)) (mB (ce 2 p lp j))) /\
  (forall j, row_in p j -> m (ce 1 p (lp - 1) j) =
     by_at A K cl dx dy dt (want_z2 p j) (mE (ce 2 p 0 j)) (mB (ce 1 p 0 j)) (mB (ce 1 p (-1) j)) (mE (ce 2 p lp j)) (mB (ce 0 p lp j)) (mB (ce 0 p lp (j - 1))) (mJ (ce 2 p lp j)) (mB (ce 1 p lp j))) /\
  (forall g o, (forall f j, (f < 3)%nat -> row_in p j -> Fld g p o <> ce f p (lp - 1) j) -> m (Fld g p o) = mB (Fld g p o)).
Proof using Hpa HL Hg Hx Hy Hth Hlp HP HR HC Hm.
  intros Hp Hr Hd Hl. cbv zeta. destruct (stage2_is dis mB) as (_ & S2 & _). specialize (S2 p Hp Hr). rewrite (running_off _ _ HP HR), Hd in S2.
  unfold at_patch in S2. rewrite (proj2 (left2_ok p) Hl) in S2. destruct src2_is as (s & Es & Vs). rewrite Es in S2. unfold update_bfields_2d in S2. cbv zeta in S2.
  assert (J0 : 0 <= row_start K (pmls p)) by (unfold row_start; destruct (has_side PYmin (pmls p)); lia).
  assert (J1 : row_end K ny (pmls p) <= ny) by (unfold row_end; destruct (has_side PYmax (pmls p)); lia).
  assert (L1 : 2 <= laserpos K < nx + ng) by (unfold laserpos; lia).
  match type of S2 with agree p _ (inject_2d _ _ _ _ _ _ _ _ _ _ _ ?es ?ez _ _ _ _ _) => destruct (inject_2d_at A K cl nx ny ng dx dy Hg Hx Hy (laserpos K) (row_start K (pmls p)) (row_end K ny (pmls p)) L1 J0 J1 es ez dt mE mJ mB p) as (I1 & I2 & I3 & I4) end.
  fold (laserpos K). split; [|split; [|split]].
  - intros j Hj. apply (row_in_ok p j Hp) in Hj as [Hj _]. unfold cell. rewrite (S2 _ _). apply I1. exact Hj.
  - intros j Hj. apply (row_in_ok p j Hp) in Hj as [Hj _]. unfold cell at 1. rewrite (S2 _ _). fold (cell [nx; ny] ng 2 p [laserpos K - 1; j]). rewrite I2 by exact Hj. cbv beta. rewrite Vs. reflexivity.
  - intros j Hj. apply (row_in_ok p j Hp) in Hj as [Hj _]. unfold cell at 1. rewrite (S2 _ _). fold (cell [nx; ny] ng 1 p [laserpos K - 1; j]). rewrite I3 by exact Hj. cbv beta. rewrite Vs. reflexivity.
  - intros g o Ha. rewrite (S2 _ _). apply I4. intros f j Hf Hj. apply Ha; auto. apply row_in_ok; auto. split; [exact Hj|]. clear - Hj J0 J1. lia.
Qed.
(** nothing else is touched *)
Lemma stage2_frame dis mB a : (forall p f j, (p < n)%nat -> Z.of_nat p mod ax_n ax = 0 -> (f < 3)%nat -> row_in p j -> a <> ce f p (lp - 1) j) -> snd (st dis mB) a = mB a.
Proof using Hpa HL Hg Hx Hy Hth Hlp HP HR HC Hm.
  intro Ha. pose proof (stage2_is dis mB) as (_ & S2 & S3).
  assert (D : (exists p f o, ((p < n)%nat /\ (rank p < nproc)%nat) /\ a = Fld f p o) \/ (forall p, (p < n)%nat -> (rank p < nproc)%nat -> elsewhere p a)).
  { destruct a as [f p o| |]; [|right; intros p' _ _ f' o'; discriminate|right; intros p' _ _ f' o'; discriminate].
    destruct (le_lt_dec n p) as [L|L]; [right; intros p' Hp _ f' o' E; injection E; intros; subst; apply (Nat.lt_irrefl n); eapply Nat.le_lt_trans; eauto|].
    destruct (le_lt_dec nproc (rank p)) as [L'|L']; [right; intros p' _ Hp f' o' E; injection E; intros; subst; apply (Nat.lt_irrefl nproc); eapply Nat.le_lt_trans; eauto|left; exists p, f, o; auto]. }
  destruct D as [(p & f & o & (Hp & Hr) & ->)|D]; [|now apply S3].
  destruct (dis (rank p)) eqn:Ed; [specialize (S2 p Hp Hr); rewrite (running_off _ _ HP HR), Ed in S2; apply S2|].
  destruct (Z.eq_dec (Z.of_nat p mod ax_n ax) 0) as [E|E].
  - apply (stage2_left dis mB p Hp Hr Ed E). intros g j Hf Hj. now apply Ha.
  - specialize (S2 p Hp Hr). rewrite (running_off _ _ HP HR), Ed in S2. unfold at_patch in S2. destruct (left2 ax p) eqn:L; [apply left2_ok in L; contradiction|apply S2].
Qed.
(** the injection condition *)
Variables (inv : V -> V).
Hypothesis Fth : field_theory zero (one_ K) (plus_ A) (times_ A) (minus_ A) (minus1_ A) (over_ A) inv (@eq V).
Hypothesis Hhalf : plus_ A (half_ K) (half_ K) = one_ K.
Hypothesis Htwo : ofZ_ K 2 = plus_ A (one_ K) (one_ K).
Hypothesis Hfour : ofZ_ K 4 = plus_ A (ofZ_ K 2) (ofZ_ K 2).
Hypothesis Hcsq : csq A = times_ A cl cl.
Hypothesis Heps : eps0 A <> zero.
Hypothesis Hdx : dx <> zero.
Hypothesis Hdy : dy <> zero.
Hypothesis Hcl : cl <> zero.
Hypothesis Hcfl : plus_ A (over_ A (times_ A cl dt) dx) (one_ K) <> zero.
Hypothesis Hfit : thick K + 3 <= nx.
Theorem injected2 dis mB mB2 psi p j :
  let mE' := fst (solver_e2 A K nx ny ng dx dy n pmls (times_ A (half_ K) dt) mB2 mJ (mE, psi)) in
  guards_exchanged bounds2 [nx; ny] ng n (nbr2 ax ay) 3 (snd (st dis mB)) mB2 ->
  (p < n)%nat -> (rank p < nproc)%nat -> dis (rank p) = false -> Z.of_nat p mod ax_n ax = 0 -> 0 <= j < ny -> outside_layers true th (pmls p) [nx; ny] [lp; j] ->
  wave_y A K cl [nx; ny] ng mE' mB2 p [lp; j] = plus_ A (times_ A (ofZ_ K 2) (want_y2 p j)) (wave_y A K cl [nx; ny] ng mE mB p [0; j]) /\
  (0 < j \/ mB2 (ce 0 p lp (j - 1)) = mB (ce 0 p lp (j - 1)) ->
   wave_z A K cl [nx; ny] ng mE' mB2 p [lp; j] = plus_ A (times_ A (ofZ_ K 2) (want_z2 p j)) (wave_z A K cl [nx; ny] ng mE mB p [0; j])).
Proof using Hpa Nx Ny HL Hg Hx Hy Hth Hlp HP HR HC Hm Fth Hhalf Htwo Hfour Hcsq Heps Hdx Hdy Hcl Hcfl Hfit.
  cbv zeta. intros [GX _] Hp Hr Hd Hl Hj Ho. pose proof (geometry2 nx ny ng Hg Hx Hy) as G.
  assert (Hrow : row_in p j). { split; [exact Hj|]. split; intro I; specialize (Ho _ I); unfold outside_layer in Ho; cbn in Ho; lia. }
  destruct (stage2_left dis mB p Hp Hr Hd Hl) as (S0 & S2 & S1 & SF).
  (* inside the patch the exchange changes nothing *)
  assert (X : forall f i j', (f < 3)%nat -> 0 <= i < nx -> 0 <= j' < ny -> mB2 (ce f p i j') = snd (st dis mB) (ce f p i j')).
  { intros f i j' Hf Hi Hj'. rewrite GX; auto; [|repeat constructor; lia]. unfold guard_result. rewrite (facing_interior [nx; ny] ng bounds2 opp2 G (nbr2 ax ay) p); [reflexivity|]. repeat constructor; lia. }
  assert (Y : forall f i j', (f < 3)%nat -> 0 <= i < nx -> 0 <= j' < ny -> i <> lp - 1 -> mB2 (ce f p i j') = mB (ce f p i j')).
  { intros f i j' Hf Hi Hj' Hn. rewrite X by auto. unfold cell at 1. rewrite SF; [reflexivity|]. intros f' j'' Hf' (Hr' & _) E. fold (cell [nx; ny] ng f p [i; j']) in E. apply (ce_inj nx ny ng Hg Hx Hy) in E; lia. }
  assert (E1 : forall f, (f < 3)%nat -> fst (solver_e2 A K nx ny ng dx dy n pmls (times_ A (half_ K) dt) mB2 mJ (mE, psi)) (ce f p lp j) =
     SE2 A dx dy (times_ A (half_ K) dt) f (fun f' d => mB2 (cell [nx; ny] ng f' p (M_Layout.add [lp; j] d))) (fun f' => mJ (ce f' p lp j)) (mE (ce f p lp j))).
  { intros f Hf. assert (Hi : interior [nx; ny] [lp; j]) by (repeat constructor; lia).
    assert (NL : forall p, (p < n)%nat -> NoDup (pmls p)). { intros q Hq. rewrite (layers2_filter ax ay nx ny th pmls Hpa HL q Hq). apply NoDup_filter, sides2_nodup. }
    rewrite (layered_off A K _ _ _ _ _ _ _ _ _ _ _ p f [lp; j] (solver_e2_ok A K zero inv Fth nx ny ng dx dy n pmls NL Hg Hx Hy (times_ A (half_ K) dt) mB2 mJ mE psi) Hth Hp Hf Hi Ho). cbn [fst].
    rewrite (one_KE2 A _ _ _ Fth) by (now apply kappa_outside). reflexivity. }
  unfold wave_y, wave_z, one_left. rewrite !E1 by lia. cbv beta iota delta [SE2]. cbn [M_Layout.add]. rewrite !Z.add_0_r. replace (lp + -1) with (lp - 1) by lia. replace (j + -1) with (j - 1) by lia. replace (0 - 1) with (-1) by reflexivity.
  rewrite !(X _ (lp - 1) j), !(Y _ lp j), S1, S2 by (try exact Hrow; lia). split.
  - apply (wave_bz2 A K cl zero inv Fth Hhalf Htwo Hfour Hcsq Heps dx dt Hdx Hcl Hcfl).
  - intro Hbx. assert (Eb : mB2 (ce 0 p lp (j - 1)) = mB (ce 0 p lp (j - 1))). { destruct Hbx as [Hp0|Eb]; [apply Y; lia|exact Eb]. } rewrite Eb.
    apply (wave_by A K cl zero inv Fth Hhalf Htwo Hfour Hcsq Heps dx dt Hdx Hcl Hcfl dy). exact Hdy.
Qed.
End Two.
