(** The laser stage in three dimensions. *)
From Coq Require Import QArith Field_theory Field.
From Verif Require Import Base M_Layout S_Layout M_PartSync S_PartSync M_FieldSync S_FieldSync M_Maxwell S_Maxwell M_Cpml S_Cpml M_Deposit M_Push M_Laser S_Laser.
From Verif Require Import P_Layout P_PartSync P_PartSync2 P_PartSync3 P_Threads P_FieldGeo P_FieldPar P_FieldSync P_FieldSync2 P_FieldSync3 P_FieldSync4 P_FieldSync5 P_AutoPatch P_Maxwell P_Maxwell2 P_Maxwell3 P_Cpml P_Cpml2 P_Cpml3 P_Cpml4 P_Cpml5 P_Laser P_Laser2 P_Laser3 P_Laser4.
Local Open Scope list_scope.
Local Open Scope Z_scope.

Definition left3 (ax : axis) (p : nat) : bool := Z.of_nat p mod ax_n ax =? 0.
Section Three.
Context {V : Type} (A : arith V) (K : layer V) (cl zero : V).
Variables (ax ay az : axis) (nx ny nz ng : Z) (dx dy dz : V) (qdy qdz : Q) (pmls : nat -> list pml_side).
Variables (nproc : nat) (rank : nat -> nat) (l : laser (V := V)) (time : Q) (dt : V) (mE mJ : memory V).
Local Notation n := (npatch3 ax ay az).
Local Notation st dis mB := (laser_stage_3d A K cl ax ay az nx ny nz ng dx dy dz qdy qdz pmls nproc rank l time dt mE mJ (dis, mB)).
Local Notation ce f p i j k := (cell [nx; ny; nz] ng f p [i; j; k]).
Definition src3 := sources3 A ay az ny nz qdy qdz l time.
Local Notation off3 := (off (left3 ax) pmls (tstop_of l) time).
Lemma stage3_is dis mB :
  (forall r, fst (st dis mB) r = if (r <? nproc)%nat then off3 (mine n rank r) (dis r) else dis r) /\
  (forall p, (p < n)%nat -> (rank p < nproc)%nat -> agree p (snd (st dis mB)) (if off3 (mine n rank (rank p)) (dis (rank p)) then mB else at_patch (left3 ax) src3 (update_bfields_3d A K cl ax ay nx ny nz ng dx dy dz qdy qdz pmls dt mE mJ) mB p)) /\
  (forall a, (forall p, (p < n)%nat -> (rank p < nproc)%nat -> elsewhere p a) -> snd (st dis mB) a = mB a).
Proof.
  apply stage_is.
  - intros s m m' p H. apply inject_3d_in. exact H.
  - intros s m p a H. apply inject_3d_out. exact H.
Qed.
Hypothesis Hpa : paired [ax; ay; az].
Hypothesis Nx : 1 <= ax_n ax.
Hypothesis Ny : 1 <= ax_n ay.
Hypothesis Nz : 1 <= ax_n az.
Hypothesis HL : layers3 ax ay az nx ny (thick K) pmls.
Lemma left3_ok p : left3 ax p = true <-> Z.of_nat p mod ax_n ax = 0.
Proof using. clear. unfold left3. apply Z.eqb_eq. Qed.
Lemma xmin_in p : (p < n)%nat -> In PXmin (pmls p) <-> ax_lo ax = Pml /\ Z.of_nat p mod ax_n ax = 0.
Proof using Hpa HL.
  intro Hp. rewrite (layers3_filter ax ay az nx ny (thick K) pmls Hpa HL p Hp), filter_In. clear. unfold present, sides3. cbn.
  rewrite andb_true_iff, Z.eqb_eq. unfold opens, open_. cbn. rewrite bc_eqb_eq. tauto.
Qed.
Lemma ymin_in p : (p < n)%nat -> In PYmin (pmls p) <-> ax_lo ay = Pml /\ Z.of_nat p / ax_n ax mod ax_n ay = 0.
Proof using Hpa HL.
  intro Hp. rewrite (layers3_filter ax ay az nx ny (thick K) pmls Hpa HL p Hp), filter_In. clear. unfold present, sides3. cbn.
  rewrite andb_true_iff, Z.eqb_eq. unfold opens, open_. cbn. rewrite bc_eqb_eq. tauto.
Qed.
Lemma ymax_in p : (p < n)%nat -> In PYmax (pmls p) <-> ax_lo ay = Pml /\ Z.of_nat p / ax_n ax mod ax_n ay = ax_n ay - 1.
Proof using Hpa HL.
  intro Hp. rewrite (layers3_filter ax ay az nx ny (thick K) pmls Hpa HL p Hp), filter_In. clear. unfold present, sides3. cbn.
  rewrite andb_true_iff, Z.eqb_eq. unfold opens, open_. cbn. rewrite bc_eqb_eq. tauto.
Qed.
Lemma zmin_in p : (p < n)%nat -> In PZmin (pmls p) <-> ax_lo az = Pml /\ Z.of_nat p / ax_n ax / ax_n ay = 0.
Proof using Hpa HL.
  intro Hp. rewrite (layers3_filter ax ay az nx ny (thick K) pmls Hpa HL p Hp), filter_In. clear. unfold present, sides3. cbn.
  rewrite andb_true_iff, Z.eqb_eq. unfold opens, open_. cbn. rewrite bc_eqb_eq. tauto.
Qed.
Lemma zmax_in p : (p < n)%nat -> In PZmax (pmls p) <-> ax_lo az = Pml /\ Z.of_nat p / ax_n ax / ax_n ay = ax_n az - 1.
Proof using Hpa HL.
  intro Hp. rewrite (layers3_filter ax ay az nx ny (thick K) pmls Hpa HL p Hp), filter_In. clear. unfold present, sides3. cbn.
  rewrite andb_true_iff, Z.eqb_eq. unfold opens, open_. cbn. rewrite bc_eqb_eq. tauto.
Qed.
Lemma running_off r d : ax_lo ax = Pml -> running time l -> off3 (mine n rank r) d = d.
Proof using Hpa HL.
  intros HP HR. unfold off. rewrite (proj1 (running_stop time l) HR). rewrite count_enough; [now rewrite !orb_false_r|].
  intros p I. apply filter_In in I as [I L]. apply mine_in in I as [I _]. apply xmin_in; auto. split; auto. now apply left3_ok.
Qed.
Lemma no_layer_off r d p : ax_lo ax <> Pml -> (p < n)%nat -> Z.of_nat p mod ax_n ax = 0 -> rank p = r -> off3 (mine n rank r) d = true.
Proof using Hpa HL.
  intros HP Hp Hl Hr. unfold off. rewrite count_none; [|intros q I X; apply filter_In in I as [I _]; apply mine_in in I as [I _]; apply xmin_in in X; tauto].
  assert (In p (filter (left3 ax) (mine n rank r))) as I by (apply filter_In; split; [apply mine_in; auto|now apply left3_ok]).
  destruct (filter (left3 ax) (mine n rank r)); [contradiction|]. cbn. apply orb_true_r.
Qed.
(** without a layer on the left nothing is injected *)
Lemma no_layer3 dis mB a : ax_lo ax <> Pml -> (forall p, (p < n)%nat -> (rank p < nproc)%nat) -> snd (st dis mB) a = mB a.
Proof using Hpa HL.
  intros HP HR. destruct (stage3_is dis mB) as (_ & S2 & S3).
  assert (D : (exists p f o, (p < n)%nat /\ a = Fld f p o) \/ (forall p, (p < n)%nat -> (rank p < nproc)%nat -> elsewhere p a)).
  { destruct a as [f p o| |]; [|right; intros p' _ _ f' o'; discriminate|right; intros p' _ _ f' o'; discriminate].
    destruct (le_lt_dec n p) as [L|L]; [right; intros p' Hp _ f' o' E; injection E; lia|left; exists p, f, o; auto]. }
  destruct D as [(p & f & o & Hp & ->)|D]; [|now apply S3]. rewrite (S2 p Hp (HR p Hp)). destruct (Z.eq_dec (Z.of_nat p mod ax_n ax) 0) as [E|E].
  - rewrite (no_layer_off (rank p) _ p); auto.
  - unfold at_patch. destruct (left3 ax p) eqn:L; [apply left3_ok in L; contradiction|]. now destruct (off3 _ _).
Qed.

Hypothesis Hg : 0 < ng.
Hypothesis Hx : ng <= nx.
Hypothesis Hy : ng <= ny.
Hypothesis Hz : ng <= nz.
Local Notation th := (thick K).
Local Notation lp := (thick K + 2).
Hypothesis Hth : 0 <= thick K.
Hypothesis Hlp : thick K + 2 < nx + ng.
Hypothesis HP : ax_lo ax = Pml.
Hypothesis HR : running time l.
Hypothesis HC : centred l.
Hypothesis Hm : monoid zero (plus_ A).
Definition want_y3 (p : nat) (j k : Z) : V := requested_y A zero (inject_Z (ax_n ay * ny) * qdy) (inject_Z (ax_n az * nz) * qdz) qdy qdz true time l
  (inject_Z (Z.of_nat p / ax_n ax mod ax_n ay * ny + j) * qdy) (inject_Z (Z.of_nat p / ax_n ax / ax_n ay * nz + k) * qdz).
Definition want_z3 (p : nat) (j k : Z) : V := requested_z A zero (inject_Z (ax_n ay * ny) * qdy) (inject_Z (ax_n az * nz) * qdz) qdy qdz true time l
  (inject_Z (Z.of_nat p / ax_n ax mod ax_n ay * ny + j) * qdy) (inject_Z (Z.of_nat p / ax_n ax / ax_n ay * nz + k) * qdz).
(** rows outside the layers across y; columns outside the layers across z *)
Definition row_in (p : nat) (j : Z) : Prop := 0 <= j < ny /\ (In PYmin (pmls p) -> th <= j) /\ (In PYmax (pmls p) -> j < ny - th).
Definition col_in (p : nat) (k : Z) : Prop := 0 <= k < nz /\ (In PZmin (pmls p) -> th <= k) /\ (In PZmax (pmls p) -> k < nz - th).
Lemma row_in_ok p j : (p < n)%nat -> row_in p j <-> row_start K (pmls p) <= j < row_end K ny (pmls p) /\ 0 <= j < ny.
Proof using.
  intro Hp. unfold row_in, row_start, row_end. destruct (has_side PYmin (pmls p)) eqn:E1; destruct (has_side PYmax (pmls p)) eqn:E2.
  all: assert (X1 := has_side_in PYmin (pmls p)); assert (X2 := has_side_in PYmax (pmls p)); rewrite E1 in X1; rewrite E2 in X2; clear E1 E2.
  all: destruct X1 as [X1 X1']; destruct X2 as [X2 X2']; clear - X1 X1' X2 X2'.
  all: repeat match goal with H : true = true -> _ |- _ => specialize (H eq_refl) | H : In _ _ -> false = true |- _ => assert (~ In PYmin (pmls p)) by (intro I; discriminate (H I)); clear H || assert (~ In PYmax (pmls p)) by (intro I; discriminate (H I)); clear H end.
  all: split; intros; repeat split; try tauto; try lia.
Qed.

Lemma col_in_ok p j : (p < n)%nat -> col_in p j <-> col_start K (pmls p) <= j < col_end K nz (pmls p) /\ 0 <= j < nz.
Proof using.
  intro Hp. unfold col_in, col_start, col_end. destruct (has_side PZmin (pmls p)) eqn:E1; destruct (has_side PZmax (pmls p)) eqn:E2.
  all: assert (X1 := has_side_in PZmin (pmls p)); assert (X2 := has_side_in PZmax (pmls p)); rewrite E1 in X1; rewrite E2 in X2; clear E1 E2.
  all: destruct X1 as [X1 X1']; destruct X2 as [X2 X2']; clear - X1 X1' X2 X2'.
  all: repeat match goal with H : true = true -> _ |- _ => specialize (H eq_refl) | H : In _ _ -> false = true |- _ => assert (~ In PZmin (pmls p)) by (intro I; discriminate (H I)); clear H || assert (~ In PZmax (pmls p)) by (intro I; discriminate (H I)); clear H end.
  all: split; intros; repeat split; try tauto; try lia.
Qed.

Lemma src3_is : exists s, src3 = Some s /\ forall p j k, s (inject_Z (Z.of_nat p / ax_n ax mod ax_n ay * ny + j) * qdy)%Q (inject_Z (Z.of_nat p / ax_n ax / ax_n ay * nz + k) * qdz)%Q = (want_y3 p j k, want_z3 p j k).
Proof using HR HC Hm.
  unfold src3, sources3. pose proof (bound_is A zero Hm (inject_Z (ax_n ay * ny) * qdy) (inject_Z (ax_n az * nz) * qdz) qdy qdz true time l HC) as B.
  pose proof (proj1 (running_none A (inject_Z (ax_n ay * ny) * qdy) (inject_Z (ax_n az * nz) * qdz) qdy qdz true time l) HR) as N.
  destruct (bound_fields A _ _ qdy qdz true time l) as [s|]; [|congruence]. exists s. split; [reflexivity|]. intros p j k. apply B.
Qed.
Lemma stage3_left dis mB p : (p < n)%nat -> (rank p < nproc)%nat -> dis (rank p) = false -> Z.of_nat p mod ax_n ax = 0 ->
  let m := snd (st dis mB) in
  (forall j k, row_in p j -> - ng <= k < nz + ng -> m (ce 0 p (lp - 1) j k) = mB (ce 0 p 0 j k)) /\
  (forall j k, row_in p j -> col_in p k -> m (ce 2 p (lp - 1) j k) =
     bz3 A K cl dx dz dt (want_y3 p j k) (mE (ce 1 p 0 j k)) (mB (ce 2 p 0 j k)) (mB (ce 2 p (-1) j k)) (mE (ce 1 p lp j k)) (mB (ce 0 p lp j k)) (mB (ce 0 p lp j (k - 1))) (mJ (ce 1 p lp j k)) (mB (ce 2 p lp j k))) /\
  (forall j k, row_in p j -> col_in p k -> m (ce 1 p (lp - 1) j k) =
     by_at A K cl dx dy dt (want_z3 p j k) (mE (ce 2 p 0 j k)) (mB (ce 1 p 0 j k)) (mB (ce 1 p (-1) j k)) (mE (ce 2 p lp j k)) (mB (ce 0 p lp j k)) (mB (ce 0 p lp (j - 1) k)) (mJ (ce 2 p lp j k)) (mB (ce 1 p lp j k))) /\
  (forall g o, (forall f j k, (f < 3)%nat -> row_in p j -> - ng <= k < nz + ng -> f = 0%nat \/ col_in p k -> Fld g p o <> ce f p (lp - 1) j k) -> m (Fld g p o) = mB (Fld g p o)).
Proof using Hpa HL Hg Hx Hy Hz Hth Hlp HP HR HC Hm.
  intros Hp Hr Hd Hl. cbv zeta. destruct (stage3_is dis mB) as (_ & S2 & _). specialize (S2 p Hp Hr). rewrite (running_off _ _ HP HR), Hd in S2.
  unfold at_patch in S2. rewrite (proj2 (left3_ok p) Hl) in S2. destruct src3_is as (s & Es & Vs). rewrite Es in S2. unfold update_bfields_3d in S2. cbv zeta in S2.
  assert (J0 : 0 <= row_start K (pmls p)) by (unfold row_start; destruct (has_side PYmin (pmls p)); lia).
  assert (J1 : row_end K ny (pmls p) <= ny) by (unfold row_end; destruct (has_side PYmax (pmls p)); lia).
  assert (K0 : 0 <= col_start K (pmls p)) by (unfold col_start; destruct (has_side PZmin (pmls p)); lia).
  assert (K1 : col_end K nz (pmls p) <= nz) by (unfold col_end; destruct (has_side PZmax (pmls p)); lia).
  assert (L1 : 2 <= laserpos K < nx + ng) by (unfold laserpos; lia).
  match type of S2 with agree p _ (inject_3d _ _ _ _ _ _ _ _ _ _ _ _ _ _ _ ?es ?ez _ _ _ _ _) =>
    destruct (inject_3d_at A K cl nx ny nz ng dx dy dz Hg Hx Hy Hz (laserpos K) (row_start K (pmls p)) (row_end K ny (pmls p)) (col_start K (pmls p)) (col_end K nz (pmls p)) L1 J0 J1 K0 K1 es ez dt mE mJ mB p) as (I1 & I2 & I3 & I4) end.
  fold (laserpos K). split; [|split; [|split]].
  - intros j k Hj Hk. apply (row_in_ok p j Hp) in Hj as [Hj _]. unfold cell. rewrite (S2 _ _). apply I1; [exact Hj|exact Hk].
  - intros j k Hj Hk. apply (row_in_ok p j Hp) in Hj as [Hj _]. apply (col_in_ok p k Hp) in Hk as [Hk _]. unfold cell at 1. rewrite (S2 _ _). fold (cell [nx; ny; nz] ng 2 p [laserpos K - 1; j; k]). rewrite I2 by assumption. cbv beta. rewrite Vs. reflexivity.
  - intros j k Hj Hk. apply (row_in_ok p j Hp) in Hj as [Hj _]. apply (col_in_ok p k Hp) in Hk as [Hk _]. unfold cell at 1. rewrite (S2 _ _). fold (cell [nx; ny; nz] ng 1 p [laserpos K - 1; j; k]). rewrite I3 by assumption. cbv beta. rewrite Vs. reflexivity.
  - intros g o Ha. rewrite (S2 _ _). apply I4. intros f j k Hf Hj Hk Hc. apply Ha; auto; [apply row_in_ok; auto; split; [exact Hj|]; clear - Hj J0 J1; lia|]. destruct Hc as [Hc|Hc]; [now left|right]. apply col_in_ok; auto. split; [exact Hc|]. clear - Hc K0 K1. lia.
Qed.
(** nothing else is touched *)
Lemma stage3_frame dis mB a : (forall p f j k, (p < n)%nat -> Z.of_nat p mod ax_n ax = 0 -> (f < 3)%nat -> row_in p j -> - ng <= k < nz + ng -> f = 0%nat \/ col_in p k -> a <> ce f p (lp - 1) j k) -> snd (st dis mB) a = mB a.
Proof using Hpa HL Hg Hx Hy Hz Hth Hlp HP HR HC Hm.
  intro Ha. pose proof (stage3_is dis mB) as (_ & S2 & S3).
  assert (D : (exists p f o, ((p < n)%nat /\ (rank p < nproc)%nat) /\ a = Fld f p o) \/ (forall p, (p < n)%nat -> (rank p < nproc)%nat -> elsewhere p a)).
  { destruct a as [f p o| |]; [|right; intros p' _ _ f' o'; discriminate|right; intros p' _ _ f' o'; discriminate].
    destruct (le_lt_dec n p) as [L|L]; [right; intros p' Hp _ f' o' E; injection E; intros; subst; apply (Nat.lt_irrefl n); eapply Nat.le_lt_trans; eauto|].
    destruct (le_lt_dec nproc (rank p)) as [L'|L']; [right; intros p' _ Hp f' o' E; injection E; intros; subst; apply (Nat.lt_irrefl nproc); eapply Nat.le_lt_trans; eauto|left; exists p, f, o; auto]. }
  destruct D as [(p & f & o & (Hp & Hr) & ->)|D]; [|now apply S3].
  destruct (dis (rank p)) eqn:Ed; [specialize (S2 p Hp Hr); rewrite (running_off _ _ HP HR), Ed in S2; apply S2|].
  destruct (Z.eq_dec (Z.of_nat p mod ax_n ax) 0) as [E|E].
  - apply (stage3_left dis mB p Hp Hr Ed E). intros g j k Hf Hj Hk Hc. now apply Ha.
  - specialize (S2 p Hp Hr). rewrite (running_off _ _ HP HR), Ed in S2. unfold at_patch in S2. destruct (left3 ax p) eqn:L; [apply left3_ok in L; contradiction|apply S2].
Qed.
(** the injection condition *)
Variables (inv : V -> V).
Hypothesis Fth : field_theory zero (one_ K) (plus_ A) (times_ A) (minus_ A) (minus1_ A) (over_ A) inv (@eq V).
Hypothesis Hhalf : plus_ A (half_ K) (half_ K) = one_ K.
Hypothesis Htwo : ofZ_ K 2 = plus_ A (one_ K) (one_ K).
Hypothesis Hfour : ofZ_ K 4 = plus_ A (ofZ_ K 2) (ofZ_ K 2).
Hypothesis Hcsq : csq A = times_ A cl cl.
Hypothesis Heps : eps0 A <> zero.
Hypothesis Hdx : dx <> zero.
Hypothesis Hdy : dy <> zero.
Hypothesis Hdz : dz <> zero.
Hypothesis Hcl : cl <> zero.
Hypothesis Hcfl : plus_ A (over_ A (times_ A cl dt) dx) (one_ K) <> zero.
Hypothesis Hfit : thick K + 3 <= nx.
Theorem injected3 dis mB mB2 psi p j k :
  let mE' := fst (solver_e3 A K nx ny nz ng dx dy dz n pmls (times_ A (half_ K) dt) mB2 mJ (mE, psi)) in
  guards_exchanged bounds3 [nx; ny; nz] ng n (nbr3 ax ay az) 3 (snd (st dis mB)) mB2 ->
  (p < n)%nat -> (rank p < nproc)%nat -> dis (rank p) = false -> Z.of_nat p mod ax_n ax = 0 -> 0 <= j < ny -> 0 <= k < nz -> outside_layers true th (pmls p) [nx; ny; nz] [lp; j; k] ->
  (0 < k \/ mB2 (ce 0 p lp j (k - 1)) = mB (ce 0 p lp j (k - 1)) ->
   wave_y A K cl [nx; ny; nz] ng mE' mB2 p [lp; j; k] = plus_ A (times_ A (ofZ_ K 2) (want_y3 p j k)) (wave_y A K cl [nx; ny; nz] ng mE mB p [0; j; k])) /\
  (0 < j \/ mB2 (ce 0 p lp (j - 1) k) = mB (ce 0 p lp (j - 1) k) ->
   wave_z A K cl [nx; ny; nz] ng mE' mB2 p [lp; j; k] = plus_ A (times_ A (ofZ_ K 2) (want_z3 p j k)) (wave_z A K cl [nx; ny; nz] ng mE mB p [0; j; k])).
Proof using Hpa Nx Ny Nz HL Hg Hx Hy Hz Hth Hlp HP HR HC Hm Fth Hhalf Htwo Hfour Hcsq Heps Hdx Hdy Hdz Hcl Hcfl Hfit.
  cbv zeta. intros [GX _] Hp Hr Hd Hl Hj Hk Ho. pose proof (geometry3 nx ny nz ng Hg Hx Hy Hz) as G.
  assert (Hrow : row_in p j). { split; [exact Hj|]. split; intro I; specialize (Ho _ I); unfold outside_layer in Ho; cbn in Ho; lia. }
  assert (Hcol : col_in p k). { split; [exact Hk|]. split; intro I; specialize (Ho _ I); unfold outside_layer in Ho; cbn in Ho; lia. }
  destruct (stage3_left dis mB p Hp Hr Hd Hl) as (S0 & S2 & S1 & SF).
  assert (X : forall f i j' k', (f < 3)%nat -> 0 <= i < nx -> 0 <= j' < ny -> 0 <= k' < nz -> mB2 (ce f p i j' k') = snd (st dis mB) (ce f p i j' k')).
  { intros f i j' k' Hf Hi Hj' Hk'. rewrite GX; auto; [|repeat constructor; lia]. unfold guard_result. rewrite (facing_interior [nx; ny; nz] ng bounds3 opp3 G (nbr3 ax ay az) p); [reflexivity|]. repeat constructor; lia. }
  assert (Y : forall f i j' k', (f < 3)%nat -> 0 <= i < nx -> 0 <= j' < ny -> 0 <= k' < nz -> i <> lp - 1 -> mB2 (ce f p i j' k') = mB (ce f p i j' k')).
  { intros f i j' k' Hf Hi Hj' Hk' Hn. rewrite X by auto. unfold cell at 1. rewrite SF; [reflexivity|]. intros f' j'' k'' Hf' (Hr' & _) Hk'' _ E. fold (cell [nx; ny; nz] ng f p [i; j'; k']) in E. apply (ce3_inj nx ny nz ng Hg Hx Hy Hz) in E; lia. }
  assert (E1 : forall f, (f < 3)%nat -> fst (solver_e3 A K nx ny nz ng dx dy dz n pmls (times_ A (half_ K) dt) mB2 mJ (mE, psi)) (ce f p lp j k) =
     SE3 A dx dy dz (times_ A (half_ K) dt) f (fun f' d => mB2 (cell [nx; ny; nz] ng f' p (M_Layout.add [lp; j; k] d))) (fun f' => mJ (ce f' p lp j k)) (mE (ce f p lp j k))).
  { intros f Hf. assert (Hi : interior [nx; ny; nz] [lp; j; k]) by (repeat constructor; lia).
    assert (NL : forall p, (p < n)%nat -> NoDup (pmls p)). { intros q Hq. rewrite (layers3_filter ax ay az nx ny th pmls Hpa HL q Hq). apply NoDup_filter, sides3_nodup. }
    rewrite (layered_off A K _ _ _ _ _ _ _ _ _ _ _ p f [lp; j; k] (solver_e3_ok A K zero inv Fth nx ny nz ng dx dy dz n pmls NL Hg Hx Hy Hz (times_ A (half_ K) dt) mB2 mJ mE psi) Hth Hp Hf Hi Ho). cbn [fst].
    rewrite (one_KE3 A _ _ _ Fth) by (now apply kappa_outside). reflexivity. }
  unfold wave_y, wave_z, one_left. rewrite !E1 by lia. cbv beta iota delta [SE3]. cbn [M_Layout.add]. rewrite !Z.add_0_r. replace (lp + -1) with (lp - 1) by lia. replace (j + -1) with (j - 1) by lia. replace (k + -1) with (k - 1) by lia. replace (0 - 1) with (-1) by reflexivity.
  rewrite !(X _ (lp - 1) j k), !(Y _ lp j k), S1, S2 by (try exact Hrow; try exact Hcol; lia). split.
  - intro Hbx. assert (Eb : mB2 (ce 0 p lp j (k - 1)) = mB (ce 0 p lp j (k - 1))). { destruct Hbx as [Hp0|Eb]; [apply Y; lia|exact Eb]. } rewrite Eb.
    apply (wave_bz3 A K cl zero inv Fth Hhalf Htwo Hfour Hcsq Heps dx dt Hdx Hcl Hcfl dz). exact Hdz.
  - intro Hbx. assert (Eb : mB2 (ce 0 p lp (j - 1) k) = mB (ce 0 p lp (j - 1) k)). { destruct Hbx as [Hp0|Eb]; [apply Y; lia|exact Eb]. } rewrite Eb.
    apply (wave_by A K cl zero inv Fth Hhalf Htwo Hfour Hcsq Heps dx dt Hdx Hcl Hcfl dy). exact Hdy.
Qed.
End Three.
