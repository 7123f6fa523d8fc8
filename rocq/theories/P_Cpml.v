(** What the updates of absorbing layers do to the memory, cell by cell. *)
From Verif Require Import Base M_Layout S_Layout M_PartSync S_PartSync M_FieldSync S_FieldSync M_Maxwell S_Maxwell M_Cpml S_Cpml.
From Verif Require Import P_Layout P_PartSync P_PartSync2 P_PartSync3 P_Threads P_FieldGeo P_FieldPar P_FieldSync P_FieldSync2 P_FieldSync3 P_FieldSync4 P_FieldSync5 P_Maxwell P_Maxwell2.
Local Open Scope Z_scope.

Lemma side_eqb_eq s t : side_eqb s t = true <-> s = t.
Proof. split; [|intros ->; now destruct t]. destruct s, t; cbn; congruence. Qed.
Lemma side_eqb_refl s : side_eqb s s = true. Proof. now destruct s. Qed.
Lemma side_eqb_neq s t : s <> t -> side_eqb s t = false.
Proof. destruct (side_eqb s t) eqn:E; [|reflexivity]. apply side_eqb_eq in E. contradiction. Qed.

Section Layers.
Context {V : Type} (A : arith V) (K : layer V).
Local Notation "x +. y" := (plus_ A x y) (at level 50, left associativity).
Local Notation "x -. y" := (minus_ A x y) (at level 50, left associativity).
Local Notation "x *. y" := (times_ A x y) (at level 40, left associativity).
Local Notation "x /. y" := (over_ A x y) (at level 40, left associativity).
Variables (ns : list Z) (ng : Z) (ds : list V).
Hypothesis Hinj : forall f p c f' p' c', interior ns c -> interior ns c' -> cell ns ng f p c = cell ns ng f' p' c' -> f = f' /\ p = p' /\ c = c'.
Hypothesis Hpinj : forall f p c f' p' c', interior ns c -> interior ns c' -> pcell ns f p c = pcell ns f' p' c' -> f = f' /\ p = p' /\ c = c'.

Definition np (e : bool) (s : pml_side) (dt : V) (mO : memory V) (p f : nat) (c : list Z) (v : V) : V :=
  match psi_of e (axis_of s) f with Some (o, _) => new_psi A K ns ng ds e s dt mO o p c v | None => v end.
Definition gn (e : bool) (s : pml_side) (dt : V) (f : nat) (x v : V) : V :=
  match psi_of e (axis_of s) f with Some (_, true) => v +. fac_ A e dt *. x | Some (_, false) => v -. fac_ A e dt *. x | None => v end.
Definition npsi (e : bool) (s : pml_side) (dt : V) (mO : memory V) (p f : nat) (c : list Z) (v : V) : V :=
  if in_layer_ K ns e s c then np e s dt mO p f c v else v.
Definition gain (e : bool) (s : pml_side) (dt : V) (f : nat) (c : list Z) (x v : V) : V :=
  if in_layer_ K ns e s c then gn e s dt f x v else v.

Lemma visit_layer e s dt mO p m q c : exists m' q', advance_cell A K ns ng ds e s dt mO p (m, q) c = (m', q') /\
  (forall f, (f < 3)%nat -> q' (pcell ns f p c) = np e s dt mO p f c (q (pcell ns f p c))) /\
  (forall a, (forall f, (f < 3)%nat -> a <> pcell ns f p c) -> q' a = q a) /\
  (forall f, (f < 3)%nat -> m' (cell ns ng f p c) = gn e s dt f (np e s dt mO p f c (q (pcell ns f p c))) (m (cell ns ng f p c))) /\
  (forall a, (forall f, (f < 3)%nat -> a <> cell ns ng f p c) -> m' a = m a).
Proof using.
  clear Hinj Hpinj. unfold advance_cell. do 2 eexists. split; [reflexivity|]. change (cell ns ng) with (cell_ ns ng). unfold np, gn.
  assert (P : forall f f', f <> f' -> pcell ns f p c <> pcell ns f' p c) by (unfold pcell; congruence).
  assert (C : forall f f', f <> f' -> cell_ ns ng f p c <> cell_ ns ng f' p c) by (unfold cell_; congruence).
  destruct e, s; cbn [axis_of psi_of psi_e psi_b fold_left];
    (split; [intros f Hf; destruct f as [|[|[|f]]]; [| | |lia]; repeat first [rewrite put_eq | rewrite put_neq by (apply P; discriminate)]; reflexivity|]);
    (split; [intros a Ha; rewrite !put_neq by (apply Ha; lia); reflexivity|]);
    (split; [intros f Hf; destruct f as [|[|[|f]]]; [| | |lia];
             repeat first [rewrite put_eq | rewrite put_neq by first [apply P; discriminate|apply C; discriminate]]; reflexivity|]);
    (intros a Ha; rewrite !put_neq by (apply Ha; lia); reflexivity).
Qed.
Lemma loop_layer e s dt mO p : forall cs m q, NoDup cs -> (forall c, In c cs -> interior ns c) ->
  exists m' q', fold_left (advance_cell A K ns ng ds e s dt mO p) cs (m, q) = (m', q') /\
  (forall f c, (f < 3)%nat -> In c cs -> q' (pcell ns f p c) = np e s dt mO p f c (q (pcell ns f p c))) /\
  (forall a, (forall f c, (f < 3)%nat -> In c cs -> a <> pcell ns f p c) -> q' a = q a) /\
  (forall f c, (f < 3)%nat -> In c cs -> m' (cell ns ng f p c) = gn e s dt f (np e s dt mO p f c (q (pcell ns f p c))) (m (cell ns ng f p c))) /\
  (forall a, (forall f c, (f < 3)%nat -> In c cs -> a <> cell ns ng f p c) -> m' a = m a).
Proof using Hinj Hpinj.
  induction cs as [|c0 cs IH]; intros m q ND HI.
  - exists m, q. cbn. repeat split; auto; intros; contradiction.
  - apply NoDup_cons_iff in ND as [N0 ND]. destruct (visit_layer e s dt mO p m q c0) as (m1 & q1 & E1 & V1 & V2 & V3 & V4).
    destruct (IH m1 q1 ND (fun c I => HI c (or_intror I))) as (m2 & q2 & E2 & I1 & I2 & I3 & I4).
    exists m2, q2. cbn [fold_left]. rewrite E1, E2. split; [reflexivity|].
    assert (Xq : forall f c, (f < 3)%nat -> In c cs -> q1 (pcell ns f p c) = q (pcell ns f p c)).
    { intros f c Hf I. apply V2. intros f' Hf' E. apply Hpinj in E as (_ & _ & ->); [contradiction| |]; apply HI; [now right|now left]. }
    assert (Xm : forall f c, (f < 3)%nat -> In c cs -> m1 (cell ns ng f p c) = m (cell ns ng f p c)).
    { intros f c Hf I. apply V4. intros f' Hf' E. apply Hinj in E as (_ & _ & ->); [contradiction| |]; apply HI; [now right|now left]. }
    split; [|split; [|split]].
    + intros f c Hf [<-|I].
      * rewrite I2; [now apply V1|]. intros f' c' Hf' I' E. apply Hpinj in E as (_ & _ & ->); [contradiction| |]; apply HI; [now left|now right].
      * rewrite I1 by auto. now rewrite Xq.
    + intros a Ha. rewrite I2 by (intros; apply Ha; auto; now right). apply V2. intros; apply Ha; auto; now left.
    + intros f c Hf [<-|I].
      * rewrite I4; [now apply V3|]. intros f' c' Hf' I' E. apply Hinj in E as (_ & _ & ->); [contradiction| |]; apply HI; [now left|now right].
      * rewrite I3 by auto. now rewrite Xq, Xm.
    + intros a Ha. rewrite I4 by (intros; apply Ha; auto; now right). apply V4. intros; apply Ha; auto; now left.
Qed.
(** one layer *)
Lemma advance_result e dt mO p m (psi : pml_side -> memory V) s : exists m' psi', advance A K ns ng ds e dt mO p (m, psi) s = (m', psi') /\
  (forall f c, (f < 3)%nat -> interior ns c -> psi' s (pcell ns f p c) = npsi e s dt mO p f c (psi s (pcell ns f p c))) /\
  (forall t a, t <> s \/ (forall f c, (f < 3)%nat -> interior ns c -> a <> pcell ns f p c) -> psi' t a = psi t a) /\
  (forall f c, (f < 3)%nat -> interior ns c -> m' (cell ns ng f p c) = gain e s dt f c (npsi e s dt mO p f c (psi s (pcell ns f p c))) (m (cell ns ng f p c))) /\
  (forall a, (forall f c, (f < 3)%nat -> interior ns c -> a <> cell ns ng f p c) -> m' a = m a).
Proof using Hinj Hpinj.
  unfold advance. set (cs := filter (in_layer_ K ns e s) (block ns)).
  assert (IC : forall c, In c cs <-> interior ns c /\ in_layer_ K ns e s c = true).
  { intro c. unfold cs. rewrite filter_In, block_in. reflexivity. }
  destruct (loop_layer e s dt mO p cs m (psi s)) as (m' & q' & E & L1 & L2 & L3 & L4).
  { apply NoDup_filter, block_NoDup. } { intros c I. now apply IC in I. }
  rewrite E. exists m', (fun t => if side_eqb t s then q' else psi t). split; [reflexivity|]. split; [|split; [|split]].
  - intros f c Hf Hc. rewrite side_eqb_refl. unfold npsi. destruct (in_layer_ K ns e s c) eqn:B.
    + apply L1; auto. now apply IC.
    + apply L2. intros f' c' Hf' I' Ec. apply IC in I' as [I1 I2]. apply Hpinj in Ec as (_ & _ & ->); auto. congruence.
  - intros t a H. destruct (side_eqb t s) eqn:B; [|reflexivity]. apply side_eqb_eq in B as ->. destruct H as [H|H]; [congruence|].
    apply L2. intros f c Hf I. apply IC in I as [I _]. auto.
  - intros f c Hf Hc. unfold npsi, gain. destruct (in_layer_ K ns e s c) eqn:B.
    + apply L3; auto. now apply IC.
    + apply L4. intros f' c' Hf' I' Ec. apply IC in I' as [I1 I2]. apply Hinj in Ec as (_ & _ & ->); auto. congruence.
  - intros a Ha. apply L4. intros f c Hf I. apply IC in I as [I _]. auto.
Qed.
(** all layers of a patch *)
Lemma advance_sides e dt mO p : forall l m psi, NoDup l -> exists m' psi', fold_left (advance A K ns ng ds e dt mO p) l (m, psi) = (m', psi') /\
  (forall s f c, In s l -> (f < 3)%nat -> interior ns c -> psi' s (pcell ns f p c) = npsi e s dt mO p f c (psi s (pcell ns f p c))) /\
  (forall t a, ~ In t l \/ (forall f c, (f < 3)%nat -> interior ns c -> a <> pcell ns f p c) -> psi' t a = psi t a) /\
  (forall f c, (f < 3)%nat -> interior ns c -> m' (cell ns ng f p c) =
     fold_left (fun v s => gain e s dt f c (npsi e s dt mO p f c (psi s (pcell ns f p c))) v) l (m (cell ns ng f p c))) /\
  (forall a, (forall f c, (f < 3)%nat -> interior ns c -> a <> cell ns ng f p c) -> m' a = m a).
Proof using Hinj Hpinj.
  induction l as [|s l IH]; intros m psi ND.
  - exists m, psi. cbn. repeat split; auto. intros; contradiction.
  - apply NoDup_cons_iff in ND as [N0 ND]. destruct (advance_result e dt mO p m psi s) as (m1 & psi1 & E1 & R1 & R2 & R3 & R4).
    destruct (IH m1 psi1 ND) as (m2 & psi2 & E2 & I1 & I2 & I3 & I4). exists m2, psi2. cbn [fold_left]. rewrite E1, E2. split; [reflexivity|].
    assert (X : forall t a, In t l -> psi1 t a = psi t a) by (intros t a I; apply R2; left; congruence).
    split; [|split; [|split]].
    + intros t f c [<-|I] Hf Hc; [rewrite I2 by (now left); now apply R1|]. rewrite I1 by auto. now rewrite X.
    + intros t a [H|H].
      * rewrite I2 by (left; intro; apply H; now right). apply R2. left. intros ->. apply H. now left.
      * rewrite I2 by now right. apply R2. now right.
    + intros f c Hf Hc. rewrite I3 by auto. rewrite R3 by auto. apply fold_ext_in. intros v t I. now rewrite X.
    + intros a Ha. rewrite I4 by auto. now apply R4.
Qed.
(** all patches with layers *)
Lemma advance_patches e dt mO (pmls : nat -> list pml_side) : forall ps m psi, (forall p, In p ps -> NoDup (pmls p)) -> NoDup ps ->
  exists m' psi', fold_left (fun st p => fold_left (advance A K ns ng ds e dt mO p) (pmls p) st) ps (m, psi) = (m', psi') /\
  (forall p s f c, In p ps -> In s (pmls p) -> (f < 3)%nat -> interior ns c -> psi' s (pcell ns f p c) = npsi e s dt mO p f c (psi s (pcell ns f p c))) /\
  (forall p f c, In p ps -> (f < 3)%nat -> interior ns c -> m' (cell ns ng f p c) =
     fold_left (fun v s => gain e s dt f c (npsi e s dt mO p f c (psi s (pcell ns f p c))) v) (pmls p) (m (cell ns ng f p c))) /\
  (forall a, (forall f p c, (f < 3)%nat -> In p ps -> interior ns c -> a <> cell ns ng f p c) -> m' a = m a) /\
  (forall t a, (forall f p c, (f < 3)%nat -> In p ps -> interior ns c -> a <> pcell ns f p c) -> psi' t a = psi t a).
Proof using Hinj Hpinj.
  induction ps as [|p0 ps IH]; intros m psi NL ND.
  - exists m, psi. cbn. repeat split; auto; intros; contradiction.
  - apply NoDup_cons_iff in ND as [N0 ND]. cbn [fold_left].
    destruct (advance_sides e dt mO p0 (pmls p0) m psi (NL p0 (or_introl eq_refl))) as (m1 & psi1 & E1 & R1 & R2 & R3 & R4). rewrite E1.
    destruct (IH m1 psi1 (fun p I => NL p (or_intror I)) ND) as (m2 & psi2 & E2 & I1 & I2 & I3 & I4). rewrite E2. exists m2, psi2. split; [reflexivity|].
    assert (Xq : forall t f p c, In p ps -> (f < 3)%nat -> interior ns c -> psi1 t (pcell ns f p c) = psi t (pcell ns f p c)).
    { intros t f p c I Hf Hc. apply R2. right. intros f' c' Hf' Hc' E. apply Hpinj in E as (_ & -> & _); auto. }
    assert (Xm : forall f p c, In p ps -> (f < 3)%nat -> interior ns c -> m1 (cell ns ng f p c) = m (cell ns ng f p c)).
    { intros f p c I Hf Hc. apply R4. intros f' c' Hf' Hc' E. apply Hinj in E as (_ & -> & _); auto. }
    split; [|split; [|split]].
    + intros p s f c [<-|I] Hs Hf Hc.
      * rewrite I4; [now apply R1|]. intros f' p' c' Hf' I' Hc' E. apply Hpinj in E as (_ & -> & _); auto.
      * rewrite I1 by auto. now rewrite Xq.
    + intros p f c [<-|I] Hf Hc.
      * rewrite I3; [now apply R3|]. intros f' p' c' Hf' I' Hc' E. apply Hinj in E as (_ & -> & _); auto.
      * rewrite I2 by auto. rewrite Xm by auto. apply fold_ext_in. intros v t _. now rewrite Xq.
    + intros a Ha. rewrite I3 by (intros; apply Ha; auto; now right). apply R4. intros; apply Ha; auto; now left.
    + intros t a Ha. rewrite I4 by (intros; apply Ha; auto; now right). apply R2. right. intros; apply Ha; auto; now left.
Qed.

(** ** the whole update *)
Variables (n : nat) (pmls : nat -> list pml_side).
Hypothesis NL : forall p, (p < n)%nat -> NoDup (pmls p).
(** [h p f c v]: the ordinary part of the update *)
Definition layered (e : bool) (dt : V) (mO : memory V) (h : nat -> nat -> list Z -> V -> V) (st st' : memory V * (pml_side -> memory V)) : Prop :=
  (forall f p c, (f < 3)%nat -> (p < n)%nat -> interior ns c ->
     fst st' (cell ns ng f p c) = fold_left (fun v s => gain e s dt f c (npsi e s dt mO p f c (snd st s (pcell ns f p c))) v) (pmls p) (h p f c (fst st (cell ns ng f p c)))) /\
  (forall a, (forall f p c, (f < 3)%nat -> (p < n)%nat -> interior ns c -> a <> cell ns ng f p c) -> fst st' a = fst st a) /\
  (forall f p c s, (f < 3)%nat -> (p < n)%nat -> interior ns c -> In s (pmls p) -> snd st' s (pcell ns f p c) = npsi e s dt mO p f c (snd st s (pcell ns f p c))) .
Lemma solver_result e dt mO (h : nat -> nat -> list Z -> V -> V) (up1 up2 : memory V -> nat -> memory V) :
  (forall p m, pmls p = [] -> (forall f c, (f < 3)%nat -> interior ns c -> up1 m p (cell ns ng f p c) = h p f c (m (cell ns ng f p c))) /\
               (forall a, (forall f c, (f < 3)%nat -> interior ns c -> a <> cell ns ng f p c) -> up1 m p a = m a)) ->
  (forall p m, pmls p <> [] -> (forall f c, (f < 3)%nat -> interior ns c -> up2 m p (cell ns ng f p c) = h p f c (m (cell ns ng f p c))) /\
               (forall a, (forall f c, (f < 3)%nat -> interior ns c -> a <> cell ns ng f p c) -> up2 m p a = m a)) ->
  forall m psi, layered e dt mO h (m, psi)
    (fold_left (fun st p => fold_left (advance A K ns ng ds e dt mO p) (pmls p) st) (filter (has_pml pmls) (seq 0 n))
       (fold_left up2 (filter (has_pml pmls) (seq 0 n)) (fold_left up1 (filter (fun p => negb (has_pml pmls p)) (seq 0 n)) m), psi)).
Proof using Hinj Hpinj NL.
  intros U1 U2 m psi. set (F := filter (fun p => negb (has_pml pmls p)) (seq 0 n)). set (B := filter (has_pml pmls) (seq 0 n)).
  assert (IF : forall p, In p F <-> (p < n)%nat /\ pmls p = []).
  { intro p. unfold F. rewrite filter_In, in_seq. unfold has_pml. destruct (pmls p); cbn; intuition (try lia; try congruence). }
  assert (IB : forall p, In p B <-> (p < n)%nat /\ pmls p <> []).
  { intro p. unfold B. rewrite filter_In, in_seq. unfold has_pml. destruct (pmls p); cbn; intuition (try lia; try congruence). }
  assert (NF : NoDup F) by (apply NoDup_filter, seq_NoDup). assert (NB : NoDup B) by (apply NoDup_filter, seq_NoDup).
  assert (G1 : forall ps, NoDup ps -> (forall p, In p ps -> pmls p = []) -> forall m,
     (forall f p c, (f < 3)%nat -> In p ps -> interior ns c -> fold_left up1 ps m (cell ns ng f p c) = h p f c (m (cell ns ng f p c))) /\
     (forall a, (forall f p c, (f < 3)%nat -> In p ps -> interior ns c -> a <> cell ns ng f p c) -> fold_left up1 ps m a = m a)).
  { intros ps ND Hps. induction ND as [|p0 ps N0 ND IH]; intro m0; [split; [now intros|auto]|].
    cbn [fold_left]. destruct (U1 p0 m0 (Hps p0 (or_introl eq_refl))) as [W1 W2]. destruct (IH (fun p I => Hps p (or_intror I)) (up1 m0 p0)) as [I1 I2]. split.
    - intros f p c Hf [<-|Hp] Hc.
      + rewrite I2; [now apply W1|]. intros f' p' c' Hf' Hp' Hc' E. apply Hinj in E as (_ & -> & _); auto.
      + rewrite I1 by auto. f_equal. apply W2. intros f' c' Hf' Hc' E. apply Hinj in E as (_ & -> & _); auto.
    - intros a Ha. rewrite I2 by (intros; apply Ha; auto; now right). apply W2. intros; apply Ha; auto; now left. }
  assert (G2 : forall ps, NoDup ps -> (forall p, In p ps -> pmls p <> []) -> forall m,
     (forall f p c, (f < 3)%nat -> In p ps -> interior ns c -> fold_left up2 ps m (cell ns ng f p c) = h p f c (m (cell ns ng f p c))) /\
     (forall a, (forall f p c, (f < 3)%nat -> In p ps -> interior ns c -> a <> cell ns ng f p c) -> fold_left up2 ps m a = m a)).
  { intros ps ND Hps. induction ND as [|p0 ps N0 ND IH]; intro m0; [split; [now intros|auto]|].
    cbn [fold_left]. destruct (U2 p0 m0 (Hps p0 (or_introl eq_refl))) as [W1 W2]. destruct (IH (fun p I => Hps p (or_intror I)) (up2 m0 p0)) as [I1 I2]. split.
    - intros f p c Hf [<-|Hp] Hc.
      + rewrite I2; [now apply W1|]. intros f' p' c' Hf' Hp' Hc' E. apply Hinj in E as (_ & -> & _); auto.
      + rewrite I1 by auto. f_equal. apply W2. intros f' c' Hf' Hc' E. apply Hinj in E as (_ & -> & _); auto.
    - intros a Ha. rewrite I2 by (intros; apply Ha; auto; now right). apply W2. intros; apply Ha; auto; now left. }
  destruct (G1 F NF (fun p I => proj2 (proj1 (IF p) I)) m) as [F1 F2]. set (m1 := fold_left up1 F m) in * .
  destruct (G2 B NB (fun p I => proj2 (proj1 (IB p) I)) m1) as [B1 B2]. set (m2 := fold_left up2 B m1) in * .
  destruct (advance_patches e dt mO pmls B m2 psi (fun p I => NL p (proj1 (proj1 (IB p) I))) NB) as (m3 & psi3 & E & R1 & R2 & R3 & R4).
  rewrite E. unfold layered. cbn [fst snd]. split; [|split].
  - intros f p c Hf Hp Hc. destruct (pmls p) as [|s0 l0] eqn:El.
    + assert (I : In p F) by (apply IF; auto). cbn [fold_left].
      rewrite R3; [|intros f' p' c' Hf' I' Hc' Ec; apply Hinj in Ec as (_ & -> & _); auto; apply IB in I' as [_ I']; congruence].
      rewrite B2; [|intros f' p' c' Hf' I' Hc' Ec; apply Hinj in Ec as (_ & -> & _); auto; apply IB in I' as [_ I']; congruence].
      now apply F1.
    + assert (I : In p B) by (apply IB; split; auto; congruence). rewrite R2 by auto. rewrite El. rewrite B1 by auto. f_equal. f_equal.
      apply F2. intros f' p' c' Hf' I' Hc' Ec. apply Hinj in Ec as (_ & -> & _); auto. apply IF in I' as [_ I']. congruence.
  - intros a Ha. rewrite R3 by (intros f p c Hf I; apply IB in I as [I _]; now apply Ha). rewrite B2 by (intros f p c Hf I; apply IB in I as [I _]; now apply Ha).
    apply F2. intros f p c Hf I. apply IF in I as [I _]. now apply Ha.
  - intros f p c s Hf Hp Hc Hs. apply R1; auto. apply IB. split; auto. intro E0. rewrite E0 in Hs. contradiction.
Qed.
End Layers.
