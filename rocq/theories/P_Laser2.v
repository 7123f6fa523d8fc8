(** The laser stage of all processes; what is asked for and what is computed. *)
From Coq Require Import QArith Field_theory.
From Verif Require Import Base M_Layout S_Layout M_PartSync S_PartSync M_FieldSync S_FieldSync M_Maxwell S_Maxwell M_Cpml S_Cpml M_Deposit M_Push M_Laser S_Laser.
From Verif Require Import P_Layout P_PartSync P_PartSync2 P_PartSync3 P_Threads P_FieldGeo P_FieldPar P_FieldSync P_FieldSync2 P_FieldSync3 P_FieldSync4 P_FieldSync5 P_AutoPatch P_Maxwell P_Maxwell2 P_Maxwell3 P_Cpml P_Cpml2 P_Cpml3 P_Cpml4 P_Laser.
Local Open Scope list_scope.
Local Open Scope Z_scope.

Section Stage.
Context {V : Type}.
(** equal on patch p *)
Definition agree (p : nat) (m m' : memory V) : Prop := forall f o, m (Fld f p o) = m' (Fld f p o).
Definition elsewhere (p : nat) (a : addr) : Prop := forall f o, a <> Fld f p o.
Lemma agree_put p f o v v' m m' : agree p m m' -> v = v' -> agree p (put (Fld f p o) v m) (put (Fld f p o) v' m').
Proof. intros H -> g k. unfold put. destruct (addr_eqb (Fld g p k) (Fld f p o)); [reflexivity|apply H]. Qed.
Lemma agree_fold {I} p (body : memory V -> I -> memory V) l : (forall m m' i, agree p m m' -> agree p (body m i) (body m' i)) -> forall m m', agree p m m' -> agree p (fold_left body l m) (fold_left body l m').
Proof. intro H. induction l as [|i l IH]; intros m m' E; [exact E|]. cbn [fold_left]. apply IH. now apply H. Qed.
Lemma elsewhere_put p a f o v (m : memory V) : elsewhere p a -> put (Fld f p o) v m a = m a.
Proof. intro H. apply put_neq. apply H. Qed.
Lemma elsewhere_fold {I} p a (body : memory V -> I -> memory V) l : (forall m i, body m i a = m a) -> forall m, elsewhere p a -> fold_left body l m a = m a.
Proof. intros H m _. revert m. induction l as [|i l IH]; intro m; [reflexivity|]. cbn [fold_left]. now rewrite IH. Qed.

Variables (left : nat -> bool) (pmls : nat -> list pml_side) (stop : Q) (src : option (Q -> Q -> V * V)) (inj : (Q -> Q -> V * V) -> memory V -> nat -> memory V) (time : Q).
Hypothesis Hin : forall s m m' p, agree p m m' -> agree p (inj s m p) (inj s m' p).
Hypothesis Hout : forall s m p a, elsewhere p a -> inj s m p a = m a.
Local Notation one := (call left pmls stop src inj time).
Definition at_patch (m : memory V) (p : nat) : memory V := if left p then match src with Some s => inj s m p | None => m end else m.
Lemma at_patch_in m m' p : agree p m m' -> agree p (at_patch m p) (at_patch m' p).
Proof using Hin. intro H. unfold at_patch. destruct (left p); auto. destruct src as [s|]; auto. Qed.
Lemma at_patch_out m p a : elsewhere p a -> at_patch m p a = m a.
Proof using Hout. intro H. unfold at_patch. destruct (left p); auto. destruct src as [s|]; auto. Qed.
Lemma elsewhere_other p q f o : p <> q -> elsewhere p (Fld f q o).
Proof using. clear. intros H g k E. congruence. Qed.
Lemma patches_at l : forall m, NoDup l ->
  (forall p, In p l -> agree p (fold_left at_patch l m) (at_patch m p)) /\ (forall a, (forall p, In p l -> elsewhere p a) -> fold_left at_patch l m a = m a).
Proof using Hin Hout.
  induction l as [|q l IH]; intros m ND; [split; [contradiction|reflexivity]|]. apply NoDup_cons_iff in ND as [N1 N2]. cbn [fold_left].
  destruct (IH (at_patch m q) N2) as [I1 I2]. split.
  - intros p [<-|I] f o; [apply I2; intros p I; apply elsewhere_other; congruence|]. rewrite (I1 p I f o). apply at_patch_in. intros g k. apply at_patch_out. apply elsewhere_other. congruence.
  - intros a Ha. rewrite I2 by (intros p I; apply Ha; now right). apply at_patch_out. apply Ha. now left.
Qed.
(** the call of one process: it becomes or stays disabled, or runs on its patches *)
Definition off (mine : list nat) (d : bool) : bool := d || Qle_bool stop (LIGHT_SPEED * time) || (count_xmin pmls (filter left mine) <? length (filter left mine))%nat.
Lemma call_is mine d m : one mine d m = (off mine d, if off mine d then m else fold_left at_patch mine m).
Proof using. clear. unfold call, off. destruct d; [reflexivity|]. destruct (Qle_bool stop (LIGHT_SPEED * time)); [reflexivity|]. cbn [orb]. destruct (_ <? _)%nat; reflexivity. Qed.

Variables (n : nat) (rank : nat -> nat).
Definition mine (r : nat) : list nat := filter (fun p => (rank p =? r)%nat) (seq 0 n).
Lemma mine_in r p : In p (mine r) <-> (p < n)%nat /\ rank p = r.
Proof using. clear. unfold mine. rewrite filter_In, in_seq, Nat.eqb_eq. lia. Qed.
Lemma mine_NoDup r : NoDup (mine r). Proof using. clear. apply NoDup_filter, seq_NoDup. Qed.
Theorem stage_is nproc dis m :
  let st := stage nproc n rank one (dis, m) in
  (forall r, fst st r = if (r <? nproc)%nat then off (mine r) (dis r) else dis r) /\
  (forall p, (p < n)%nat -> (rank p < nproc)%nat -> agree p (snd st) (if off (mine (rank p)) (dis (rank p)) then m else at_patch m p)) /\
  (forall a, (forall p, (p < n)%nat -> (rank p < nproc)%nat -> elsewhere p a) -> snd st a = m a).
Proof using Hin Hout.
  cbv zeta. induction nproc as [|k IH]; [cbn; repeat split; auto; intros; lia|].
  unfold stage in * . rewrite seq_S, fold_left_app. cbn [fold_left plus]. destruct (fold_left _ (seq 0 k) (dis, m)) as [dis' m'] eqn:E. cbn [fst snd] in IH. destruct IH as (I1 & I2 & I3).
  fold (mine k). rewrite call_is. cbn [fst snd].
  assert (Ek : dis' k = dis k) by (rewrite I1; destruct (Nat.ltb_spec k k); [lia|reflexivity]). rewrite Ek.
  destruct (patches_at (mine k) m' (mine_NoDup k)) as [P1 P2].
  split; [|split].
  - intro r. destruct (Nat.eqb_spec r k) as [->|N].
    + destruct (Nat.ltb_spec k (S k)); [reflexivity|lia].
    + rewrite I1. destruct (Nat.ltb_spec r k), (Nat.ltb_spec r (S k)); auto; lia.
  - intros p Hp Hr f o. destruct (Nat.eq_dec (rank p) k) as [Ep|Np].
    + rewrite Ep. assert (agree p m' m) as Am. { intros g q. apply I3. intros p' Hp' Hr'. apply elsewhere_other. intros ->. lia. }
      destruct (off (mine k) (dis k)); [apply Am|]. rewrite (P1 p) by (apply mine_in; auto). now apply at_patch_in.
    + rewrite <- (I2 p Hp) by lia. destruct (off (mine k) (dis k)); [reflexivity|]. apply P2. intros p' I. apply mine_in in I. apply elsewhere_other. intros ->. lia.
  - intros a Ha. rewrite <- (I3 a) by (intros p Hp Hr; apply Ha; auto; lia). destruct (off (mine k) (dis k)); [reflexivity|].
    apply P2. intros p I. apply mine_in in I as [I1' I2']. apply Ha; auto. lia.
Qed.
End Stage.

(** every left patch has a layer on its left side *)
Lemma count_enough pmls ps : (forall p, In p ps -> In PXmin (pmls p)) -> (count_xmin pmls ps <? length ps)%nat = false.
Proof.
  intro H. apply Nat.ltb_ge. unfold count_xmin. induction ps as [|p ps IH]; [cbn; lia|]. cbn [flat_map length]. rewrite filter_app, app_length.
  specialize (IH (fun q I => H q (or_intror I))). assert (1 <= length (filter (side_eqb PXmin) (pmls p)))%nat; [|lia].
  assert (In PXmin (filter (side_eqb PXmin) (pmls p))) as I by (apply filter_In; split; [apply H; now left|reflexivity]).
  destruct (filter (side_eqb PXmin) (pmls p)); [contradiction|cbn; lia].
Qed.
Lemma count_none pmls ps : (forall p, In p ps -> ~ In PXmin (pmls p)) -> count_xmin pmls ps = 0%nat.
Proof.
  intro H. unfold count_xmin. induction ps as [|p ps IH]; [reflexivity|]. cbn [flat_map]. rewrite filter_app, app_length, IH by (intros q I; apply H; now right).
  assert (filter (side_eqb PXmin) (pmls p) = []) as ->; [|reflexivity]. specialize (H p (or_introl eq_refl)). induction (pmls p) as [|s l IHl]; [reflexivity|].
  cbn [filter]. destruct (side_eqb PXmin s) eqn:E; [destruct s; try discriminate; exfalso; apply H; now left|]. apply IHl. intro I. apply H. now right.
Qed.
Lemma has_side_in s l : has_side s l = true <-> In s l.
Proof. unfold has_side. rewrite existsb_exists. split; [intros (t & I & E); destruct s, t; try discriminate; exact I|intro I; exists s; split; [exact I|destruct s; reflexivity]]. Qed.

Section Asked.
Context {V : Type} (A : arith V) (zero : V).
Local Notation "x +. y" := (plus_ A x y) (at level 50, left associativity).
Hypothesis Hm : monoid zero (plus_ A).
Lemma total_app (l l' : list V) : total zero (plus_ A) (l ++ l') = total zero (plus_ A) l +. total zero (plus_ A) l'.
Proof using Hm.
  destruct Hm as (M1 & M2 & M3). induction l as [|x l IH]; cbn [app total fold_right] in * ; [now rewrite M2, M1|]. unfold total in IH. rewrite IH. apply M3.
Qed.
Variables (Ly Lz dy dz : Q) (three : bool) (time : Q).
Local Notation want_y := (requested_y A zero Ly Lz dy dz three time).
Local Notation want_z := (requested_z A zero Ly Lz dy dz three time).
Lemma centre_asked o len : match o with Some v => ~ (v == 0)%Q | None => True end -> centre o len = asked o len.
Proof using. clear. destruct o as [v|]; [|reflexivity]. intro H. unfold centre. destruct (Qeq_bool v 0) eqn:E; [|reflexivity]. now apply Qeq_bool_iff in E. Qed.
Lemma bound_is (l : laser (V := V)) : centred l ->
  match bound_fields A Ly Lz dy dz three time l with
  | Some s => forall y z, s y z = (want_y l y z, want_z l y z)
  | None => forall y z, (want_y l y z, want_z l y z) = (zero, zero)
  end.
Proof using Hm.
  unfold centred. induction l as [t y0 z0 f|a IHa b IHb]; cbn [pulses bound_fields]; intro C.
  - apply Forall_cons_iff in C as [[C1 C2] _]. destruct Hm as (M1 & _). unfold requested_y, requested_z, field_of. cbn [pulses map total fold_right].
    destruct (Qle_bool t (LIGHT_SPEED * time)); intros y z; [cbn [fst snd]; now rewrite M1|]. rewrite !M1, !centre_asked by auto. apply surjective_pairing.
  - apply Forall_app in C as [Ca Cb]. specialize (IHa Ca). specialize (IHb Cb).
    assert (Sy : forall y z, want_y (Both a b) y z = want_y a y z +. want_y b y z). { intros y z. unfold requested_y. cbn [pulses]. rewrite map_app. apply total_app. }
    assert (Sz : forall y z, want_z (Both a b) y z = want_z a y z +. want_z b y z). { intros y z. unfold requested_z. cbn [pulses]. rewrite map_app. apply total_app. }
    destruct Hm as (M1 & M2 & _).
    destruct (bound_fields A Ly Lz dy dz three time a) as [sa|]; destruct (bound_fields A Ly Lz dy dz three time b) as [sb|]; intros y z; rewrite Sy, Sz; specialize (IHa y z); specialize (IHb y z).
    + rewrite IHa, IHb. reflexivity.
    + injection IHb as -> ->. rewrite !M1. exact IHa.
    + injection IHa as -> ->. rewrite !(M2 zero), !M1. exact IHb.
    + injection IHa as -> ->. injection IHb as -> ->. now rewrite !M1.
Qed.
Lemma running_none (l : laser (V := V)) : running time l <-> bound_fields A Ly Lz dy dz three time l <> None.
Proof using.
  clear. unfold running. induction l as [t y0 z0 f|a IHa b IHb]; cbn [pulses bound_fields].
  - destruct (Qle_bool t (LIGHT_SPEED * time)) eqn:E.
    + split; [|congruence]. intros (u & [<-|[]] & H). apply Qle_bool_iff in E. exfalso. apply (Qlt_not_le _ _ H E).
    + split; [discriminate|]. intros _. eexists. split; [left; reflexivity|]. cbn. apply Qnot_le_lt. intro H. apply Qle_bool_iff in H. congruence.
  - assert (X : (exists u, In u (pulses a ++ pulses b) /\ (let '(t, _, _, _) := u in (LIGHT_SPEED * time < t)%Q)) <->
      ((exists u, In u (pulses a) /\ (let '(t, _, _, _) := u in (LIGHT_SPEED * time < t)%Q)) \/ (exists u, In u (pulses b) /\ (let '(t, _, _, _) := u in (LIGHT_SPEED * time < t)%Q)))).
    { split.
      - intros (u & I & H). apply in_app_iff in I as [I|I]; [left|right]; exists u; auto.
      - intros [(u & I & H)|(u & I & H)]; exists u; (split; [apply in_app_iff|]); auto. }
    rewrite X, IHa, IHb. clear. destruct (bound_fields A Ly Lz dy dz three time a), (bound_fields A Ly Lz dy dz three time b); split; intros; try discriminate; try tauto; try (left; discriminate); try (right; discriminate); firstorder congruence.
Qed.
Lemma running_stop (l : laser (V := V)) : running time l <-> Qle_bool (tstop_of l) (LIGHT_SPEED * time) = false.
Proof using.
  clear. unfold running.
  assert (D : forall t, Qle_bool t (LIGHT_SPEED * time) = false <-> (LIGHT_SPEED * time < t)%Q).
  { intro t. split; intro H; [apply Qnot_le_lt; intro L; apply Qle_bool_iff in L; congruence|]. destruct (Qle_bool t (LIGHT_SPEED * time)) eqn:E; [|reflexivity]. apply Qle_bool_iff in E. exfalso. apply (Qlt_not_le _ _ H E). }
  rewrite D. induction l as [t y0 z0 f|a IHa b IHb]; cbn [pulses tstop_of].
  - split; [intros (u & [<-|[]] & H); exact H|]. intro H. eexists. split; [left; reflexivity|exact H].
  - assert (M : forall x, (x < (if Qle_bool (tstop_of b) (tstop_of a) then tstop_of a else tstop_of b))%Q <-> (x < tstop_of a \/ x < tstop_of b)%Q).
    { intro x. destruct (Qle_bool (tstop_of b) (tstop_of a)) eqn:E.
      - apply Qle_bool_iff in E. split; [auto|]. intros [H|H]; [exact H|]. eapply Qlt_le_trans; eauto.
      - assert (tstop_of a < tstop_of b)%Q by (apply Qnot_le_lt; intro L; apply Qle_bool_iff in L; congruence). split; [auto|]. intros [H'|H']; [|exact H']. eapply Qlt_trans; eauto. }
    rewrite M, <- IHa, <- IHb. split.
    + intros (u & I & H). apply in_app_iff in I as [I|I]; [left|right]; exists u; auto.
    + intros [(u & I & H)|(u & I & H)]; exists u; (split; [apply in_app_iff|]); auto.
Qed.
End Asked.
