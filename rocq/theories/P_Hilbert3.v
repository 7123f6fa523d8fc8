From Verif Require Import Base M_Hilbert S_Hilbert P_Hilbert.
Local Open Scope list_scope.
Local Open Scope Z_scope.

(** ** three dimensions *)
Definition frame3 (u v t : vec) : Prop :=
  unit 3 u /\ unit 3 v /\ unit 3 t /\ dot u v = 0 /\ dot u t = 0 /\ dot v t = 0.
Definition box (p u : vec) (w : Z) (v : vec) (h : Z) (t : vec) (d : Z) (l : list vec) : Prop :=
  NoDup l /\ forall q, In q l <-> length q = 3%nat /\ side q p u w /\ side q p v h /\ side q p t d.
Definition makes (fuel : nat) (p u : vec) (w : Z) (v : vec) (h : Z) (t : vec) (d : Z) : Prop :=
  exists l, generate3d fuel p (smul w u) (smul h v) (smul d t) = Some l /\ box p u w v h t d l.

Ltac fr := unfold frame3 in *; repeat match goal with H : _ /\ _ |- _ => destruct H end;
  repeat split; auto using unit_neg; rewrite ?dot_neg, ?dot_neg_r; try lia; try (rewrite dot_comm; lia).

Lemma box_row p u v t w : frame3 u v t -> length p = 3%nat -> 0 <= w -> box p u w v 1 t 1 (fill (Z.to_nat w) p u).
Proof.
  intros (Hu & Hv & Ht & O1 & O2 & O3) Hp Hw. split; [apply (fill_nodup _ _ _ 3); auto|]. intro q. rewrite (fill_in _ _ _ _ 3) by auto.
  unfold side. split.
  - intros (i & Hi & ->).
    assert (L : length p = length (smul i u)) by (rewrite smul_len, Hp; symmetry; now apply unit_len).
    rewrite vadd_len, !dot_add, !dot_smul, (unit_dot 3 u), O1, O2 by auto. lia.
  - intros (Lq & H1 & H2 & H3). exists (dot q u - dot p u). split; [lia|].
    assert (L : length p = length (smul (dot q u - dot p u) u)) by (rewrite smul_len, Hp; symmetry; now apply unit_len).
    apply (basis3 u v t); auto.
    + rewrite vadd_len; auto.
    + rewrite dot_add, dot_smul, (unit_dot 3 u) by auto. lia.
    + rewrite dot_add, dot_smul, O1 by auto. lia.
    + rewrite dot_add, dot_smul, O2 by auto. lia.
Qed.
Lemma box_perm p u v t w h d u' v' t' w' h' d' l : box p u w v h t d l ->
  (forall q, side q p u w /\ side q p v h /\ side q p t d <-> side q p u' w' /\ side q p v' h' /\ side q p t' d') ->
  box p u' w' v' h' t' d' l.
Proof. intros [N M] E. split; auto. intro q. rewrite M, E. tauto. Qed.

(** the empty boxes that can come up *)
Inductive degenerate : Z -> Z -> Z -> Prop :=
| dg101 : degenerate 1 0 1 | dg110 : degenerate 1 1 0 | dg201 : degenerate 2 0 1 | dg301 : degenerate 3 0 1
| dg210 : degenerate 2 1 0 | dg220 : degenerate 2 2 0 | dg202 : degenerate 2 0 2.
Lemma empty_box p u v t w h d : h = 0 \/ d = 0 -> box p u w v h t d [].
Proof. intros H. split; [constructor|]. intro q. unfold side. cbn [In]. split; [tauto|]. intros. lia. Qed.

Lemma half_even_3 u : half_even u 3 = 2.
Proof. unfold half_even, half. destruct (0 <? sign u); reflexivity. Qed.

(** one step, sizes and directions made visible *)
Lemma vl n u : unit 3 u -> 0 <= n -> vlen (smul n u) = n. Proof. apply vlen_smul. Qed.
Lemma pe n u : unit 3 u -> 1 <= n -> prefer_even (vhalf (smul n u)) (smul n u) (vsgn (smul n u)) = smul (half_even u n) u.
Proof. intros. rewrite (vsgn_smul 3) by auto. apply (prefer_smul 3); auto. lia. Qed.

Section Empty.
Variables u v t : vec.
Hypotheses (Hu : unit 3 u) (Hv : unit 3 v) (Ht : unit 3 t).
Lemma e101 f p : generate3d (S f) p (smul 1 u) (smul 0 v) (smul 1 t) = Some [].
Proof using Hu Hv Ht. cbn [generate3d]. now rewrite !vl by (auto; lia). Qed.
Lemma e110 f p : generate3d (S f) p (smul 1 u) (smul 1 v) (smul 0 t) = Some [].
Proof using Hu Hv Ht. cbn [generate3d]. now rewrite !vl by (auto; lia). Qed.
Lemma e201 f p : generate3d (S (S f)) p (smul 2 u) (smul 0 v) (smul 1 t) = Some [].
Proof using Hu Hv Ht.
  remember (S f) as g eqn:Eg. cbn [generate3d]. rewrite !vl by (auto; lia). cbn [Z.eqb Z.mul Z.ltb Z.compare Pos.mul Pos.compare Pos.compare_cont andb Pos.eqb].
  rewrite !(pe 2 u), half_even_2, smul_sub by (auto; lia). subst g. cbn [Z.sub Z.add Z.opp Z.pos_sub Pos.pred_double]. now rewrite !e101.
Qed.
Lemma e301 f p : generate3d (S (S (S f))) p (smul 3 u) (smul 0 v) (smul 1 t) = Some [].
Proof using Hu Hv Ht.
  remember (S (S f)) as g eqn:Eg. cbn [generate3d]. rewrite !vl by (auto; lia). cbn [Z.eqb Z.mul Z.ltb Z.compare Pos.mul Pos.compare Pos.compare_cont andb Pos.eqb].
  rewrite !(pe 3 u), half_even_3, smul_sub by (auto; lia). subst g. replace (3 - 2) with 1 by lia. rewrite e201. now rewrite !e101.
Qed.
Lemma e210 f p : generate3d (S (S f)) p (smul 2 u) (smul 1 v) (smul 0 t) = Some [].
Proof using Hu Hv Ht.
  remember (S f) as g eqn:Eg. cbn [generate3d]. rewrite !vl by (auto; lia). cbn [Z.eqb Z.mul Z.ltb Z.compare Pos.mul Pos.compare Pos.compare_cont andb Pos.eqb].
  rewrite !(pe 2 u), half_even_2, smul_sub by (auto; lia). subst g. replace (2 - 1) with 1 by lia. now rewrite !e110.
Qed.
End Empty.
Lemma e220 u v t f p : unit 3 u -> unit 3 v -> unit 3 t -> generate3d (S (S (S f))) p (smul 2 u) (smul 2 v) (smul 0 t) = Some [].
Proof.
  intros Hu Hv Ht. remember (S (S f)) as g eqn:Eg. cbn [generate3d]. rewrite !vl by (auto; lia). cbn [Z.eqb Z.mul Z.ltb Z.compare Pos.mul Pos.compare Pos.compare_cont andb Pos.eqb].
  rewrite !(pe 2) by (auto; lia). rewrite !half_even_2, !smul_sub, <- !smul_neg by (auto; lia). subst g. replace (2 - 1) with 1 by lia.
  rewrite (e101 v t u), (e210 u v t), (e101 (vneg v) t (vneg u)); auto using unit_neg.
Qed.
Lemma e202 u v t f p : unit 3 u -> unit 3 v -> unit 3 t -> generate3d (S (S (S f))) p (smul 2 u) (smul 0 v) (smul 2 t) = Some [].
Proof.
  intros Hu Hv Ht. remember (S (S f)) as g eqn:Eg. cbn [generate3d]. rewrite !vl by (auto; lia). cbn [Z.eqb Z.mul Z.ltb Z.compare Pos.mul Pos.compare Pos.compare_cont andb Pos.eqb].
  rewrite !(pe 2) by (auto; lia). rewrite !half_even_2, !smul_sub, <- !smul_neg by (auto; lia). subst g. replace (2 - 1) with 1 by lia.
  rewrite (e110 t u v), (e201 u v t), (e110 (vneg t) (vneg u) v); auto using unit_neg.
Qed.

Lemma degenerate_makes fuel p u v t w h d : frame3 u v t -> degenerate w h d -> w + h + d < Z.of_nat fuel -> makes fuel p u w v h t d.
Proof.
  intros (Hu & Hv & Ht & _) D Hf. exists []. split; [|apply empty_box; destruct D; lia].
  destruct D; (destruct fuel as [|[|[|f]]]; [lia|lia|lia|]).
  - now apply e101. - now apply e110. - now apply e201. - now apply e301. - now apply e210. - now apply e220. - now apply e202.
Qed.

(** sizes from which the recursion proceeds *)
Definition fine (u : vec) (w h d : Z) : Prop :=
  1 <= w /\ 1 <= h /\ 1 <= d /\ (2 <= w \/ h = 1 \/ d = 1 \/ ((0 <? sign u) = false /\ h <= 3 /\ d <= 3)).

Lemma half_even_1 u : (0 <? sign u) = false -> half_even u 1 = 1.
Proof. intros H. unfold half_even, half. rewrite H. reflexivity. Qed.
Lemma half_even_rest u w : 4 <= w -> w - half_even u w = 1 -> w = 5 /\ (0 <? sign u) = false.
Proof.
  intros H E. unfold half_even in E. destruct (odd (half u w)) eqn:Eo; cbn [andb] in E.
  - apply odd_spec in Eo. destruct (Z.ltb_spec 2 w); [|lia]. unfold half in *. destruct (0 <? sign u); split; auto; lia.
  - unfold half in *. destruct (0 <? sign u); split; auto; lia.
Qed.
Lemma half_even_big u n : 3 <= n -> 2 <= half_even u n.
Proof. intros H. pose proof (half_even_bounds u n ltac:(lia)). pose proof (half_even_even u n H). lia. Qed.

Lemma box_app p u w v h t d l1 l2 (A B : vec -> Prop) :
  NoDup l1 -> NoDup l2 -> (forall q, In q l1 <-> A q) -> (forall q, In q l2 <-> B q) ->
  (forall q, A q -> B q -> False) -> (forall q, A q \/ B q <-> length q = 3%nat /\ side q p u w /\ side q p v h /\ side q p t d) ->
  box p u w v h t d (l1 ++ l2).
Proof.
  intros N1 N2 M1 M2 D E. split.
  - apply nodup_app; auto. intros q H1 H2. apply (D q); [now apply M1|now apply M2].
  - intro q. rewrite in_app_iff, M1, M2. apply E.
Qed.

(** what is left is linear arithmetic in the three coordinates of q *)
Ltac cl := repeat match goal with
  | H : ?P |- _ => lazymatch P with
      | _ <= _ => fail | _ <= _ <= _ => fail | Z => fail | vec => fail | list _ => fail | nat => fail | _ => clear H end
  end;
  repeat match goal with |- context [dot ?a ?b] => let x := fresh "x" in generalize (dot a b); intro x end;
  repeat match goal with k := _ |- _ => clearbody k end; lia.

Theorem generate3d_box fuel : forall p u v t w h d, frame3 u v t -> length p = 3%nat -> fine u w h d -> w + h + d < Z.of_nat fuel ->
  makes fuel p u w v h t d.
Proof.
  induction fuel as [|f IH0]; intros p u v t w h d F Hp (Hw & Hh & Hd & Hthin) Hf; [lia|].
  assert (IH : forall p u v t w h d, frame3 u v t -> length p = 3%nat -> fine u w h d \/ degenerate w h d -> w + h + d < Z.of_nat f ->
             makes f p u w v h t d).
  { intros ? ? ? ? ? ? ? F' L' [G|G] Hf'; [now apply IH0|now apply degenerate_makes]. }
  clear IH0. pose proof F as (Hu & Hv & Ht & O1 & O2 & O3). unfold makes.
  cbn [generate3d]. rewrite !vl by (auto; lia).
  destruct ((h =? 1) && (d =? 1)) eqn:C1.
  { assert (h = 1 /\ d = 1) as [-> ->] by lia. rewrite (vsgn_smul 3) by auto. eexists; split; [reflexivity|]. apply box_row; auto. lia. }
  destruct ((w =? 1) && (d =? 1)) eqn:C2.
  { assert (w = 1 /\ d = 1) as [-> ->] by lia. rewrite (vsgn_smul 3) by auto. eexists; split; [reflexivity|].
    apply (box_perm p v u t h 1 1); [apply box_row; [fr|auto|lia]|intro; tauto]. }
  destruct ((w =? 1) && (h =? 1)) eqn:C3.
  { assert (w = 1 /\ h = 1) as [-> ->] by lia. rewrite (vsgn_smul 3) by auto. eexists; split; [reflexivity|].
    apply (box_perm p t u v d 1 1); [apply box_row; [fr|auto|lia]|intro; tauto]. }
  rewrite !pe by (auto; lia). rewrite !(vsgn_smul 3) by auto.
  assert (Lu : length u = 3%nat) by (now apply unit_len). assert (Lv : length v = 3%nat) by (now apply unit_len). assert (Lt : length t = 3%nat) by (now apply unit_len).
  assert (Duu : dot u u = 1) by (now apply (unit_dot 3)). assert (Dvv : dot v v = 1) by (now apply (unit_dot 3)). assert (Dtt : dot t t = 1) by (now apply (unit_dot 3)).
  assert (O1' : dot v u = 0) by (rewrite dot_comm; auto). assert (O2' : dot t u = 0) by (rewrite dot_comm; auto). assert (O3' : dot t v = 0) by (rewrite dot_comm; auto).
  assert (S1 : forall n e, vsub (smul n e) e = smul (n - 1) e) by (intros; rewrite <- smul_sub, smul_1; auto).
  rewrite !S1, !smul_sub, <- !smul_neg.
  assert (Bw : 1 <= half_even u w <= w /\ (half_even u w = w -> w = 1 /\ (0 <? sign u) = false /\ h <= 3 /\ d <= 3) \/ (w = 1 /\ (h = 1 \/ d = 1))).
  { destruct (Z.eq_dec w 1) as [->|]; [|pose proof (half_even_bounds u w ltac:(lia)); lia].
    destruct Hthin as [X|[X|[X|(X & Y & Z)]]]; try lia. rewrite half_even_1 by auto. left. split; [lia|]. auto. }
  destruct Bw as [[Bw Bw']|[X Y]]; [|lia].
  assert (Bw2 : half_even u w = w \/ half_even u w <= w - 1) by lia.
  set (m := half_even u w) in *. set (k := half_even v h) in *. set (e := half_even t d) in *.
  destruct ((3 * h <? 2 * w) && (3 * d <? 2 * w)) eqn:C4.
  - (* wide *)
    assert (4 <= w) by lia.
    destruct (IH p u v t m h d F Hp) as (l1 & E1 & N1 & M1); [left; unfold fine; pose proof (half_even_big u w ltac:(lia)); lia|lia|].
    destruct (IH (vadd p (smul m u)) u v t (w - m) h d F) as (l2 & E2 & N2 & M2); [len| |lia|].
    { left. unfold fine. split; [lia|]. split; [lia|]. split; [lia|].
      destruct (Z.eq_dec (w - m) 1) as [E|]; [|lia]. destruct (half_even_rest u w ltac:(lia) E). right. right. right. split; [auto|lia]. }
    rewrite E1, E2. cbn [cat]. eexists; split; [reflexivity|].
    assert (M2' : forall q, In q l2 <-> length q = 3%nat /\ m <= dot q u - dot p u < w /\ side q p v h /\ side q p t d).
    { intro q. rewrite M2. unfold side. rewrite !dot_add, !dot_smul, Duu, O1, O2 by len. cl. }
    apply (box_app _ _ _ _ _ _ _ _ _ _ _ N1 N2 M1 M2'); unfold side; intro q; cl.
  - destruct (4 * d <? 3 * h) eqn:C5.
    + (* h long compared with d *)
      pose proof (half_even_bounds v h ltac:(lia)) as Bk. fold k in Bk.
      assert (Bk2 : 2 <= k \/ (k = 1 /\ d = 1)).
      { destruct (Z.eq_dec h 2) as [->|]; [right; split; [apply half_even_2|lia]|left; apply half_even_big; lia]. }
      assert (Bdeg : m = w -> (k = 2 /\ d = 2)).
      { intro E. destruct (Bw' E) as (-> & _ & ? & ?). assert (h = 3 /\ d = 2) as [-> ->] by lia. split; auto. apply half_even_3. }
      destruct (IH p v t u k d m) as (l1 & E1 & N1 & M1); [fr|auto|left; unfold fine; lia|lia|].
      destruct (IH (vadd p (smul k v)) u v t w (h - k) d F) as (l2 & E2 & N2 & M2); [len|left; unfold fine; lia|lia|].
      destruct (IH (vadd (vadd p (smul (w - 1) u)) (smul (k - 1) v)) (vneg v) t (vneg u) k d (w - m)) as (l3 & E3 & N3 & M3); [fr|len| |lia|].
      { destruct Bw2 as [E|E]; [right; destruct (Bdeg E) as [-> ->]; rewrite E, Z.sub_diag; constructor|left; unfold fine; lia]. }
      rewrite E1, E2, E3. cbn [cat]. eexists; split; [reflexivity|].
      assert (M1' : forall q, In q l1 <-> length q = 3%nat /\ 0 <= dot q u - dot p u < m /\ 0 <= dot q v - dot p v < k /\ side q p t d).
      { intro q. rewrite M1. unfold side. cl. }
      assert (M2' : forall q, In q l2 <-> length q = 3%nat /\ 0 <= dot q u - dot p u < w /\ k <= dot q v - dot p v < h /\ side q p t d).
      { intro q. rewrite M2. unfold side. rewrite !dot_add, !dot_smul, Dvv, O1', O3 by len. cl. }
      assert (M3' : forall q, In q l3 <-> length q = 3%nat /\ m <= dot q u - dot p u < w /\ 0 <= dot q v - dot p v < k /\ side q p t d).
      { intro q. rewrite M3. unfold side. rewrite !dot_neg_r, !dot_add, !dot_smul, Duu, Dvv, O1, O1', O3, O2 by len. cl. }
      clear M1 M2 M3.
      assert (N23 : NoDup (l2 ++ l3)).
      { apply nodup_app; auto. intros q. rewrite M2', M3'. unfold side. cl. }
      assert (M23 : forall q, In q (l2 ++ l3) <-> In q l2 \/ In q l3) by (intro; apply in_app_iff).
      apply (box_app _ _ _ _ _ _ _ _ _ _ _ N1 N23 M1' M23); intro q; rewrite M2', M3'; unfold side; cl.
    + destruct (4 * h <? 3 * d) eqn:C6.
      * (* d long compared with h *)
        pose proof (half_even_bounds t d ltac:(lia)) as Bk. fold e in Bk.
        assert (Bk2 : 2 <= e \/ (e = 1 /\ h = 1)).
        { destruct (Z.eq_dec d 2) as [->|]; [right; split; [apply half_even_2|lia]|left; apply half_even_big; lia]. }
        assert (Bdeg : m = w -> (e = 2 /\ h = 2)).
        { intro E. destruct (Bw' E) as (-> & _ & ? & ?). assert (d = 3 /\ h = 2) as [-> ->] by lia. split; auto. apply half_even_3. }
        destruct (IH p t u v e m h) as (l1 & E1 & N1 & M1); [fr|auto|left; unfold fine; lia|lia|].
        destruct (IH (vadd p (smul e t)) u v t w h (d - e) F) as (l2 & E2 & N2 & M2); [len|left; unfold fine; lia|lia|].
        destruct (IH (vadd (vadd p (smul (w - 1) u)) (smul (e - 1) t)) (vneg t) (vneg u) v e (w - m) h) as (l3 & E3 & N3 & M3); [fr|len| |lia|].
        { destruct Bw2 as [E|E]; [right; destruct (Bdeg E) as [-> ->]; rewrite E, Z.sub_diag; constructor|left; unfold fine; lia]. }
        rewrite E1, E2, E3. cbn [cat]. eexists; split; [reflexivity|].
        assert (M1' : forall q, In q l1 <-> length q = 3%nat /\ 0 <= dot q u - dot p u < m /\ side q p v h /\ 0 <= dot q t - dot p t < e).
        { intro q. rewrite M1. unfold side. cl. }
        assert (M2' : forall q, In q l2 <-> length q = 3%nat /\ 0 <= dot q u - dot p u < w /\ side q p v h /\ e <= dot q t - dot p t < d).
        { intro q. rewrite M2. unfold side. rewrite !dot_add, !dot_smul, Dtt, O2', O3' by len. cl. }
        assert (M3' : forall q, In q l3 <-> length q = 3%nat /\ m <= dot q u - dot p u < w /\ side q p v h /\ 0 <= dot q t - dot p t < e).
        { intro q. rewrite M3. unfold side. rewrite !dot_neg_r, !dot_add, !dot_smul, Duu, Dtt, O1, O2, O2', O3' by len. cl. }
        clear M1 M2 M3.
        assert (N23 : NoDup (l2 ++ l3)).
        { apply nodup_app; auto. intros q. rewrite M2', M3'. unfold side. cl. }
        assert (M23 : forall q, In q (l2 ++ l3) <-> In q l2 \/ In q l3) by (intro; apply in_app_iff).
        apply (box_app _ _ _ _ _ _ _ _ _ _ _ N1 N23 M1' M23); intro q; rewrite M2', M3'; unfold side; cl.
      * (* regular *)
        assert (2 <= h /\ 2 <= d) as [Hh2 Hd2] by lia.
        pose proof (half_even_bounds v h ltac:(lia)) as Bk. fold k in Bk.
        pose proof (half_even_bounds t d ltac:(lia)) as Be. fold e in Be.
        assert (Bk2 : 2 <= k \/ (k = 1 /\ e = 1)).
        { destruct (Z.eq_dec h 2) as [->|]; [|left; apply half_even_big; lia].
          assert (d = 2) as -> by lia. right. split; apply half_even_2. }
        assert (Bdeg : m = w -> h - k = 1 /\ d <= 3 /\ ((k = 1 /\ e = 1) \/ (k = 2 /\ e = 2))).
        { intro E. destruct (Bw' E) as (-> & _ & ? & ?). subst k e. assert ((h = 2 /\ d = 2) \/ (h = 3 /\ d = 3)) as [[-> ->]|[-> ->]] by lia;
          rewrite ?half_even_2, ?half_even_3; lia. }
        destruct (IH p v t u k e m) as (l1 & E1 & N1 & M1); [fr|auto|left; unfold fine; lia|lia|].
        destruct (IH (vadd p (smul k v)) t u v d m (h - k)) as (l2 & E2 & N2 & M2); [fr|len|left; unfold fine; lia|lia|].
        destruct (IH (vadd (vadd p (smul (k - 1) v)) (smul (d - 1) t)) u (vneg v) (vneg t) w k (d - e)) as (l3 & E3 & N3 & M3); [fr|len| |lia|].
        { left. unfold fine. lia. }
        destruct (IH (vadd (vadd (vadd p (smul (w - 1) u)) (smul k v)) (smul (d - 1) t)) (vneg t) (vneg u) v d (w - m) (h - k)) as (l4 & E4 & N4 & M4); [fr|len| |lia|].
        { destruct Bw2 as [E|E]; [|left; unfold fine; lia]. right. destruct (Bdeg E) as (-> & Hd3 & _). rewrite E, Z.sub_diag.
          assert (d = 2 \/ d = 3) as [-> | ->] by lia; constructor. }
        destruct (IH (vadd (vadd p (smul (w - 1) u)) (smul (k - 1) v)) (vneg v) t (vneg u) k e (w - m)) as (l5 & E5 & N5 & M5); [fr|len| |lia|].
        { destruct Bw2 as [E|E]; [|left; unfold fine; lia]. right. destruct (Bdeg E) as (_ & _ & [[-> ->]|[-> ->]]); rewrite E, Z.sub_diag; constructor. }
        rewrite E1, E2, E3, E4, E5. cbn [cat]. eexists; split; [reflexivity|].
        assert (M1' : forall q, In q l1 <-> length q = 3%nat /\ 0 <= dot q u - dot p u < m /\ 0 <= dot q v - dot p v < k /\ 0 <= dot q t - dot p t < e).
        { intro q. rewrite M1. unfold side. cl. }
        assert (M2' : forall q, In q l2 <-> length q = 3%nat /\ 0 <= dot q u - dot p u < m /\ k <= dot q v - dot p v < h /\ 0 <= dot q t - dot p t < d).
        { intro q. rewrite M2. unfold side. rewrite !dot_add, !dot_smul, Dvv, O1', O3 by len. cl. }
        assert (M3' : forall q, In q l3 <-> length q = 3%nat /\ 0 <= dot q u - dot p u < w /\ 0 <= dot q v - dot p v < k /\ e <= dot q t - dot p t < d).
        { intro q. rewrite M3. unfold side. rewrite !dot_neg_r, !dot_add, !dot_smul, Dtt, Dvv, O1', O2', O3, O3' by len. cl. }
        assert (M4' : forall q, In q l4 <-> length q = 3%nat /\ m <= dot q u - dot p u < w /\ k <= dot q v - dot p v < h /\ 0 <= dot q t - dot p t < d).
        { intro q. rewrite M4. unfold side. rewrite !dot_neg_r, !dot_add, !dot_smul, Duu, Dtt, Dvv, O1, O1', O2, O2', O3, O3' by len. cl. }
        assert (M5' : forall q, In q l5 <-> length q = 3%nat /\ m <= dot q u - dot p u < w /\ 0 <= dot q v - dot p v < k /\ 0 <= dot q t - dot p t < e).
        { intro q. rewrite M5. unfold side. rewrite !dot_neg_r, !dot_add, !dot_smul, Duu, Dvv, O1, O1', O2, O3 by len. cl. }
        clear M1 M2 M3 M4 M5.
        assert (N45 : NoDup (l4 ++ l5)) by (apply nodup_app; auto; intros q; rewrite M4', M5'; cl).
        assert (N345 : NoDup (l3 ++ l4 ++ l5)) by (apply nodup_app; auto; intros q; rewrite in_app_iff, M3', M4', M5'; cl).
        assert (N2345 : NoDup (l2 ++ l3 ++ l4 ++ l5)) by (apply nodup_app; auto; intros q; rewrite !in_app_iff, M2', M3', M4', M5'; cl).
        assert (Mr : forall q, In q (l2 ++ l3 ++ l4 ++ l5) <-> In q l2 \/ In q l3 \/ In q l4 \/ In q l5) by (intro; rewrite !in_app_iff; tauto).
        apply (box_app _ _ _ _ _ _ _ _ _ _ _ N1 N2345 M1' Mr); intro q; rewrite M2', M3', M4', M5'; unfold side; cl.
Qed.

Theorem gilbert3d_visits width height depth : 1 <= width -> 1 <= height -> 1 <= depth ->
  exists l, gilbert3d width height depth = Some l /\ visits3 width height depth l.
Proof.
  intros Hw Hh Hd. unfold gilbert3d. set (fuel := Z.to_nat (width + height + depth + 1)).
  assert (S1 : forall n, [n; 0; 0] = smul n [1; 0; 0]) by (intro; cbn; repeat apply f_equal2; try reflexivity; lia).
  assert (S2 : forall n, [0; n; 0] = smul n [0; 1; 0]) by (intro; cbn; repeat apply f_equal2; try reflexivity; lia).
  assert (S3 : forall n, [0; 0; n] = smul n [0; 0; 1]) by (intro; cbn; repeat apply f_equal2; try reflexivity; lia).
  assert (F : frame3 [1; 0; 0] [0; 1; 0] [0; 0; 1]) by (repeat split; try reflexivity; right; cbn; auto 10).
  rewrite (S1 width), (S2 height), (S3 depth).
  assert (G : forall u v t w h d, frame3 u v t -> 1 <= w -> 1 <= h -> 1 <= d -> h <= w -> d <= w -> w + h + d = width + height + depth ->
    (forall x y z, side [x; y; z] [0; 0; 0] u w /\ side [x; y; z] [0; 0; 0] v h /\ side [x; y; z] [0; 0; 0] t d <->
       0 <= x < width /\ 0 <= y < height /\ 0 <= z < depth) ->
    exists l, generate3d fuel [0; 0; 0] (smul w u) (smul h v) (smul d t) = Some l /\ visits3 width height depth l).
  { intros u v t w h d F' A1 A2 A3 A4 A5 A6 A7.
    destruct (generate3d_box fuel [0; 0; 0] u v t w h d F' eq_refl) as (l & E & N & M); [unfold fine; lia|subst fuel; lia|].
    exists l. split; auto. split; auto. intro q. rewrite M. split.
    - intros (L & B). destruct q as [|x [|y [|z [|]]]]; try discriminate. exists x, y, z. split; [auto|]. now apply A7.
    - intros (x & y & z & -> & B). split; [reflexivity|]. apply A7. auto. }
  clearbody fuel. destruct ((height <=? width) && (depth <=? width)) eqn:E1; [|destruct ((width <=? height) && (depth <=? height)) eqn:E2].
  - apply G; auto; try lia. intros. unfold side. cbn [dot]. lia.
  - apply G; try lia; [repeat split; try reflexivity; right; cbn; auto 10|]. intros. unfold side. cbn [dot]. lia.
  - apply G; try lia; [repeat split; try reflexivity; right; cbn; auto 10|]. intros. unfold side. cbn [dot]. lia.
Qed.

(** the two tables of the class *)
Lemma tables_inverse {A} (l : list A) q i : NoDup l ->
  (In (q, i) (combine l (seq 0 (length l))) <-> nth_error l i = Some q) /\
  (In (i, q) (combine (seq 0 (length l)) l) <-> nth_error l i = Some q).
Proof.
  intros _. assert (G : forall (m : list A) k, (In (q, i) (combine m (seq k (length m))) <-> (k <= i)%nat /\ nth_error m (i - k) = Some q) /\
                              (In (i, q) (combine (seq k (length m)) m) <-> (k <= i)%nat /\ nth_error m (i - k) = Some q)).
  { induction m as [|a m IH]; intro k; cbn [length seq combine In].
    - split; (split; [tauto|]); intros [_ H]; destruct (i - k)%nat; discriminate.
    - destruct (IH (S k)) as [I1 I2]. rewrite I1, I2.
      assert (X : (k <= i)%nat /\ nth_error (a :: m) (i - k) = Some q <-> (i = k /\ q = a) \/ ((S k <= i)%nat /\ nth_error m (i - S k) = Some q)).
      { destruct (Nat.eq_dec i k) as [->|].
        - rewrite Nat.sub_diag. cbn. split; [intros [_ H]; inversion H; auto|]. intros [[_ ->]|[H _]]; [auto|lia].
        - split.
          + intros [H1 H2]. right. split; [lia|]. replace (i - k)%nat with (S (i - S k)) in H2 by lia. exact H2.
          + intros [[? _]|[H1 H2]]; [lia|]. split; [lia|]. replace (i - k)%nat with (S (i - S k)) by lia. exact H2. }
      rewrite X. split; (split; [intros [H|H]; [inversion H; auto|auto]|intros [[-> ->]|H]; auto]). }
  destruct (G l 0%nat) as [G1 G2]. rewrite Nat.sub_0_r in *. rewrite G1, G2. split; (split; [tauto|]); intro; (split; [lia|auto]).
Qed.
