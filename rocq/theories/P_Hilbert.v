From Verif Require Import Base M_Hilbert S_Hilbert.
Local Open Scope list_scope.
Local Open Scope Z_scope.

Fixpoint dot (a b : vec) : Z := match a, b with x :: a', y :: b' => x * y + dot a' b' | _, _ => 0 end.
Definition smul (n : Z) (u : vec) : vec := map (fun x => n * x) u.
Definition units2 : list vec := [[1;0];[-1;0];[0;1];[0;-1]].
Definition units3 : list vec := [[1;0;0];[-1;0;0];[0;1;0];[0;-1;0];[0;0;1];[0;0;-1]].
Definition unit (n : nat) (u : vec) : Prop := (n = 2%nat /\ In u units2) \/ (n = 3%nat /\ In u units3).

Lemma unit_len n u : unit n u -> length u = n.
Proof. intros [[-> H]|[-> H]]; cbn in H; repeat destruct H as [<-|H]; try tauto; reflexivity. Qed.
Lemma unit_dot n u : unit n u -> dot u u = 1.
Proof. intros [[-> H]|[-> H]]; cbn in H; repeat destruct H as [<-|H]; try tauto; reflexivity. Qed.
Lemma unit_neg n u : unit n u -> unit n (vneg u).
Proof. intros [[-> H]|[-> H]]; [left|right]; (split; [reflexivity|]); cbn in H; repeat destruct H as [<-|H]; try tauto; cbn; auto 10. Qed.

Lemma vadd_len a b : length a = length b -> length (vadd a b) = length a.
Proof. revert b; induction a as [|x a IH]; intros [|y b] H; cbn in *; try lia. f_equal. apply IH. lia. Qed.
Lemma vneg_len a : length (vneg a) = length a. Proof. apply map_length. Qed.
Lemma smul_len n a : length (smul n a) = length a. Proof. apply map_length. Qed.
Lemma dot_add a b u : length a = length b -> dot (vadd a b) u = dot a u + dot b u.
Proof. revert b u; induction a as [|x a IH]; intros [|y b] [|z u] H; cbn in *; try lia. rewrite IH by lia. lia. Qed.
Lemma dot_neg a u : dot (vneg a) u = - dot a u.
Proof. revert u; induction a as [|x a IH]; intros [|z u]; cbn; auto. fold (vneg a). rewrite IH. lia. Qed.
Lemma dot_smul n a u : dot (smul n a) u = n * dot a u.
Proof. revert u; induction a as [|x a IH]; intros [|z u]; cbn; try lia. fold (smul n a). rewrite IH. lia. Qed.
Lemma dot_comm a b : dot a b = dot b a.
Proof. revert b; induction a as [|x a IH]; intros [|y b]; cbn; auto. rewrite IH. lia. Qed.
Lemma dot_neg_r a u : dot a (vneg u) = - dot a u. Proof. rewrite dot_comm, dot_neg, dot_comm. lia. Qed.

Lemma smul_neg n u : smul n (vneg u) = vneg (smul n u).
Proof. unfold smul, vneg. rewrite !map_map. apply map_ext. intro. lia. Qed.
Lemma smul_add n k u : vadd (smul n u) (smul k u) = smul (n + k) u.
Proof. induction u as [|x u IH]; cbn; auto. fold (smul n u). fold (smul k u). rewrite IH. unfold smul. f_equal. lia. Qed.
Lemma smul_sub n k u : vsub (smul n u) (smul k u) = smul (n - k) u.
Proof. unfold vsub. rewrite <- smul_neg. induction u as [|x u IH]; cbn; auto. unfold smul, vneg in IH. rewrite IH. unfold smul. f_equal. lia. Qed.
Lemma smul_1 u : smul 1 u = u.
Proof. unfold smul. rewrite <- (map_id u) at 2. apply map_ext. intro. lia. Qed.

(** sizes: half of a signed length, and the even preference *)
Definition sign (u : vec) : Z := fold_right Z.add 0 u.
Definition half (u : vec) (n : Z) : Z := if 0 <? sign u then n / 2 else (n + 1) / 2.
Definition half_even (u : vec) (n : Z) : Z := let k := half u n in if odd k && (2 <? n) then k + 1 else k.
Ltac ucase H := destruct H as [[-> H]|[-> H]]; cbn in H; repeat destruct H as [<-|H]; try tauto.
Lemma vlen_smul k n u : unit k u -> 0 <= n -> vlen (smul n u) = n.
Proof. intros H Hn. ucase H; unfold vlen, smul; cbn [map fold_right]; lia. Qed.
Lemma sgn_pos x : 0 < x -> sgn x = 1. Proof. unfold sgn. intros. destruct (Z.ltb_spec x 0), (Z.ltb_spec 0 x); lia. Qed.
Lemma sgn_neg x : x < 0 -> sgn x = -1. Proof. unfold sgn. intros. destruct (Z.ltb_spec x 0), (Z.ltb_spec 0 x); lia. Qed.
Lemma sgn_0 n : sgn (n * 0) = 0. Proof. rewrite Z.mul_0_r. reflexivity. Qed.
Lemma vsgn_smul k n u : unit k u -> 1 <= n -> vsgn (smul n u) = u.
Proof.
  intros H Hn.
  assert (P : sgn (n * 1) = 1) by (apply sgn_pos; lia). assert (N : sgn (n * -1) = -1) by (apply sgn_neg; lia).
  ucase H; unfold vsgn, smul; cbn [map]; rewrite ?sgn_0, ?P, ?N; reflexivity.
Qed.
Lemma vhalf_smul k n u : unit k u -> vhalf (smul n u) = smul (half u n) u.
Proof.
  intros H. ucase H; unfold vhalf, smul, half; cbn [map]; unfold sign; cbn [fold_right Z.ltb Z.compare Z.add Pos.compare];
  repeat apply f_equal2; try reflexivity; lia.
Qed.
Lemma half_nonneg u n : 0 <= n -> 0 <= half u n. Proof. unfold half. destruct (0 <? sign u); lia. Qed.
Lemma prefer_smul k n u : unit k u -> 0 <= n -> prefer_even (vhalf (smul n u)) (smul n u) u = smul (half_even u n) u.
Proof.
  intros H Hn. unfold prefer_even, half_even. rewrite (vhalf_smul k) by auto. rewrite !(vlen_smul k); auto using half_nonneg.
  destruct (odd (half u n) && (2 <? n)); auto. rewrite <- smul_add, smul_1. reflexivity.
Qed.
Lemma half_bounds u n : 2 <= n -> 1 <= half u n <= n - 1.
Proof. intros. unfold half. destruct (0 <? sign u); lia. Qed.
Lemma odd_spec n : odd n = true <-> n mod 2 = 1.
Proof. unfold odd. destruct (Z.eqb_spec (n mod 2) 0); cbn; split; intro; try lia; try discriminate; auto. Qed.
Lemma half_even_bounds u n : 2 <= n -> 1 <= half_even u n <= n - 1.
Proof.
  intros H. pose proof (half_bounds u n H) as B. unfold half_even.
  destruct (odd (half u n)) eqn:E; cbn [andb]; [|lia]. apply odd_spec in E.
  destruct (Z.ltb_spec 2 n); [|lia]. unfold half in *. destruct (0 <? sign u); lia.
Qed.
Lemma half_even_even u n : 3 <= n -> half_even u n mod 2 = 0.
Proof.
  intros H. unfold half_even. destruct (odd (half u n)) eqn:E; cbn [andb].
  - apply odd_spec in E. destruct (Z.ltb_spec 2 n); lia.
  - assert (~ half u n mod 2 = 1) by (intro X; apply odd_spec in X; congruence). lia.
Qed.
Lemma half_even_2 u : half_even u 2 = 1.
Proof. unfold half_even, half. destruct (0 <? sign u); reflexivity. Qed.

(** ** regions *)
Definition side (q p u : vec) (n : Z) : Prop := 0 <= dot q u - dot p u < n.

Lemma vadd_0 p u : length u = length p -> vadd p (smul 0 u) = p.
Proof.
  revert p. induction u as [|x u IH]; intros [|y p] H; cbn in *; try lia; auto. f_equal; [lia|]. apply IH; lia.
Qed.
Lemma vadd_next p u i : length u = length p -> vadd (vadd p u) (smul i u) = vadd p (smul (1 + i) u).
Proof.
  revert p. induction u as [|x u IH]; intros [|y p] H; try (cbn in *; lia); auto. cbn [vadd smul map length] in *. f_equal; [lia|]. apply IH; lia.
Qed.
Lemma fill_in n : forall p u q k, unit k u -> length p = k ->
  In q (fill n p u) <-> exists i, 0 <= i < Z.of_nat n /\ q = vadd p (smul i u).
Proof.
  induction n as [|n IH]; intros p u q k Hu Hp; cbn [fill].
  - split; [intros []|]. intros (i & H & _). lia.
  - assert (A0 : vadd p (smul 0 u) = p).
    { apply vadd_0. rewrite (unit_len k u); auto. }
    assert (A1 : forall i, vadd (vadd p u) (smul i u) = vadd p (smul (1 + i) u)).
    { intro i. apply vadd_next. rewrite (unit_len k u); auto. }
    split.
    + intros [<-|H]; [exists 0; split; [lia|auto]|]. apply (IH _ _ _ k) in H; [|auto|rewrite vadd_len; [auto|rewrite (unit_len k u); auto]].
      destruct H as (i & Hi & ->). exists (1 + i). split; [lia|]. apply A1.
    + intros (i & Hi & ->). destruct (Z.eq_dec i 0) as [->|Hn]; [left; auto|right].
      apply (IH _ _ _ k); [auto|rewrite vadd_len; [auto|rewrite (unit_len k u); auto]|].
      exists (i - 1). split; [lia|]. rewrite A1. f_equal. f_equal. lia.
Qed.
Lemma fill_nodup n : forall p u k, unit k u -> length p = k -> NoDup (fill n p u).
Proof.
  induction n as [|n IH]; intros p u k Hu Hp; cbn [fill]; [constructor|]. constructor.
  - intro H. assert (L : length (vadd p u) = k) by (rewrite vadd_len; [auto|rewrite (unit_len k u); auto]).
    apply (fill_in n _ _ _ k Hu L) in H. destruct H as (i & Hi & E).
    apply (f_equal (fun v => dot v u)) in E. rewrite !dot_add, dot_smul, (unit_dot k) in E; auto; try lia.
    + rewrite (unit_len k u); auto.
    + rewrite L, smul_len. symmetry. apply (unit_len k u); auto.
  - apply (IH _ _ k); auto. rewrite vadd_len; [auto|rewrite (unit_len k u); auto].
Qed.

(** directions at right angles determine a vector *)
Lemma basis2 u v q p : unit 2 u -> unit 2 v -> dot u v = 0 -> length q = 2%nat -> length p = 2%nat ->
  dot q u = dot p u -> dot q v = dot p v -> q = p.
Proof.
  intros [[_ Hu]|[X _]] [[_ Hv]|[Y _]] O Lq Lp; try discriminate.
  destruct q as [|q1 [|q2 [|]]], p as [|p1 [|p2 [|]]]; try discriminate.
  cbn in Hu, Hv. repeat destruct Hu as [<-|Hu]; try tauto; repeat destruct Hv as [<-|Hv]; try tauto; cbn in O; try discriminate;
  cbn [dot]; intros; repeat apply f_equal2; try reflexivity; lia.
Qed.
Lemma basis3 u v t q p : unit 3 u -> unit 3 v -> unit 3 t -> dot u v = 0 -> dot u t = 0 -> dot v t = 0 ->
  length q = 3%nat -> length p = 3%nat -> dot q u = dot p u -> dot q v = dot p v -> dot q t = dot p t -> q = p.
Proof.
  intros [[X _]|[_ Hu]] [[Y _]|[_ Hv]] [[Z _]|[_ Ht]] O1 O2 O3 Lq Lp; try discriminate.
  destruct q as [|q1 [|q2 [|q3 [|]]]], p as [|p1 [|p2 [|p3 [|]]]]; try discriminate.
  cbn in Hu, Hv, Ht. repeat destruct Hu as [<-|Hu]; try tauto; repeat destruct Hv as [<-|Hv]; try tauto; cbn in O1; try discriminate;
  repeat destruct Ht as [<-|Ht]; try tauto; cbn in O2, O3; try discriminate;
  cbn [dot]; intros; repeat apply f_equal2; try reflexivity; lia.
Qed.

(** ** two dimensions *)
Definition frame2 (u v : vec) : Prop := unit 2 u /\ unit 2 v /\ dot u v = 0.
Definition rect (p u : vec) (w : Z) (v : vec) (h : Z) (l : list vec) : Prop :=
  NoDup l /\ forall q, In q l <-> length q = 2%nat /\ side q p u w /\ side q p v h.

Lemma frame2_swap u v : frame2 u v -> frame2 v u.
Proof. unfold frame2. rewrite dot_comm. tauto. Qed.
Lemma frame2_neg u v : frame2 u v -> frame2 (vneg v) (vneg u).
Proof. intros (A & B & C). repeat split; auto using unit_neg. rewrite dot_neg, dot_neg_r, dot_comm. lia. Qed.
Lemma rect_row p u v w : frame2 u v -> length p = 2%nat -> 0 <= w -> rect p u w v 1 (fill (Z.to_nat w) p u).
Proof.
  intros (Hu & Hv & O) Hp Hw. split; [apply (fill_nodup _ _ _ 2); auto|]. intro q. rewrite (fill_in _ _ _ _ 2) by auto.
  unfold side. split.
  - intros (i & Hi & ->).
    assert (L : length p = length (smul i u)) by (rewrite smul_len, Hp; symmetry; now apply unit_len).
    rewrite vadd_len, !dot_add, !dot_smul, (unit_dot 2 u), O by auto. lia.
  - intros (Lq & H1 & H2). exists (dot q u - dot p u). split; [lia|].
    assert (L : length p = length (smul (dot q u - dot p u) u)) by (rewrite smul_len, Hp; symmetry; now apply unit_len).
    apply (basis2 u v); auto.
    + rewrite vadd_len; auto.
    + rewrite dot_add, dot_smul, (unit_dot 2 u) by auto. lia.
    + rewrite dot_add, dot_smul, O by auto. lia.
Qed.
Lemma rect_sym p u v w h l : rect p u w v h l -> rect p v h u w l.
Proof. intros [H1 H2]. split; auto. intro q. rewrite H2. tauto. Qed.
Lemma nodup_app {A} (l m : list A) : NoDup l -> NoDup m -> (forall x, In x l -> In x m -> False) -> NoDup (l ++ m).
Proof.
  induction l as [|a l IH]; intros Hl Hm D; cbn; auto. apply NoDup_cons_iff in Hl. destruct Hl. constructor.
  - rewrite in_app_iff. intros [|]; [tauto|]. apply (D a); cbn; auto.
  - apply IH; auto. intros x Hx Hy. apply (D x); cbn; auto.
Qed.

Ltac len := rewrite ?smul_len, ?vneg_len; first [congruence|rewrite vadd_len; len].

Theorem generate2d_rect fuel : forall p u v w h, frame2 u v -> length p = 2%nat -> 1 <= w -> 1 <= h -> w + h < Z.of_nat fuel ->
  exists l, generate2d fuel p (smul w u) (smul h v) = Some l /\ rect p u w v h l.
Proof.
  induction fuel as [|f IH]; intros p u v w h F Hp Hw Hh Hf; [lia|].
  pose proof F as (Hu & Hv & O).
  cbn [generate2d]. rewrite !(vlen_smul 2), !(vsgn_smul 2) by (auto; lia).
  destruct (Z.eqb_spec h 1) as [->|Nh].
  { eexists; split; [reflexivity|]. now apply rect_row; try lia. }
  destruct (Z.eqb_spec w 1) as [->|Nw].
  { eexists; split; [reflexivity|]. apply rect_sym, rect_row; auto using frame2_swap. lia. }
  assert (Lu : length u = 2%nat) by (now apply unit_len). assert (Lv : length v = 2%nat) by (now apply unit_len).
  assert (Duu : dot u u = 1) by (now apply (unit_dot 2)). assert (Dvv : dot v v = 1) by (now apply (unit_dot 2)).
  assert (Ovu : dot v u = 0) by (rewrite dot_comm; auto).
  destruct (Z.ltb_spec (3 * h) (2 * w)).
  - rewrite (prefer_smul 2) by (auto; lia). rewrite smul_sub.
    pose proof (half_even_bounds u w ltac:(lia)) as B. set (k := half_even u w) in *.
    destruct (IH p u v k h F Hp ltac:(lia) Hh ltac:(lia)) as (l1 & E1 & N1 & M1).
    destruct (IH (vadd p (smul k u)) u v (w - k) h F) as (l2 & E2 & N2 & M2); try lia.
    { len. }
    rewrite E1, E2. cbn [cat]. eexists; split; [reflexivity|].
    assert (M2' : forall q, In q l2 <-> length q = 2%nat /\ k <= dot q u - dot p u < w /\ side q p v h).
    { intro q. rewrite M2. unfold side. rewrite !dot_add, !dot_smul, Duu, O by len. intuition lia. }
    split.
    + apply nodup_app; auto. intros q H1 H2. apply M1 in H1. apply M2' in H2. unfold side in *. lia.
    + intro q. rewrite in_app_iff, M1, M2'. unfold side. intuition lia.
  - rewrite (prefer_smul 2) by (auto; lia). rewrite (vhalf_smul 2) by auto.
    replace (vsub (smul w u) u) with (smul (w - 1) u) by (rewrite <- smul_sub, smul_1; auto).
    pose proof (half_even_bounds v h ltac:(lia)) as B. set (k := half_even v h) in *.
    pose proof (half_bounds u w ltac:(lia)) as Bu. set (m := half u w) in *.
    replace (vsub (smul k v) v) with (smul (k - 1) v) by (rewrite <- smul_sub, smul_1; auto).
    rewrite !smul_sub. rewrite <- !smul_neg.
    destruct (IH p v u k m (frame2_swap _ _ F) Hp) as (l1 & E1 & N1 & M1); try lia.
    destruct (IH (vadd p (smul k v)) u v w (h - k) F) as (l2 & E2 & N2 & M2); try lia.
    { len. }
    destruct (IH (vadd (vadd p (smul (w - 1) u)) (smul (k - 1) v)) (vneg v) (vneg u) k (w - m) (frame2_neg _ _ F)) as (l3 & E3 & N3 & M3); try lia.
    { len. }
    rewrite E1, E2, E3. cbn [cat]. eexists; split; [reflexivity|].
    assert (M1' : forall q, In q l1 <-> length q = 2%nat /\ 0 <= dot q u - dot p u < m /\ 0 <= dot q v - dot p v < k).
    { intro q. rewrite M1. unfold side. intuition lia. }
    assert (M2' : forall q, In q l2 <-> length q = 2%nat /\ 0 <= dot q u - dot p u < w /\ k <= dot q v - dot p v < h).
    { intro q. rewrite M2. unfold side. rewrite !dot_add, !dot_smul, Ovu, Dvv by len. intuition lia. }
    assert (M3' : forall q, In q l3 <-> length q = 2%nat /\ m <= dot q u - dot p u < w /\ 0 <= dot q v - dot p v < k).
    { intro q. rewrite M3. unfold side. rewrite !dot_neg_r, !dot_add, !dot_smul, Ovu, Dvv, Duu, O by len. intuition lia. }
    clear M1 M2 M3. split.
    + apply nodup_app; [auto|apply nodup_app; auto|].
      * intros q H1 H2. apply M2' in H1. apply M3' in H2. lia.
      * intros q H1 H2. apply M1' in H1. apply in_app_iff in H2. rewrite M2', M3' in H2. lia.
    + intro q. rewrite !in_app_iff, M1', M2', M3'. unfold side. intuition lia.
Qed.

Theorem gilbert2d_visits width height : 1 <= width -> 1 <= height ->
  exists l, gilbert2d width height = Some l /\ visits2 width height l.
Proof.
  intros Hw Hh. unfold gilbert2d. set (fuel := Z.to_nat (width + height + 1)).
  assert (S1 : forall n, [n; 0] = smul n [1; 0]) by (intro; cbn; repeat apply f_equal2; try reflexivity; lia).
  assert (S2 : forall n, [0; n] = smul n [0; 1]) by (intro; cbn; repeat apply f_equal2; try reflexivity; lia).
  assert (F : frame2 [1; 0] [0; 1]) by (repeat split; try reflexivity; left; cbn; auto).
  destruct (height <=? width) eqn:E.
  - destruct (generate2d_rect fuel [0; 0] [1; 0] [0; 1] width height F eq_refl Hw Hh ltac:(lia)) as (l & El & Nl & Ml).
    exists l. rewrite (S1 width), (S2 height). split; [exact El|split; auto]. intro q. rewrite Ml. unfold side. split.
    + intros (L & A & B). destruct q as [|x [|y [|]]]; try discriminate. cbn in A, B. exists x, y. split; [auto|lia].
    + intros (x & y & -> & A & B). cbn. lia.
  - destruct (generate2d_rect fuel [0; 0] [0; 1] [1; 0] height width (frame2_swap _ _ F) eq_refl Hh Hw ltac:(lia)) as (l & El & Nl & Ml).
    exists l. rewrite (S1 width), (S2 height). split; [exact El|split; auto]. intro q. rewrite Ml. unfold side. split.
    + intros (L & A & B). destruct q as [|x [|y [|]]]; try discriminate. cbn in A, B. exists x, y. split; [auto|lia].
    + intros (x & y & -> & A & B). cbn. lia.
Qed.

(** ** consecutive cells *)
Definition next_to (k : nat) (p q : vec) : Prop := exists u, unit k u /\ q = vadd p u.
Inductive path (k : nat) : vec -> vec -> list vec -> Prop :=
| path_one : forall p, length p = k -> path k p p [p]
| path_cons : forall p q e l, length p = k -> next_to k p q -> path k q e l -> path k p e (p :: l).
Lemma path_app k s e s' e' l1 l2 : path k s e l1 -> next_to k e s' -> path k s' e' l2 -> path k s e' (l1 ++ l2).
Proof.
  intros P1 N P2. induction P1 as [p|p q e l Lp Hn P1 IH]; cbn.
  - now apply path_cons with s'.
  - apply path_cons with q; auto.
Qed.
Lemma path_fill k n : forall p u, unit k u -> length p = k -> path k p (vadd p (smul (Z.of_nat n) u)) (fill (S n) p u).
Proof.
  induction n as [|n IH]; intros p u Hu Hp.
  - cbn [fill]. rewrite vadd_0 by (rewrite (unit_len k u); auto). now constructor.
  - change (fill (S (S n)) p u) with (p :: fill (S n) (vadd p u) u). apply path_cons with (vadd p u); [auto|exists u; auto|].
    replace (vadd p (smul (Z.of_nat (S n)) u)) with (vadd (vadd p u) (smul (Z.of_nat n) u)).
    + apply IH; auto. rewrite vadd_len; auto. rewrite (unit_len k u); auto.
    + rewrite vadd_next by (rewrite (unit_len k u); auto). f_equal. f_equal. lia.
Qed.
Lemma vadd_assoc a b c : vadd (vadd a b) c = vadd a (vadd b c).
Proof. revert b c; induction a as [|x a IH]; intros [|y b] [|z c]; cbn; auto. f_equal; [lia|apply IH]. Qed.
Lemma vadd_comm a b : vadd a b = vadd b a.
Proof. revert b; induction a as [|x a IH]; intros [|y b]; cbn; auto. f_equal; [lia|apply IH]. Qed.

Theorem generate2d_path fuel : forall p u v w h, frame2 u v -> length p = 2%nat -> 1 <= w -> 1 <= h -> w + h < Z.of_nat fuel ->
  h = 1 \/ w mod 2 = 0 ->
  exists l, generate2d fuel p (smul w u) (smul h v) = Some l /\ path 2 p (vadd p (smul (w - 1) u)) l.
Proof.
  induction fuel as [|f IH]; intros p u v w h F Hp Hw Hh Hf Ev; [lia|].
  pose proof F as (Hu & Hv & O).
  cbn [generate2d]. rewrite !(vlen_smul 2), !(vsgn_smul 2) by (auto; lia).
  destruct (Z.eqb_spec h 1) as [->|Nh].
  { eexists; split; [reflexivity|]. replace (Z.to_nat w) with (S (Z.to_nat (w - 1))) by lia.
    replace (smul (w - 1) u) with (smul (Z.of_nat (Z.to_nat (w - 1))) u) by (f_equal; lia). now apply path_fill. }
  destruct (Z.eqb_spec w 1) as [->|Nw].
  { destruct Ev as [|Ev]; [lia|discriminate]. }
  assert (Lu : length u = 2%nat) by (now apply unit_len). assert (Lv : length v = 2%nat) by (now apply unit_len).
  assert (Ev' : w mod 2 = 0) by lia. clear Ev.
  destruct (Z.ltb_spec (3 * h) (2 * w)).
  - rewrite (prefer_smul 2) by (auto; lia). rewrite smul_sub.
    pose proof (half_even_bounds u w ltac:(lia)) as B. pose proof (half_even_even u w ltac:(lia)) as Be. set (k := half_even u w) in *.
    destruct (IH p u v k h F Hp ltac:(lia) Hh ltac:(lia) ltac:(lia)) as (l1 & E1 & P1).
    destruct (IH (vadd p (smul k u)) u v (w - k) h F) as (l2 & E2 & P2); try lia; [len|].
    rewrite E1, E2. cbn [cat]. eexists; split; [reflexivity|].
    replace (vadd p (smul (w - 1) u)) with (vadd (vadd p (smul k u)) (smul (w - k - 1) u)).
    + apply path_app with (vadd p (smul (k - 1) u)) (vadd p (smul k u)); auto.
      exists u. split; auto. rewrite vadd_assoc. f_equal. rewrite <- (smul_1 u) at 3. rewrite smul_add. f_equal. lia.
    + rewrite vadd_assoc, smul_add. f_equal. f_equal. lia.
  - rewrite (prefer_smul 2) by (auto; lia). rewrite (vhalf_smul 2) by auto.
    replace (vsub (smul w u) u) with (smul (w - 1) u) by (rewrite <- smul_sub, smul_1; auto).
    pose proof (half_even_bounds v h ltac:(lia)) as B. set (k := half_even v h) in *.
    pose proof (half_bounds u w ltac:(lia)) as Bu. set (m := half u w) in *.
    replace (vsub (smul k v) v) with (smul (k - 1) v) by (rewrite <- smul_sub, smul_1; auto).
    rewrite !smul_sub. rewrite <- !smul_neg.
    assert (Ek : (m = 1 /\ w = 2) \/ k mod 2 = 0).
    { destruct (Z.eq_dec h 2) as [->|]; [left|right; apply half_even_even; lia].
      assert (w = 2) by lia. split; auto. subst m w. unfold half. destruct (0 <? sign u); reflexivity. }
    destruct (IH p v u k m (frame2_swap _ _ F) Hp) as (l1 & E1 & P1); try lia.
    destruct (IH (vadd p (smul k v)) u v w (h - k) F) as (l2 & E2 & P2); try lia; [len|].
    destruct (IH (vadd (vadd p (smul (w - 1) u)) (smul (k - 1) v)) (vneg v) (vneg u) k (w - m) (frame2_neg _ _ F)) as (l3 & E3 & P3); try lia; [len|].
    rewrite E1, E2, E3. cbn [cat]. eexists; split; [reflexivity|].
    replace (vadd p (smul (w - 1) u)) with (vadd (vadd (vadd p (smul (w - 1) u)) (smul (k - 1) v)) (smul (k - 1) (vneg v))).
    + apply path_app with (vadd p (smul (k - 1) v)) (vadd p (smul k v)); auto.
      * exists v. split; auto. rewrite vadd_assoc. f_equal. rewrite <- (smul_1 v) at 3. rewrite smul_add. f_equal. lia.
      * apply path_app with (vadd (vadd p (smul k v)) (smul (w - 1) u)) (vadd (vadd p (smul (w - 1) u)) (smul (k - 1) v)); auto.
        exists (vneg v). split; [now apply unit_neg|]. rewrite !vadd_assoc. f_equal. rewrite (vadd_comm (smul (w - 1) u) (vneg v)), <- vadd_assoc, vadd_comm. f_equal.
        rewrite <- (smul_1 v) at 3. rewrite <- smul_neg. rewrite smul_neg. change (vadd (smul k v) (vneg (smul 1 v))) with (vsub (smul k v) (smul 1 v)). now rewrite smul_sub.
    + rewrite vadd_assoc, smul_neg. change (vadd (smul (k - 1) v) (vneg (smul (k - 1) v))) with (vsub (smul (k - 1) v) (smul (k - 1) v)).
      rewrite smul_sub. replace (k - 1 - (k - 1)) with 0 by lia. apply vadd_0. len.
Qed.

Lemma next_to_side2 p q : length p = 2%nat -> next_to 2 p q -> side_by_side p q.
Proof.
  intros Lp (u & Hu & ->). destruct p as [|x [|y [|]]]; try discriminate. destruct Hu as [[_ Hu]|[X _]]; [|discriminate].
  cbn in Hu. repeat destruct Hu as [<-|Hu]; try tauto; cbn.
  - exists [], x, (x + 1), [y]. cbn. repeat split; repeat apply f_equal2; try reflexivity; lia.
  - exists [], x, (x + -1), [y]. cbn. repeat split; repeat apply f_equal2; try reflexivity; lia.
  - exists [x], y, (y + 1), []. cbn. repeat split; repeat apply f_equal2; try reflexivity; lia.
  - exists [x], y, (y + -1), []. cbn. repeat split; repeat apply f_equal2; try reflexivity; lia.
Qed.
Lemma path_head k s e l : path k s e l -> nth_error l 0 = Some s.
Proof. destruct 1; reflexivity. Qed.
Lemma path_unbroken s e l : path 2 s e l -> unbroken l.
Proof.
  induction 1 as [p Lp|p q e l Lp N P IH]; intros k a b Ha Hb.
  - destruct k as [|k]; cbn in Hb; [discriminate|destruct k; discriminate].
  - destruct k as [|k]; cbn in Ha, Hb.
    + change (nth_error l 0 = Some b) in Hb. rewrite (path_head _ _ _ _ P) in Hb. inversion Ha; inversion Hb; subst. now apply next_to_side2.
    + apply (IH k); auto.
Qed.
Theorem gilbert2d_unbroken width height l : 1 <= width -> 1 <= height -> Z.max width height mod 2 = 0 ->
  gilbert2d width height = Some l -> unbroken l.
Proof.
  intros Hw Hh Ev E. unfold gilbert2d in E. set (fuel := Z.to_nat (width + height + 1)) in *.
  assert (S1 : forall n, [n; 0] = smul n [1; 0]) by (intro; cbn; repeat apply f_equal2; try reflexivity; lia).
  assert (S2 : forall n, [0; n] = smul n [0; 1]) by (intro; cbn; repeat apply f_equal2; try reflexivity; lia).
  assert (F : frame2 [1; 0] [0; 1]) by (repeat split; try reflexivity; left; cbn; auto).
  rewrite (S1 width), (S2 height) in E. destruct (Z.leb_spec height width).
  - destruct (generate2d_path fuel [0; 0] [1; 0] [0; 1] width height F eq_refl Hw Hh ltac:(lia)) as (l' & E' & P); [right; lia|].
    rewrite E' in E. inversion E; subst. now apply path_unbroken in P.
  - destruct (generate2d_path fuel [0; 0] [0; 1] [1; 0] height width (frame2_swap _ _ F) eq_refl Hh Hw ltac:(lia)) as (l' & E' & P); [right; lia|].
    rewrite E' in E. inversion E; subst. now apply path_unbroken in P.
Qed.
