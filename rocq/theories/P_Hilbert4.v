From Verif Require Import Base M_Hilbert S_Hilbert P_Hilbert P_Hilbert3.
Local Open Scope list_scope.
Local Open Scope Z_scope.

(** ** consecutive cells in three dimensions *)
(** sizes met when all three sizes are even *)
Definition evenish (n : Z) : Prop := n = 1 \/ (2 <= n /\ n mod 2 = 0).
Lemma half_evenish u n : evenish n -> 2 <= n -> evenish (half_even u n) /\ evenish (n - half_even u n).
Proof.
  intros [->|[H E]] H2; [lia|]. pose proof (half_even_bounds u n H2). destruct (Z.eq_dec n 2) as [->|].
  - rewrite half_even_2. split; left; reflexivity.
  - pose proof (half_even_even u n ltac:(lia)). split; right; lia.
Qed.
Lemma half_even_cases u n : evenish n -> 2 <= n -> (n = 2 /\ half_even u n = 1) \/ (2 <= half_even u n /\ half_even u n mod 2 = 0).
Proof.
  intros E H. destruct (Z.eq_dec n 2) as [->|]; [left; split; [auto|apply half_even_2]|right].
  split; [apply half_even_big; lia|apply half_even_even; lia].
Qed.

Ltac vec3 := repeat match goal with H : length ?v = 3%nat |- _ => is_var v;
    let x := fresh "x" in let y := fresh "y" in let z := fresh "z" in
    destruct v as [|x [|y [|z [|]]]]; try discriminate H; clear H end;
  cbn [smul vadd vneg vsub map]; repeat match goal with |- _ :: _ = _ :: _ => apply f_equal2 end; try reflexivity; ring.
Definition leads (fuel : nat) (p u : vec) (w : Z) (v : vec) (h : Z) (t : vec) (d : Z) (e : vec) : Prop :=
  exists l, generate3d fuel p (smul w u) (smul h v) (smul d t) = Some l /\ path 3 p e l.

Theorem generate3d_path fuel : forall p u v t w h d e, frame3 u v t -> length p = 3%nat -> evenish w -> evenish h -> evenish d ->
  (2 <= w \/ (h = 1 /\ d = 1)) -> w + h + d < Z.of_nat fuel -> e = vadd p (smul (w - 1) u) -> leads fuel p u w v h t d e.
Proof.
  induction fuel as [|f IH]; intros p u v t w h d z F Hp Ew Eh Ed Hthin Hf ->; [unfold evenish in *; lia|].
  assert (Hw : 1 <= w) by (unfold evenish in *; lia). assert (Hh : 1 <= h) by (unfold evenish in *; lia). assert (Hd : 1 <= d) by (unfold evenish in *; lia).
  pose proof F as (Hu & Hv & Ht & O1 & O2 & O3). unfold leads.
  cbn [generate3d]. rewrite !vl by (auto; lia).
  destruct ((h =? 1) && (d =? 1)) eqn:C1.
  { rewrite (vsgn_smul 3) by auto. eexists; split; [reflexivity|]. replace (Z.to_nat w) with (S (Z.to_nat (w - 1))) by lia.
    replace (smul (w - 1) u) with (smul (Z.of_nat (Z.to_nat (w - 1))) u) by (f_equal; lia). now apply path_fill. }
  destruct ((w =? 1) && (d =? 1)) eqn:C2; [lia|]. destruct ((w =? 1) && (h =? 1)) eqn:C3; [lia|].
  rewrite !pe by (auto; lia). rewrite !(vsgn_smul 3) by auto.
  assert (Lu : length u = 3%nat) by (now apply unit_len). assert (Lv : length v = 3%nat) by (now apply unit_len). assert (Lt : length t = 3%nat) by (now apply unit_len).
  assert (S1 : forall n e, vsub (smul n e) e = smul (n - 1) e) by (intros; rewrite <- smul_sub, smul_1; auto).
  rewrite !S1, !smul_sub, <- !smul_neg.
  assert (2 <= w) as Hw2 by lia.
  pose proof (half_even_bounds u w Hw2) as Bm. destruct (half_evenish u w Ew Hw2) as [Em Em']. pose proof (half_even_cases u w Ew Hw2) as Cm.
  set (m := half_even u w) in *. clear Hthin.
  destruct ((3 * h <? 2 * w) && (3 * d <? 2 * w)) eqn:C4.
  - destruct (IH p u v t m h d (vadd p (smul (m - 1) u)) F Hp) as (l1 & E1 & P1); auto; try lia.
    destruct (IH (vadd p (smul m u)) u v t (w - m) h d (vadd p (smul (w - 1) u)) F) as (l2 & E2 & P2); auto; try lia; [len|unfold evenish in *; lia|vec3|].
    rewrite E1, E2. cbn [cat]. eexists; split; [reflexivity|].
    eapply path_app; [exact P1| |exact P2]. exists u. split; auto. vec3.
  - destruct (4 * d <? 3 * h) eqn:C5.
    + assert (Hh2 : 2 <= h) by lia.
      pose proof (half_even_bounds v h Hh2) as Bk. destruct (half_evenish v h Eh Hh2) as [Ek Ek']. pose proof (half_even_cases v h Eh Hh2) as Ck.
      set (k := half_even v h) in *.
      assert (X : 2 <= k \/ (d = 1 /\ m = 1 /\ w - m = 1)).
      { destruct Ck as [[-> Ck]|Ck]; [right|lia]. assert (d = 1) by lia. assert (w = 2) by (unfold evenish in *; lia). lia. }
      destruct (IH p v t u k d m (vadd p (smul (k - 1) v))) as (l1 & E1 & P1); auto; try lia; [fr|].
      destruct (IH (vadd p (smul k v)) u v t w (h - k) d (vadd (vadd p (smul k v)) (smul (w - 1) u)) F) as (l2 & E2 & P2); auto; try lia; [len|].
      destruct (IH (vadd (vadd p (smul (w - 1) u)) (smul (k - 1) v)) (vneg v) t (vneg u) k d (w - m) (vadd p (smul (w - 1) u))) as (l3 & E3 & P3); auto; try lia; [fr|len|vec3|].
      rewrite E1, E2, E3. cbn [cat]. eexists; split; [reflexivity|].
      eapply path_app; [exact P1| |eapply path_app; [exact P2| |exact P3]].
      * exists v. split; auto. vec3.
      * exists (vneg v). split; [now apply unit_neg|]. vec3.
    + destruct (4 * h <? 3 * d) eqn:C6.
      * assert (Hd2 : 2 <= d) by lia.
        pose proof (half_even_bounds t d Hd2) as Bk. destruct (half_evenish t d Ed Hd2) as [Ek Ek']. pose proof (half_even_cases t d Ed Hd2) as Ck.
        set (k := half_even t d) in *.
        assert (X : 2 <= k \/ (h = 1 /\ m = 1 /\ w - m = 1)).
        { destruct Ck as [[-> Ck]|Ck]; [right|lia]. assert (h = 1) by lia. assert (w = 2) by (unfold evenish in *; lia). lia. }
        destruct (IH p t u v k m h (vadd p (smul (k - 1) t))) as (l1 & E1 & P1); auto; try lia; [fr|].
        destruct (IH (vadd p (smul k t)) u v t w h (d - k) (vadd (vadd p (smul k t)) (smul (w - 1) u)) F) as (l2 & E2 & P2); auto; try lia; [len|].
        destruct (IH (vadd (vadd p (smul (w - 1) u)) (smul (k - 1) t)) (vneg t) (vneg u) v k (w - m) h (vadd p (smul (w - 1) u))) as (l3 & E3 & P3); auto; try lia; [fr|len|vec3|].
        rewrite E1, E2, E3. cbn [cat]. eexists; split; [reflexivity|].
        eapply path_app; [exact P1| |eapply path_app; [exact P2| |exact P3]].
        -- exists t. split; auto. vec3.
        -- exists (vneg t). split; [now apply unit_neg|]. vec3.
      * assert (2 <= h /\ 2 <= d) as [Hh2 Hd2] by lia.
        pose proof (half_even_bounds v h Hh2) as Bk. destruct (half_evenish v h Eh Hh2) as [Ek Ek']. pose proof (half_even_cases v h Eh Hh2) as Ck.
        pose proof (half_even_bounds t d Hd2) as Be. destruct (half_evenish t d Ed Hd2) as [Ee Ee']. pose proof (half_even_cases t d Ed Hd2) as Ce.
        set (k := half_even v h) in *. set (e := half_even t d) in *.
        assert (X : 2 <= k \/ (e = 1 /\ m = 1 /\ w - m = 1)).
        { destruct Ck as [[Y Ck]|Ck]; [right|lia]. assert (d = 2) by lia. assert (w = 2) by (unfold evenish in *; lia). lia. }
        destruct (IH p v t u k e m (vadd p (smul (k - 1) v))) as (l1 & E1 & P1); auto; try lia; [fr|].
        destruct (IH (vadd p (smul k v)) t u v d m (h - k) (vadd (vadd p (smul k v)) (smul (d - 1) t))) as (l2 & E2 & P2); auto; try lia; [fr|len|].
        destruct (IH (vadd (vadd p (smul (k - 1) v)) (smul (d - 1) t)) u (vneg v) (vneg t) w k (d - e)
                    (vadd (vadd (vadd p (smul (w - 1) u)) (smul (k - 1) v)) (smul (d - 1) t))) as (l3 & E3 & P3); auto; try lia; [fr|len|vec3|].
        destruct (IH (vadd (vadd (vadd p (smul (w - 1) u)) (smul k v)) (smul (d - 1) t)) (vneg t) (vneg u) v d (w - m) (h - k)
                    (vadd (vadd p (smul (w - 1) u)) (smul k v))) as (l4 & E4 & P4); auto; try lia; [fr|len|vec3|].
        destruct (IH (vadd (vadd p (smul (w - 1) u)) (smul (k - 1) v)) (vneg v) t (vneg u) k e (w - m) (vadd p (smul (w - 1) u))) as (l5 & E5 & P5); auto; try lia; [fr|len|vec3|].
        rewrite E1, E2, E3, E4, E5. cbn [cat]. eexists; split; [reflexivity|].
        eapply path_app; [exact P1| |eapply path_app; [exact P2| |eapply path_app; [exact P3| |eapply path_app; [exact P4| |exact P5]]]].
        -- exists v. split; auto. vec3.
        -- exists (vneg v). split; [now apply unit_neg|]. vec3.
        -- exists v. split; auto. vec3.
        -- exists (vneg v). split; [now apply unit_neg|]. vec3.
Qed.

Lemma next_to_side3 p q : length p = 3%nat -> next_to 3 p q -> side_by_side p q.
Proof.
  intros Lp (u & Hu & ->). destruct p as [|x [|y [|z [|]]]]; try discriminate. destruct Hu as [[X _]|[_ Hu]]; [discriminate|].
  cbn in Hu. repeat destruct Hu as [<-|Hu]; try tauto; cbn.
  - exists [], x, (x + 1), [y; z]. cbn. repeat split; repeat apply f_equal2; try reflexivity; lia.
  - exists [], x, (x + -1), [y; z]. cbn. repeat split; repeat apply f_equal2; try reflexivity; lia.
  - exists [x], y, (y + 1), [z]. cbn. repeat split; repeat apply f_equal2; try reflexivity; lia.
  - exists [x], y, (y + -1), [z]. cbn. repeat split; repeat apply f_equal2; try reflexivity; lia.
  - exists [x; y], z, (z + 1), []. cbn. repeat split; repeat apply f_equal2; try reflexivity; lia.
  - exists [x; y], z, (z + -1), []. cbn. repeat split; repeat apply f_equal2; try reflexivity; lia.
Qed.
Lemma path_unbroken3 s e l : path 3 s e l -> unbroken l.
Proof.
  induction 1 as [p Lp|p q e l Lp N P IH]; intros k a b Ha Hb.
  - destruct k as [|k]; cbn in Hb; [discriminate|destruct k; discriminate].
  - destruct k as [|k]; cbn in Ha, Hb.
    + change (nth_error l 0 = Some b) in Hb. rewrite (path_head _ _ _ _ P) in Hb. inversion Ha; inversion Hb; subst. now apply next_to_side3.
    + apply (IH k); auto.
Qed.
Theorem gilbert3d_unbroken width height depth l : 1 <= width -> 1 <= height -> 1 <= depth ->
  width mod 2 = 0 -> height mod 2 = 0 -> depth mod 2 = 0 -> gilbert3d width height depth = Some l -> unbroken l.
Proof.
  intros Hw Hh Hd Ew Eh Ed. unfold gilbert3d. remember (Z.to_nat (width + height + depth + 1)) as fuel eqn:Ef.
  assert (S1 : forall n, [n; 0; 0] = smul n [1; 0; 0]) by (intro; cbn; repeat apply f_equal2; try reflexivity; lia).
  assert (S2 : forall n, [0; n; 0] = smul n [0; 1; 0]) by (intro; cbn; repeat apply f_equal2; try reflexivity; lia).
  assert (S3 : forall n, [0; 0; n] = smul n [0; 0; 1]) by (intro; cbn; repeat apply f_equal2; try reflexivity; lia).
  rewrite (S1 width), (S2 height), (S3 depth).
  assert (G : forall u v t w h d, frame3 u v t -> w + h + d = width + height + depth -> evenish w -> evenish h -> evenish d -> 2 <= w ->
    generate3d fuel [0; 0; 0] (smul w u) (smul h v) (smul d t) = Some l -> unbroken l).
  { intros u v t w h d F Es E1 E2 E3 H2 E. destruct (generate3d_path fuel [0; 0; 0] u v t w h d (vadd [0;0;0] (smul (w - 1) u)) F eq_refl E1 E2 E3 (or_introl H2)) as (l' & E' & P); [lia|reflexivity|].
    rewrite E' in E. inversion E; subst. now apply path_unbroken3 in P. }
  assert (evenish width) by (right; lia). assert (evenish height) by (right; lia). assert (evenish depth) by (right; lia).
  destruct ((height <=? width) && (depth <=? width)) eqn:E1; [|destruct ((width <=? height) && (depth <=? height)) eqn:E2];
    apply G; auto; try lia; repeat split; try reflexivity; right; cbn; auto 10.
Qed.
