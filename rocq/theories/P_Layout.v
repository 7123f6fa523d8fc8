(** Proofs about the patch layout. *)
From Verif Require Import Base M_Layout S_Layout P_Output.
From Coq Require Import QArith Lqa.
Local Open Scope list_scope.
Local Open Scope Z_scope.

Lemma bc_eqb_eq a b : bc_eqb a b = true <-> a = b.
Proof. destruct a, b; cbn; split; intro H; try reflexivity; discriminate. Qed.
Lemma list_eqb_eq a b : list_eqb a b = true <-> a = b.
Proof. unfold list_eqb. destruct (list_eq_dec Z.eq_dec a b); split; intro; auto; congruence. Qed.

(** *** opposite tables *)
Lemma opposite2_ok i : (i < 8)%nat ->
  nth (nth i opposite2 0%nat) bounds2 [] = neg (nth i bounds2 []) /\ (nth i opposite2 0 < 8)%nat /\ nth (nth i opposite2 0%nat) opposite2 0%nat = i.
Proof. intro H. do 8 (destruct i as [|i]; [cbn; repeat split; lia|]). lia. Qed.
Lemma opposite3_ok i : (i < 26)%nat ->
  nth (nth i opposite3 0%nat) bounds3 [] = neg (nth i bounds3 []) /\ (nth i opposite3 0 < 26)%nat /\ nth (nth i opposite3 0%nat) opposite3 0%nat = i.
Proof. intro H. do 26 (destruct i as [|i]; [cbn; repeat split; lia|]). lia. Qed.
Lemma bounds2_all off : (exists dx dy, off = [dx; dy] /\ -1 <= dx <= 1 /\ -1 <= dy <= 1 /\ ~ (dx = 0 /\ dy = 0)) <-> In off bounds2.
Proof.
  split.
  - intros (dx & dy & -> & Hx & Hy & N).
    assert (X : dx = -1 \/ dx = 0 \/ dx = 1) by lia. assert (Y : dy = -1 \/ dy = 0 \/ dy = 1) by lia. unfold bounds2.
    destruct X as [->|[->| ->]], Y as [->|[->| ->]]; cbn [In]; auto 30; exfalso; apply N; auto.
  - unfold bounds2. cbn [In]. intro H. repeat destruct H as [<-|H]; try (eexists; eexists; split; [reflexivity|]; lia). contradiction.
Qed.
Lemma bounds3_all off : (exists dx dy dz, off = [dx; dy; dz] /\ -1 <= dx <= 1 /\ -1 <= dy <= 1 /\ -1 <= dz <= 1 /\ ~ (dx = 0 /\ dy = 0 /\ dz = 0)) <-> In off bounds3.
Proof.
  split.
  - intros (dx & dy & dz & -> & Hx & Hy & Hz & N).
    assert (X : dx = -1 \/ dx = 0 \/ dx = 1) by lia. assert (Y : dy = -1 \/ dy = 0 \/ dy = 1) by lia. assert (W : dz = -1 \/ dz = 0 \/ dz = 1) by lia. unfold bounds3.
    destruct X as [->|[->| ->]], Y as [->|[->| ->]], W as [->|[->| ->]]; cbn [In]; auto 40; exfalso; apply N; auto.
  - unfold bounds3. cbn [In]. intro H. repeat destruct H as [<-|H]; try (eexists; eexists; eexists; split; [reflexivity|]; lia). contradiction.
Qed.

(** *** wrapping *)
Lemma wrap_range a i k : 1 <= ax_n a -> wrap a i = Some k -> 0 <= k < ax_n a.
Proof.
  intros Hn. unfold wrap. destruct (i <? 0) eqn:E1; [destruct (bc_eqb _ _); intro H; inversion H; lia|].
  destruct (ax_n a <=? i) eqn:E2; [destruct (bc_eqb _ _); intro H; inversion H; lia|]. intro H; inversion H; lia.
Qed.
Lemma wrap_back a i d k : ax_lo a = ax_hi a -> 0 <= i < ax_n a -> -1 <= d <= 1 -> wrap a (i + d) = Some k -> wrap a (k + - d) = Some i.
Proof.
  intros U Hi Hd. unfold wrap. rewrite <- U. destruct (bc_eqb (ax_lo a) Periodic) eqn:B.
  - destruct (i + d <? 0) eqn:E1; [intro H; inversion H; subst|].
    + destruct (ax_n a - 1 + - d <? 0) eqn:E3; [f_equal; lia|]. destruct (ax_n a <=? ax_n a - 1 + - d) eqn:E4; f_equal; lia.
    + destruct (ax_n a <=? i + d) eqn:E2; intro H; inversion H; subst.
      * destruct (0 + - d <? 0) eqn:E3; [f_equal; lia|]. destruct (ax_n a <=? 0 + - d) eqn:E4; f_equal; lia.
      * destruct (i + d + - d <? 0) eqn:E3; [lia|]. destruct (ax_n a <=? i + d + - d) eqn:E4; [lia|]. f_equal; lia.
  - destruct (i + d <? 0) eqn:E1; [discriminate|]. destruct (ax_n a <=? i + d) eqn:E2; [discriminate|]. intro H; inversion H; subst.
    destruct (i + d + - d <? 0) eqn:E3; [lia|]. destruct (ax_n a <=? i + d + - d) eqn:E4; [lia|]. f_equal; lia.
Qed.
Lemma wrap_none a i : wrap a i = None <-> (i < 0 /\ ax_lo a = Pml) \/ (0 <= i /\ ax_n a <= i /\ ax_hi a = Pml).
Proof.
  unfold wrap. destruct (i <? 0) eqn:E1.
  - destruct (ax_lo a); cbn; split; intro H; try discriminate; auto; [left; split; [lia|auto]|destruct H as [[_ H]|H]; [discriminate|lia]].
  - destruct (ax_n a <=? i) eqn:E2.
    + destruct (ax_hi a); cbn; split; intro H; try discriminate; auto; [right; repeat split; lia|destruct H as [H|[_ [_ H]]]; [lia|discriminate]].
    + split; [discriminate|lia].
Qed.
Lemma wrap_all_back axes c off c' : paired axes -> in_grid axes c -> unit_offset axes off ->
  wrap_all axes (add c off) = Some c' -> wrap_all axes (add c' (neg off)) = Some c.
Proof.
  intros U G. revert off c'. induction G as [|a i axes c Hi G IH]; intros off c' O H.
  - inversion O; subst. cbn in H. inversion H. reflexivity.
  - inversion O as [|a' d axes' off' Hd O' E1 E2]; subst. cbn [add wrap_all] in H.
    inversion U as [|a'' axes'' U1 U2]; subst.
    destruct (wrap a (i + d)) as [k|] eqn:W; [|discriminate]. destruct (wrap_all axes (add c off')) as [r|] eqn:WA; [|discriminate].
    inversion H; subst. cbn [neg map add wrap_all]. rewrite (wrap_back a i d k) by auto.
    fold (neg off'). rewrite (IH U2 off' r O' WA). reflexivity.
Qed.
Lemma wrap_all_grid axes c off c' : in_grid axes c -> unit_offset axes off -> wrap_all axes (add c off) = Some c' -> in_grid axes c'.
Proof.
  intro G. revert off c'. induction G as [|a i axes c Hi G IH]; intros off c' O H.
  - cbn in H. destruct off; inversion H; constructor.
  - inversion O as [|a' d axes' off' Hd O' E1 E2]; subst. cbn [add wrap_all] in H.
    destruct (wrap a (i + d)) as [k|] eqn:W; [|discriminate]. destruct (wrap_all axes (add c off')) as [r|] eqn:WA; [|discriminate].
    inversion H; subst. constructor; [eapply wrap_range; eauto; lia|eapply IH; eauto].
Qed.
Lemma wrap_all_none axes c off : in_grid axes c -> unit_offset axes off ->
  (wrap_all axes (add c off) = None <-> leaves_open axes c off).
Proof.
  intro G. revert off. induction G as [|a i axes c Hi G IH]; intros off O.
  - cbn. split; [destruct off; discriminate|]. intros (k & a & i & d & H & _). destruct k; discriminate.
  - inversion O as [|a' d axes' off' Hd O' E1 E2]; subst. cbn [add wrap_all].
    destruct (wrap a (i + d)) as [k|] eqn:W.
    + destruct (wrap_all axes (add c off')) as [r|] eqn:WA.
      * split; [discriminate|]. intros (m & a' & i' & d' & H1 & H2 & H3 & H4). exfalso. destruct m as [|m].
        -- cbn in H1, H2, H3. inversion H1; inversion H2; inversion H3; subst.
           assert (X : wrap a' (i' + d') = None) by (apply wrap_none; destruct H4 as [[L B]|[L B]]; [left; auto|right; repeat split; auto; lia]). congruence.
        -- assert (X : wrap_all axes (add c off') = None) by (apply IH; auto; exists m, a', i', d'; auto). congruence.
      * split; [intros _|reflexivity]. apply IH in WA; auto. destruct WA as (m & a' & i' & d' & H). exists (S m), a', i', d'. exact H.
    + split; [intros _|reflexivity]. apply wrap_none in W. exists 0%nat, a, i, d. repeat split; auto. tauto.
Qed.

(** *** lookup *)
Lemma lookup_in {V} (m : list (list Z * V)) c v : lookup c m = Some v -> In (c, v) m.
Proof.
  unfold lookup. destruct (find _ m) as [[c' v']|] eqn:F; [|discriminate]. intro H; inversion H; subst. cbn.
  apply find_some in F. destruct F as [F1 F2]. apply list_eqb_eq in F2. cbn in F2. congruence.
Qed.
Lemma in_lookup {V} (m : list (list Z * V)) c v : NoDup (map fst m) -> In (c, v) m -> lookup c m = Some v.
Proof.
  unfold lookup. induction m as [|[c' v'] m IH]; intros N H; [contradiction|]. cbn [find fst]. cbn [map] in N. apply NoDup_cons_iff in N.
  destruct N as [N1 N2]. destruct H as [H|H].
  - inversion H; subst. assert (E : list_eqb c c = true) by (apply list_eqb_eq; auto). rewrite E. reflexivity.
  - destruct (list_eqb c' c) eqn:E; [|apply IH; auto]. apply list_eqb_eq in E. subst. exfalso. apply N1.
    apply in_map_iff. exists (c, v); auto.
Qed.
Lemma lookup_none {V} (m : list (list Z * V)) c : lookup c m = None <-> forall v, ~ In (c, v) m.
Proof.
  unfold lookup. destruct (find _ m) as [[c' v']|] eqn:F; split; intro H; try discriminate.
  - apply find_some in F. destruct F as [F1 F2]. apply list_eqb_eq in F2. cbn in F2. subst. exfalso. apply (H v'); auto.
  - intros v Hv. eapply find_none in F; eauto. cbn in F. assert (E : list_eqb c c = true) by (apply list_eqb_eq; auto). congruence.
  - reflexivity.
Qed.
Lemma nodup_snd m c c' (ix : Z) : NoDup (map snd m) -> In (c, ix) m -> In (c', ix) m -> c = c' :> list Z.
Proof.
  induction m as [|[d v] m IH]; intros N H H'; [contradiction|]. cbn [map snd] in N. apply NoDup_cons_iff in N. destruct N as [N1 N2].
  destruct H as [H|H], H' as [H'|H'].
  - congruence.
  - inversion H; subst. exfalso. apply N1. apply in_map_iff. exists (c', ix); auto.
  - inversion H'; subst. exfalso. apply N1. apply in_map_iff. exists (c, ix); auto.
  - auto.
Qed.

Theorem neighbor_symmetric axes m c a off b : patch_set axes m -> paired axes -> unit_offset axes off ->
  In (c, a) m -> neighbor axes m c off = Nb (Some b) ->
  exists c', In (c', b) m /\ neighbor axes m c' (neg off) = Nb (Some a).
Proof.
  intros (N1 & N2 & G) U O Hc H. unfold neighbor in H.
  destruct (wrap_all axes (add c off)) as [c'|] eqn:W; [|discriminate].
  destruct (lookup c' m) as [ix|] eqn:L; [|destruct (_ =? _); discriminate].
  inversion H; subst. exists c'. split; [apply lookup_in; auto|].
  unfold neighbor. rewrite (wrap_all_back axes c off c') by (auto; eapply G; eauto).
  rewrite (in_lookup m c a) by auto. reflexivity.
Qed.

Theorem neighbor_full axes m c a off : patch_set axes m -> full_grid axes m -> unit_offset axes off -> In (c, a) m ->
  (neighbor axes m c off <> KeyErr) /\ (neighbor axes m c off = Nb None <-> leaves_open axes c off).
Proof.
  intros (N1 & N2 & G) F O Hc. pose proof (G c a Hc) as Gc. unfold neighbor.
  destruct (wrap_all axes (add c off)) as [c'|] eqn:W.
  - destruct (F c' (wrap_all_grid _ _ _ _ Gc O W)) as [ix Hix]. rewrite (in_lookup m c' ix) by auto. split; [discriminate|].
    rewrite <- (wrap_all_none axes c off) by auto. rewrite W. split; intro H; inversion H; discriminate.
  - split; [discriminate|]. rewrite <- (wrap_all_none axes c off) by auto. rewrite W. split; auto.
Qed.

(** *** rectangular layouts are full patch sets *)
Lemma zseq_in n i : In i (zseq n) <-> 0 <= i < n.
Proof.
  unfold zseq. rewrite in_map_iff. split.
  - intros (k & <- & H). apply in_seq in H. lia.
  - intro H. exists (Z.to_nat i). split; [lia|]. apply in_seq. lia.
Qed.
Lemma zseq_NoDup n : NoDup (zseq n).
Proof. unfold zseq. apply FinFun.Injective_map_NoDup; [intros a b; lia|apply seq_NoDup]. Qed.
Lemma rect2_in npx npy c ix : In (c, ix) (rect2 npx npy) <-> exists i j, c = [i; j] /\ ix = i + j * npx /\ 0 <= i < npx /\ 0 <= j < npy.
Proof.
  unfold rect2. rewrite in_flat_map. split.
  - intros (j & Hj & H). apply in_map_iff in H. destruct H as (i & E & Hi). apply zseq_in in Hi. apply zseq_in in Hj.
    inversion E. exists i, j. auto.
  - intros (i & j & -> & -> & Hi & Hj). exists j. split; [now apply zseq_in|]. apply in_map_iff. exists i. split; auto. now apply zseq_in.
Qed.
Lemma rect3_in npx npy npz c ix : In (c, ix) (rect3 npx npy npz) <->
  exists i j k, c = [i; j; k] /\ ix = i + j * npx + k * npx * npy /\ 0 <= i < npx /\ 0 <= j < npy /\ 0 <= k < npz.
Proof.
  unfold rect3. rewrite in_flat_map. split.
  - intros (k & Hk & H). apply in_flat_map in H. destruct H as (j & Hj & H). apply in_map_iff in H. destruct H as (i & E & Hi).
    apply zseq_in in Hi. apply zseq_in in Hj. apply zseq_in in Hk. inversion E. exists i, j, k. auto 6.
  - intros (i & j & k & -> & -> & Hi & Hj & Hk). exists k. split; [now apply zseq_in|]. apply in_flat_map. exists j. split; [now apply zseq_in|].
    apply in_map_iff. exists i. split; auto. now apply zseq_in.
Qed.
Lemma index2_inj npx i j i' j' : 0 <= i < npx -> 0 <= i' < npx -> i + j * npx = i' + j' * npx -> i = i' /\ j = j'.
Proof.
  intros Hi Hi' E. assert (j = j').
  { assert (E1 : (i + j * npx) / npx = j) by (rewrite Z.div_add by lia; rewrite Z.div_small; lia).
    assert (E2 : (i' + j' * npx) / npx = j') by (rewrite Z.div_add by lia; rewrite Z.div_small; lia). congruence. }
  subst. lia.
Qed.
Lemma index3_inj npx npy i j k i' j' k' : 0 <= i < npx -> 0 <= i' < npx -> 0 <= j < npy -> 0 <= j' < npy ->
  i + j * npx + k * npx * npy = i' + j' * npx + k' * npx * npy -> i = i' /\ j = j' /\ k = k'.
Proof.
  intros Hi Hi' Hj Hj' E.
  assert (E' : i + (j + k * npy) * npx = i' + (j' + k' * npy) * npx) by lia.
  apply index2_inj in E'; [|assumption|assumption]. destruct E' as [E1 E']. apply index2_inj in E'; [|assumption|assumption]. tauto.
Qed.
Lemma rect2_patch_set ax ay : patch_set [ax; ay] (rect2 (ax_n ax) (ax_n ay)) /\ full_grid [ax; ay] (rect2 (ax_n ax) (ax_n ay)).
Proof.
  set (npx := ax_n ax). set (npy := ax_n ay). split; [split; [|split]|].
  - unfold rect2. rewrite map_flat_map. apply nodup_flat_map; [apply zseq_NoDup| |].
    + intros j Hj. rewrite map_map. apply FinFun.Injective_map_NoDup; [|apply zseq_NoDup]. intros a b H. cbn in H. congruence.
    + intros j j' c Hj Hj' H H'. apply in_map_iff in H. destruct H as (e & <- & H). apply in_map_iff in H. destruct H as (i & <- & _).
      apply in_map_iff in H'. destruct H' as (e' & E' & H'). apply in_map_iff in H'. destruct H' as (i' & <- & _). cbn in E'. congruence.
  - unfold rect2. rewrite map_flat_map. apply nodup_flat_map; [apply zseq_NoDup| |].
    + intros j Hj. rewrite map_map. apply FinFun.Injective_map_NoDup; [|apply zseq_NoDup]. intros a b H. cbn in H. lia.
    + intros j j' x Hj Hj' H H'. rewrite map_map in H, H'. cbn in H, H'. apply in_map_iff in H, H'.
      destruct H as (i & <- & Hi). destruct H' as (i' & E & Hi'). apply zseq_in in Hi. apply zseq_in in Hi'.
      apply index2_inj in E; auto. symmetry; tauto.
  - intros c ix H. apply rect2_in in H. destruct H as (i & j & -> & _ & Hi & Hj). repeat constructor; unfold npx, npy in *; lia.
  - intros c H. inversion H as [|a i l l' Hi H' E1 E2]; subst. inversion H' as [|a' j l2 l3 Hj H'' E3 E4]; subst. inversion H''; subst.
    exists (i + j * npx). apply rect2_in. exists i, j. auto.
Qed.
Lemma rect3_patch_set ax ay az : patch_set [ax; ay; az] (rect3 (ax_n ax) (ax_n ay) (ax_n az)) /\ full_grid [ax; ay; az] (rect3 (ax_n ax) (ax_n ay) (ax_n az)).
Proof.
  set (npx := ax_n ax). set (npy := ax_n ay). set (npz := ax_n az). split; [split; [|split]|].
  - unfold rect3. rewrite map_flat_map. apply nodup_flat_map; [apply zseq_NoDup| |].
    + intros k Hk. rewrite map_flat_map. apply nodup_flat_map; [apply zseq_NoDup| |].
      * intros j Hj. rewrite map_map. apply FinFun.Injective_map_NoDup; [|apply zseq_NoDup]. intros a b H. cbn in H. congruence.
      * intros j j' c Hj Hj' H H'. rewrite map_map in H, H'. cbn in H, H'. apply in_map_iff in H, H'.
        destruct H as (i & <- & _). destruct H' as (i' & E & _). congruence.
    + intros k k' c Hk Hk' H H'. rewrite map_flat_map in H, H'. apply in_flat_map in H, H'. destruct H as (j & _ & H). destruct H' as (j' & _ & H').
      rewrite map_map in H, H'. cbn in H, H'. apply in_map_iff in H, H'. destruct H as (i & <- & _). destruct H' as (i' & E & _). congruence.
  - unfold rect3. rewrite map_flat_map. apply nodup_flat_map; [apply zseq_NoDup| |].
    + intros k Hk. rewrite map_flat_map. apply nodup_flat_map; [apply zseq_NoDup| |].
      * intros j Hj. rewrite map_map. apply FinFun.Injective_map_NoDup; [|apply zseq_NoDup]. intros a b H. cbn in H. lia.
      * intros j j' x Hj Hj' H H'. rewrite map_map in H, H'. cbn in H, H'. apply in_map_iff in H, H'.
        destruct H as (i & <- & Hi). destruct H' as (i' & E & Hi'). apply zseq_in in Hi. apply zseq_in in Hi'.
        assert (E' : i' + j' * npx = i + j * npx) by lia. apply index2_inj in E'; auto. symmetry; tauto.
    + intros k k' x Hk Hk' H H'. rewrite map_flat_map in H, H'. apply in_flat_map in H, H'. destruct H as (j & Hj & H). destruct H' as (j' & Hj' & H').
      rewrite map_map in H, H'. cbn in H, H'. apply in_map_iff in H, H'. destruct H as (i & <- & Hi). destruct H' as (i' & E & Hi').
      apply zseq_in in Hi. apply zseq_in in Hi'. apply zseq_in in Hj. apply zseq_in in Hj'. apply index3_inj in E; auto. symmetry; tauto.
  - intros c ix H. apply rect3_in in H. destruct H as (i & j & k & -> & _ & Hi & Hj & Hk). repeat constructor; unfold npx, npy, npz in *; lia.
  - intros c H. inversion H as [|a i l l' Hi H' E1 E2]; subst. inversion H' as [|a' j l2 l3 Hj H'' E3 E4]; subst.
    inversion H'' as [|a'' k l4 l5 Hk H3 E5 E6]; subst. inversion H3; subst.
    exists (i + j * npx + k * npx * npy). apply rect3_in. exists i, j, k. auto 6.
Qed.

(** *** masked layouts *)
Lemma mask_coords_in npx npy mask c : In c (mask_coords npx npy mask) <-> exists i j, c = [i; j] /\ mask i j = true /\ 0 <= i < npx /\ 0 <= j < npy.
Proof.
  unfold mask_coords. rewrite in_flat_map. split.
  - intros (j & Hj & H). apply in_flat_map in H. destruct H as (i & Hi & H). apply zseq_in in Hi. apply zseq_in in Hj.
    destruct (mask i j) eqn:M; [|contradiction]. destruct H as [<-|[]]. exists i, j. auto.
  - intros (i & j & -> & M & Hi & Hj). exists j. split; [now apply zseq_in|]. apply in_flat_map. exists i. split; [now apply zseq_in|]. rewrite M. left; auto.
Qed.
Lemma mask_coords_NoDup npx npy mask : NoDup (mask_coords npx npy mask).
Proof.
  unfold mask_coords. apply nodup_flat_map; [apply zseq_NoDup| |].
  - intros j Hj. apply nodup_flat_map; [apply zseq_NoDup| |].
    + intros i Hi. destruct (mask i j); repeat constructor; auto.
    + intros i i' c Hi Hi' H H'. destruct (mask i j), (mask i' j); try contradiction. destruct H as [<-|[]]. destruct H' as [H'|[]]. congruence.
  - intros j j' c Hj Hj' H H'. apply in_flat_map in H, H'. destruct H as (i & _ & H). destruct H' as (i' & _ & H').
    destruct (mask i j), (mask i' j'); try contradiction. destruct H as [<-|[]]. destruct H' as [H'|[]]. congruence.
Qed.
Lemma combine_fst {A B} (l : list A) (m : list B) : List.length l = List.length m -> map fst (combine l m) = l.
Proof. revert m; induction l as [|a l IH]; intros [|b m] H; cbn in *; try lia; auto. f_equal. apply IH; lia. Qed.
Lemma combine_snd {A B} (l : list A) (m : list B) : List.length l = List.length m -> map snd (combine l m) = m.
Proof. revert m; induction l as [|a l IH]; intros [|b m] H; cbn in *; try lia; auto. f_equal. apply IH; lia. Qed.
Lemma masked2_fst npx npy mask : map fst (masked2 npx npy mask) = mask_coords npx npy mask.
Proof. unfold masked2. apply combine_fst. now rewrite map_length, seq_length. Qed.
Lemma masked2_patch_set ax ay mask : patch_set [ax; ay] (masked2 (ax_n ax) (ax_n ay) mask).
Proof.
  split; [|split].
  - rewrite masked2_fst. apply mask_coords_NoDup.
  - unfold masked2. rewrite combine_snd by (now rewrite map_length, seq_length).
    apply FinFun.Injective_map_NoDup; [intros a b; lia|apply seq_NoDup].
  - intros c ix H. apply (in_map fst) in H. rewrite masked2_fst in H. cbn in H. apply mask_coords_in in H.
    destruct H as (i & j & -> & _ & Hi & Hj). repeat constructor; lia.
Qed.
Lemma masked2_has npx npy mask i j : 0 <= i < npx -> 0 <= j < npy -> mask i j = true -> exists ix, In ([i; j], ix) (masked2 npx npy mask).
Proof.
  intros Hi Hj M. assert (H : In [i; j] (map fst (masked2 npx npy mask))) by (rewrite masked2_fst; apply mask_coords_in; exists i, j; auto).
  apply in_map_iff in H. destruct H as ([c ix] & E & H). cbn in E. subst. eauto.
Qed.

Lemma mask_coords_length npx npy mask : 0 <= npx -> 0 <= npy -> Z.of_nat (List.length (mask_coords npx npy mask)) = npx * npy ->
  forall i j, 0 <= i < npx -> 0 <= j < npy -> mask i j = true.
Proof.
  intros Hx Hy L i j Hi Hj. destruct (mask i j) eqn:M; auto. exfalso.
  assert (I : incl (mask_coords npx npy mask) (map fst (rect2 npx npy))).
  { intros c H. apply mask_coords_in in H. destruct H as (i' & j' & -> & _ & A & B). apply in_map_iff. exists ([i'; j'], i' + j' * npx). split; auto. apply rect2_in. exists i', j'. auto. }
  assert (LR : List.length (map fst (rect2 npx npy)) = Z.to_nat (npx * npy)).
  { rewrite map_length. unfold rect2.
    assert (E : forall l, List.length (flat_map (fun x : Z => map (fun i0 : Z => ([i0; x], i0 + x * npx)) (zseq npx)) l) = (List.length l * Z.to_nat npx)%nat).
    { induction l as [|a l IH]; auto. cbn [flat_map]. rewrite app_length, IH, map_length. unfold zseq. rewrite map_length, seq_length. cbn [List.length]. lia. }
    rewrite E. unfold zseq. rewrite map_length, seq_length. rewrite Z2Nat.inj_mul by lia. lia. }
  assert (B : incl (map fst (rect2 npx npy)) (mask_coords npx npy mask)).
  { apply NoDup_length_incl; auto; [apply mask_coords_NoDup|]. lia. }
  assert (H : In [i; j] (mask_coords npx npy mask)).
  { apply B. apply in_map_iff. exists ([i; j], i + j * npx). split; auto. apply rect2_in. exists i, j; auto. }
  apply mask_coords_in in H. destruct H as (i' & j' & E & M' & _). inversion E; subst. congruence.
Qed.

Theorem masked_neighbor npx npy mask i j a dx dy :
  let axes := [mkAxis npx Pml Pml; mkAxis npy Pml Pml] in let m := masked2 npx npy mask in
  In ([i; j], a) m -> -1 <= dx <= 1 -> -1 <= dy <= 1 ->
  neighbor axes m [i; j] [dx; dy] <> KeyErr /\
  (neighbor axes m [i; j] [dx; dy] = Nb None <->
     ~ (0 <= i + dx < npx /\ 0 <= j + dy < npy /\ mask (i + dx) (j + dy) = true)).
Proof.
  intros axes m Hc Hx Hy.
  assert (Hc' := Hc). apply (in_map fst) in Hc'. unfold m in Hc'. rewrite masked2_fst in Hc'. apply mask_coords_in in Hc'. cbn in Hc'.
  destruct Hc' as (i' & j' & E & M & Hi & Hj). inversion E; subst i' j'; clear E.
  unfold neighbor. cbn [add axes wrap_all]. unfold wrap. cbn [ax_n ax_lo ax_hi bc_eqb].
  destruct (i + dx <? 0) eqn:E1; [split; [discriminate|split; [lia|auto]]|].
  destruct (npx <=? i + dx) eqn:E2; [split; [discriminate|split; [lia|auto]]|].
  destruct (j + dy <? 0) eqn:E3; [split; [discriminate|split; [lia|auto]]|].
  destruct (npy <=? j + dy) eqn:E4; [split; [discriminate|split; [lia|auto]]|].
  destruct (lookup [i + dx; j + dy] m) as [ix|] eqn:L.
  - split; [discriminate|]. split; [discriminate|]. intro H. exfalso. apply H. apply lookup_in in L. apply (in_map fst) in L.
    unfold m in L. rewrite masked2_fst in L. apply mask_coords_in in L. cbn in L. destruct L as (i' & j' & E & M' & A & B). inversion E; subst. auto.
  - assert (NM : mask (i + dx) (j + dy) <> true).
    { intro H. destruct (masked2_has npx npy mask (i + dx) (j + dy)) as [ix Hix]; try lia; auto. eapply lookup_none in L. apply L; eauto. }
    destruct (Z.of_nat (List.length m) =? prod axes) eqn:P.
    + exfalso. apply NM. apply (mask_coords_length npx npy mask); try lia.
      assert (LM : List.length m = List.length (mask_coords npx npy mask)) by (rewrite <- (masked2_fst npx npy mask), map_length; reflexivity).
      rewrite <- LM. unfold prod, axes in P. cbn [fold_right ax_n] in P. lia.
    + split; [discriminate|]. split; [intros _ H; tauto|auto].
Qed.

(** *** owner tables *)
Lemma zassoc_in k m r : zassoc k m = Some r -> In (k, r) m.
Proof.
  unfold zassoc. destruct (find _ m) as [[a b]|] eqn:F; [|discriminate]. intro H; inversion H; subst. apply find_some in F. cbn in F. destruct F as [F1 F2].
  assert (a = k) by lia. subst. auto.
Qed.
Lemma zassoc_some k m r : In (k, r) m -> exists r', zassoc k m = Some r'.
Proof.
  intro H. unfold zassoc. destruct (find _ m) as [[a b]|] eqn:F; [eauto|]. eapply find_none in F; eauto. cbn in F. lia.
Qed.
Lemma same_patch all q q' : NoDup (map p_index all) -> In q all -> In q' all -> p_index q = p_index q' -> q = q'.
Proof. intros N H H' E. eapply nodup_map_inj; eauto. Qed.
Lemma index_of_some n l k : index_of n l = Some k -> nth_error l k = Some n.
Proof.
  revert k; induction l as [|x l IH]; intros k H; [discriminate|]. cbn [index_of] in H. destruct (x =? n) eqn:E.
  - inversion H; subst. cbn. f_equal; lia.
  - destruct (index_of n l) as [k'|]; [|discriminate]. inversion H; subst. cbn. auto.
Qed.
Lemma index_of_none n l : index_of n l = None <-> ~ In n l.
Proof.
  induction l as [|x l IH]; [split; auto|]. cbn [index_of In]. destruct (x =? n) eqn:E.
  - split; [discriminate|]. intro H. exfalso. apply H. left. lia.
  - destruct (index_of n l) as [k'|]; cbn; split; intro H; try discriminate; auto.
    + exfalso. apply H. right. destruct (in_dec Z.eq_dec n l); auto. apply IH in n0. discriminate.
    + intros [H'|H']; [lia|]. apply (proj1 IH); auto.
Qed.
Lemma ipatch_ok all local r q : holds_own all local r -> In q all ->
  (p_rank q = r -> exists k, neighbor_ipatch local (Some (p_index q)) = Some k /\ nth_error local k = Some q) /\
  (p_rank q <> r -> neighbor_ipatch local (Some (p_index q)) = None).
Proof.
  intros [N L] Hq. unfold neighbor_ipatch. split; intro R.
  - destruct (index_of (p_index q) (map p_index local)) as [k|] eqn:E.
    + exists k. split; auto. apply index_of_some in E. rewrite nth_error_map in E. destruct (nth_error local k) as [q'|] eqn:E'; [|discriminate].
      inversion E as [E1]. f_equal. assert (Hq' : In q' local) by (eapply nth_error_In; eauto). apply L in Hq'. apply (same_patch all); tauto.
    + exfalso. apply index_of_none in E. apply E. apply in_map. apply L. auto.
  - apply index_of_none. intro H. apply in_map_iff in H. destruct H as (q' & E & H). apply L in H. destruct H as [H1 H2].
    assert (q' = q) by (apply (same_patch all); auto). congruence.
Qed.
Lemma rank_table_side all local r p q rk : holds_own all local r -> p_rank p = r -> In q all ->
  rk = Rank (if p_rank q =? p_rank p then None else Some (p_rank q)) ->
  side_handled all local r (p_index q) rk (neighbor_ipatch local (Some (p_index q))).
Proof.
  intros H Hp Hq ->. exists q. split; auto. split; auto. destruct (ipatch_ok all local r q H Hq) as [A B].
  destruct (p_rank q =? p_rank p) eqn:E.
  - left. assert (p_rank q = r) by lia. destruct (A H0) as (k & E1 & E2). eauto 6.
  - right. assert (p_rank q <> r) by lia. auto.
Qed.

(** 2D, the given patches plus the map together know every owner, consistently *)
Lemma rank2d_value all given pmap p q : NoDup (map p_index all) ->
  (forall g, In g given -> In g all) ->
  (forall i r, In (i, r) pmap -> exists g, In g all /\ p_index g = i /\ p_rank g = r) ->
  (In q given \/ exists r, In (p_index q, r) pmap) -> In q all ->
  neighbor_rank_2d given pmap p (Some (p_index q)) = Rank (if p_rank q =? p_rank p then None else Some (p_rank q)).
Proof.
  intros N G M K Hq. unfold neighbor_rank_2d. set (t := rev (map (fun q0 => (p_index q0, p_rank q0)) given) ++ pmap).
  assert (T : forall i r, In (i, r) t -> exists g, In g all /\ p_index g = i /\ p_rank g = r).
  { intros i r H. unfold t in H. apply in_app_iff in H. destruct H as [H|H]; auto. apply in_rev in H. apply in_map_iff in H.
    destruct H as (g & E & H). inversion E; subst. exists g. auto. }
  assert (X : exists r, In (p_index q, r) t).
  { destruct K as [K|[r K]]; [exists (p_rank q)|exists r]; unfold t; apply in_app_iff; auto. left. apply in_rev. rewrite rev_involutive. apply in_map_iff. exists q; auto. }
  destruct X as [r Hr]. apply zassoc_some in Hr. destruct Hr as [r' Hr]. rewrite Hr. apply zassoc_in in Hr. destruct (T _ _ Hr) as (g & Hg & E & <-).
  assert (g = q) by (apply (same_patch all); auto). subst. reflexivity.
Qed.
Theorem tables_2d all local r given pmap p q : holds_own all local r -> In p local -> In q all ->
  (forall g, In g given -> In g all) ->
  (forall i k, In (i, k) pmap -> exists g, In g all /\ p_index g = i /\ p_rank g = k) ->
  (In q given \/ exists k, In (p_index q, k) pmap) ->
  side_handled all local r (p_index q) (neighbor_rank_2d given pmap p (Some (p_index q))) (neighbor_ipatch local (Some (p_index q))).
Proof.
  intros H Hp Hq G M K. apply (rank_table_side all local r p q); auto; [apply H; auto|]. apply (rank2d_value all); auto. apply H.
Qed.
Theorem tables_3d all local r p q : holds_own all local r -> In p local -> In q all ->
  (forall k g, nth_error all k = Some g -> p_index g = Z.of_nat k) ->
  side_handled all local r (p_index q) (neighbor_rank_3d all [] p (Some (p_index q))) (neighbor_ipatch local (Some (p_index q))).
Proof.
  intros H Hp Hq I. apply (rank_table_side all local r p q); auto; [apply H; auto|].
  unfold neighbor_rank_3d. destruct (In_nth_error all q Hq) as [k Hk]. pose proof (I k q Hk) as E. rewrite E.
  rewrite Nat2Z.id, Hk. reflexivity.
Qed.

(** *** absorbing layers *)
Lemma when_none {A} b (f : option A -> option A) : (f None = None) -> when b f None = None.
Proof. destruct b; cbn; auto. Qed.
Lemma add2_some nx ny th s l l' : add_pml2 nx ny th s l = Some l' -> exists l0, l = Some l0 /\ l' = l0 ++ [s] /\ th <= nx /\ th <= ny /\ (List.length l0 < 2)%nat.
Proof.
  unfold add_pml2. destruct l as [l|]; [|discriminate]. destruct (_ && _) eqn:E; [|discriminate]. intro H; inversion H; subst.
  exists l. repeat split; auto; lia.
Qed.
Lemma add3_some nx ny th s l l' : add_pml3 nx ny th s l = Some l' -> exists l0, l = Some l0 /\ l' = l0 ++ [s] /\ th <= nx /\ th <= ny /\ (List.length l0 < 3)%nat.
Proof.
  unfold add_pml3. destruct l as [l|]; [|discriminate]. destruct (_ && _) eqn:E; [|discriminate]. intro H; inversion H; subst.
  exists l. repeat split; auto; lia.
Qed.
(** a chain of conditional additions that succeeds holds exactly the requested sides, in order *)
Definition chain (add : pml_side -> option (list pml_side) -> option (list pml_side)) (l : list (bool * pml_side)) : option (list pml_side) :=
  fold_left (fun acc e => when (fst e) (add (snd e)) acc) l (Some []).
Lemma chain_sides add l r : (forall s a b, add s a = Some b -> exists a0, a = Some a0 /\ b = a0 ++ [s]) ->
  chain add l = Some r -> r = map snd (filter fst l).
Proof.
  intro A. unfold chain. revert r. induction l as [|[b s] l IH] using rev_ind; intros r H.
  - cbn in H. inversion H. reflexivity.
  - rewrite fold_left_app in H. cbn [fold_left fst snd] in H. rewrite filter_app, map_app. cbn [filter fst].
    destruct b; cbn [when map] in *.
    + apply A in H. destruct H as (a0 & H & ->). apply IH in H. subst. reflexivity.
    + apply IH in H. subst. now rewrite app_nil_r.
Qed.
Lemma add2_step nx ny th s a b : add_pml2 nx ny th s a = Some b -> exists a0, a = Some a0 /\ b = a0 ++ [s].
Proof. intro H. apply add2_some in H. destruct H as (l0 & -> & -> & _). eauto. Qed.
Lemma add3_step nx ny th s a b : add_pml3 nx ny th s a = Some b -> exists a0, a = Some a0 /\ b = a0 ++ [s].
Proof. intro H. apply add3_some in H. destruct H as (l0 & -> & -> & _). eauto. Qed.

Lemma leaves2 ax ay i j dx dy : 0 <= i < ax_n ax -> 0 <= j < ax_n ay ->
  (leaves_open [ax; ay] [i; j] [dx; dy] <->
   ((i + dx < 0 /\ ax_lo ax = Pml) \/ (ax_n ax <= i + dx /\ ax_hi ax = Pml)) \/ ((j + dy < 0 /\ ax_lo ay = Pml) \/ (ax_n ay <= j + dy /\ ax_hi ay = Pml))).
Proof.
  intros Hi Hj. unfold leaves_open. split.
  - intros (k & a & c & d & H1 & H2 & H3 & H4). destruct k as [|[|k]]; cbn in H1, H2, H3; try (destruct k; discriminate);
    inversion H1; inversion H2; inversion H3; subst; auto.
  - intros [H|H]; [exists 0%nat, ax, i, dx|exists 1%nat, ay, j, dy]; auto.
Qed.
Lemma leaves3 ax ay az i j k dx dy dz : 
  (leaves_open [ax; ay; az] [i; j; k] [dx; dy; dz] <->
   ((i + dx < 0 /\ ax_lo ax = Pml) \/ (ax_n ax <= i + dx /\ ax_hi ax = Pml)) \/ ((j + dy < 0 /\ ax_lo ay = Pml) \/ (ax_n ay <= j + dy /\ ax_hi ay = Pml)) \/
   ((k + dz < 0 /\ ax_lo az = Pml) \/ (ax_n az <= k + dz /\ ax_hi az = Pml))).
Proof.
  unfold leaves_open. split.
  - intros (m & a & c & d & H1 & H2 & H3 & H4). destruct m as [|[|[|m]]]; cbn in H1, H2, H3; try (destruct m; discriminate);
    inversion H1; inversion H2; inversion H3; subst; auto.
  - intros [H|[H|H]]; [exists 0%nat, ax, i, dx|exists 1%nat, ay, j, dy|exists 2%nat, az, k, dz]; auto.
Qed.
Lemma cond_iff b (x : bc) : (b && bc_eqb x Pml = true) <-> b = true /\ x = Pml.
Proof. rewrite andb_true_iff, bc_eqb_eq. tauto. Qed.

Definition face2 (s : pml_side) : Prop := s = PXmin \/ s = PXmax \/ s = PYmin \/ s = PYmax.
Lemma in_sides (l : list (bool * pml_side)) s b : NoDup (map snd l) -> In (b, s) l -> (In s (map snd (filter fst l)) <-> b = true).
Proof.
  intros N H. rewrite in_map_iff. split.
  - intros ([b' s'] & E & H'). cbn in E; subst s'. apply filter_In in H'. destruct H' as [H1 H2]. cbn in H2. subst.
    enough ((b, s) = (true, s)) by congruence. eapply nodup_map_inj; eauto.
  - intros ->. exists (true, s). split; auto. apply filter_In. auto.
Qed.

Theorem pml2_faces ax ay nx ny th i j a r m s : m = rect2 (ax_n ax) (ax_n ay) -> In ([i; j], a) m -> face2 s ->
  init_pml2 ax ay nx ny th i j = Some r ->
  (In s r <-> neighbor [ax; ay] m [i; j] (side_offset2 s) = Nb None).
Proof.
  intros -> Hc F H. destruct (rect2_patch_set ax ay) as [PS FG].
  assert (G := Hc). apply rect2_in in G. destruct G as (i' & j' & E & _ & Hi & Hj). inversion E; subst i' j'; clear E.
  set (l := [((i =? 0) && bc_eqb (ax_lo ax) Pml, PXmin); ((i =? ax_n ax - 1) && bc_eqb (ax_hi ax) Pml, PXmax);
             ((j =? 0) && bc_eqb (ax_lo ay) Pml, PYmin); ((j =? ax_n ay - 1) && bc_eqb (ax_hi ay) Pml, PYmax)]).
  change (init_pml2 ax ay nx ny th i j) with (chain (add_pml2 nx ny th) l) in H.
  apply chain_sides in H; [|intros; eapply add2_step; eauto]. subst r.
  assert (N : NoDup (map snd l)) by (repeat constructor; cbn; intuition discriminate).
  assert (X : forall b, In (b, s) l -> (b = true <-> leaves_open [ax; ay] [i; j] (side_offset2 s)) -> In s (map snd (filter fst l)) <-> neighbor [ax; ay] (rect2 (ax_n ax) (ax_n ay)) [i; j] (side_offset2 s) = Nb None).
  { intros b Hb Hiff. rewrite (in_sides l s b N Hb), Hiff. symmetry.
    eapply neighbor_full; eauto. destruct F as [->|[->|[->| ->]]]; repeat constructor; cbn; lia. }
  destruct F as [->|[->|[->| ->]]].
  - eapply X; [left; reflexivity|]. cbn [side_offset2]. rewrite leaves2, cond_iff by auto. intuition lia.
  - eapply X; [right; left; reflexivity|]. cbn [side_offset2]. rewrite leaves2, cond_iff by auto. intuition lia.
  - eapply X; [right; right; left; reflexivity|]. cbn [side_offset2]. rewrite leaves2, cond_iff by auto. intuition lia.
  - eapply X; [right; right; right; left; reflexivity|]. cbn [side_offset2]. rewrite leaves2, cond_iff by auto. intuition lia.
Qed.
Theorem pml3_faces ax ay az nx ny th i j k a r m s : m = rect3 (ax_n ax) (ax_n ay) (ax_n az) -> In ([i; j; k], a) m ->
  init_pml3 ax ay az nx ny th i j k = Some r ->
  (In s r <-> neighbor [ax; ay; az] m [i; j; k] (side_offset3 s) = Nb None).
Proof.
  intros -> Hc H. destruct (rect3_patch_set ax ay az) as [PS FG].
  assert (G := Hc). apply rect3_in in G. destruct G as (i' & j' & k' & E & _ & Hi & Hj & Hk). inversion E; subst i' j' k'; clear E.
  set (l := [((i =? 0) && bc_eqb (ax_lo ax) Pml, PXmin); ((i =? ax_n ax - 1) && bc_eqb (ax_hi ax) Pml, PXmax);
             ((j =? 0) && bc_eqb (ax_lo ay) Pml, PYmin); ((j =? ax_n ay - 1) && bc_eqb (ax_hi ay) Pml, PYmax);
             ((k =? 0) && bc_eqb (ax_lo az) Pml, PZmin); ((k =? ax_n az - 1) && bc_eqb (ax_hi az) Pml, PZmax)]).
  change (init_pml3 ax ay az nx ny th i j k) with (chain (add_pml3 nx ny th) l) in H.
  apply chain_sides in H; [|intros; eapply add3_step; eauto]. subst r.
  assert (N : NoDup (map snd l)) by (repeat constructor; cbn; intuition discriminate).
  assert (X : forall b, In (b, s) l -> (b = true <-> leaves_open [ax; ay; az] [i; j; k] (side_offset3 s)) -> In s (map snd (filter fst l)) <-> neighbor [ax; ay; az] (rect3 (ax_n ax) (ax_n ay) (ax_n az)) [i; j; k] (side_offset3 s) = Nb None).
  { intros b Hb Hiff. rewrite (in_sides l s b N Hb), Hiff. symmetry.
    eapply neighbor_full; eauto. destruct s; repeat constructor; cbn; lia. }
  destruct s.
  - eapply X; [left; reflexivity|]. cbn [side_offset3]. rewrite leaves3, cond_iff. intuition lia.
  - eapply X; [right; left; reflexivity|]. cbn [side_offset3]. rewrite leaves3, cond_iff. intuition lia.
  - eapply X; [right; right; left; reflexivity|]. cbn [side_offset3]. rewrite leaves3, cond_iff. intuition lia.
  - eapply X; [right; right; right; left; reflexivity|]. cbn [side_offset3]. rewrite leaves3, cond_iff. intuition lia.
  - eapply X; [right; right; right; right; left; reflexivity|]. cbn [side_offset3]. rewrite leaves3, cond_iff. intuition lia.
  - eapply X; [right; right; right; right; right; left; reflexivity|]. cbn [side_offset3]. rewrite leaves3, cond_iff. intuition lia.
Qed.
Theorem pml_mask_faces (nb : list Z -> nres) nx ny th r s : face2 s -> init_pml_mask nb nx ny th = Some r ->
  (In s r <-> nb (side_offset2 s) = Nb None).
Proof.
  intros F H.
  set (l := [(missing (nb [-1; 0]), PXmin); (missing (nb [1; 0]), PXmax); (missing (nb [0; -1]), PYmin); (missing (nb [0; 1]), PYmax)]).
  change (init_pml_mask nb nx ny th) with (chain (add_pml2 nx ny th) l) in H.
  apply chain_sides in H; [|intros; eapply add2_step; eauto]. subst r.
  assert (N : NoDup (map snd l)) by (repeat constructor; cbn; intuition discriminate).
  assert (M : forall x, missing x = true <-> x = Nb None) by (intros [[?|]|]; cbn; split; congruence).
  destruct F as [->|[->|[->| ->]]]; rewrite <- M; apply in_sides; auto; unfold l; cbn [In side_offset2]; auto.
Qed.

(** when the layers can be built: 2D, rectangular *)
Theorem pml2_succeeds ax ay nx ny th i j a : In ([i; j], a) (rect2 (ax_n ax) (ax_n ay)) ->
  (2 <= ax_n ax \/ ax_lo ax = Periodic \/ ax_hi ax = Periodic) -> (2 <= ax_n ay \/ ax_lo ay = Periodic \/ ax_hi ay = Periodic) ->
  th <= nx -> th <= ny -> exists r, init_pml2 ax ay nx ny th i j = Some r.
Proof.
  intros Hc X Y Tx Ty. apply rect2_in in Hc. destruct Hc as (i' & j' & E & _ & Hi & Hj). inversion E; subst i' j'; clear E.
  unfold init_pml2.
  assert (NX : ~ ((i =? 0) && bc_eqb (ax_lo ax) Pml = true /\ (i =? ax_n ax - 1) && bc_eqb (ax_hi ax) Pml = true)).
  { rewrite !cond_iff. intros [[A B] [C D]]. destruct X as [X|[X|X]]; [lia|congruence|congruence]. }
  assert (NY : ~ ((j =? 0) && bc_eqb (ax_lo ay) Pml = true /\ (j =? ax_n ay - 1) && bc_eqb (ax_hi ay) Pml = true)).
  { rewrite !cond_iff. intros [[A B] [C D]]. destruct Y as [Y|[Y|Y]]; [lia|congruence|congruence]. }
  assert (T1 : (th <=? nx) = true) by lia. assert (T2 : (th <=? ny) = true) by lia.
  destruct ((i =? 0) && bc_eqb (ax_lo ax) Pml), ((i =? ax_n ax - 1) && bc_eqb (ax_hi ax) Pml); try (exfalso; tauto);
  destruct ((j =? 0) && bc_eqb (ax_lo ay) Pml), ((j =? ax_n ay - 1) && bc_eqb (ax_hi ay) Pml); try (exfalso; tauto);
  unfold when, add_pml2; rewrite ?T1, ?T2; cbn; rewrite ?T1, ?T2; cbn; eauto.
Qed.
Theorem pml3_succeeds ax ay az nx ny th i j k a : In ([i; j; k], a) (rect3 (ax_n ax) (ax_n ay) (ax_n az)) ->
  (2 <= ax_n ax \/ ax_lo ax = Periodic \/ ax_hi ax = Periodic) -> (2 <= ax_n ay \/ ax_lo ay = Periodic \/ ax_hi ay = Periodic) ->
  (2 <= ax_n az \/ ax_lo az = Periodic \/ ax_hi az = Periodic) ->
  th <= nx -> th <= ny -> exists r, init_pml3 ax ay az nx ny th i j k = Some r.
Proof.
  intros Hc X Y Z Tx Ty. apply rect3_in in Hc. destruct Hc as (i' & j' & k' & E & _ & Hi & Hj & Hk). inversion E; subst i' j' k'; clear E.
  unfold init_pml3.
  assert (NX : ~ ((i =? 0) && bc_eqb (ax_lo ax) Pml = true /\ (i =? ax_n ax - 1) && bc_eqb (ax_hi ax) Pml = true)).
  { rewrite !cond_iff. intros [[A B] [C D]]. destruct X as [X|[X|X]]; [lia|congruence|congruence]. }
  assert (NY : ~ ((j =? 0) && bc_eqb (ax_lo ay) Pml = true /\ (j =? ax_n ay - 1) && bc_eqb (ax_hi ay) Pml = true)).
  { rewrite !cond_iff. intros [[A B] [C D]]. destruct Y as [Y|[Y|Y]]; [lia|congruence|congruence]. }
  assert (NZ : ~ ((k =? 0) && bc_eqb (ax_lo az) Pml = true /\ (k =? ax_n az - 1) && bc_eqb (ax_hi az) Pml = true)).
  { rewrite !cond_iff. intros [[A B] [C D]]. destruct Z as [Z|[Z|Z]]; [lia|congruence|congruence]. }
  assert (T1 : (th <=? nx) = true) by lia. assert (T2 : (th <=? ny) = true) by lia.
  destruct ((i =? 0) && bc_eqb (ax_lo ax) Pml), ((i =? ax_n ax - 1) && bc_eqb (ax_hi ax) Pml); try (exfalso; tauto);
  destruct ((j =? 0) && bc_eqb (ax_lo ay) Pml), ((j =? ax_n ay - 1) && bc_eqb (ax_hi ay) Pml); try (exfalso; tauto);
  destruct ((k =? 0) && bc_eqb (ax_lo az) Pml), ((k =? ax_n az - 1) && bc_eqb (ax_hi az) Pml); try (exfalso; tauto);
  unfold when, add_pml3; rewrite ?T1, ?T2; cbn; rewrite ?T1, ?T2; cbn; eauto.
Qed.

(** *** placement *)
Lemma patch_axis_global n np i l dx : 1 <= np -> n mod np = 0 -> (patch_axis n np i l dx == inject_Z (i * cells_per_patch n np + l) * dx)%Q.
Proof.
  intros Hnp D. unfold patch_axis, patch_x0, cells_per_patch.
  assert (E : n = np * (n / np)) by (apply Z_div_exact_full_2; lia).
  set (w := n / np) in *. clearbody w. subst n. rewrite inject_Z_plus, !inject_Z_mult.
  assert (NZ : ~ (inject_Z np == 0)%Q) by (intro H; unfold Qeq in H; cbn in H; lia).
  field. auto.
Qed.
Lemma cell_unique n np g : 1 <= np -> n mod np = 0 -> 0 <= g < n ->
  exists i l, (0 <= i < np /\ 0 <= l < cells_per_patch n np /\ g = i * cells_per_patch n np + l) /\
  forall i' l', 0 <= l' < cells_per_patch n np -> g = i' * cells_per_patch n np + l' -> i' = i /\ l' = l.
Proof.
  intros Hnp D Hg. unfold cells_per_patch. assert (E : n = np * (n / np)) by (apply Z_div_exact_full_2; lia).
  set (w := n / np) in *. clearbody w. subst n. assert (0 < w) by nia.
  exists (g / w), (g mod w). split.
  - pose proof (Z.mod_pos_bound g w ltac:(lia)). pose proof (Z.div_mod g w ltac:(lia)). split; [|split]; try lia.
    split; [apply Z.div_pos; lia|]. apply Z.div_lt_upper_bound; lia.
  - intros i' l' Hl E'. assert (g / w = i').
    { subst g. rewrite Z.add_comm, Z.div_add by lia. rewrite Z.div_small; lia. }
    split; [congruence|]. pose proof (Z.div_mod g w ltac:(lia)). nia.
Qed.
Lemma patches_touch n np i dx : 1 <= np -> n mod np = 0 ->
  (patch_xmax n np i 0 dx + dx == patch_xmin n np (i + 1) 0 dx)%Q.
Proof.
  intros Hnp D. unfold patch_xmax, patch_xmin, patch_x0, cells_per_patch.
  assert (E : n = np * (n / np)) by (apply Z_div_exact_full_2; lia).
  set (w := n / np) in *. clearbody w. subst n. rewrite inject_Z_plus, !inject_Z_mult.
  assert (NZ : ~ (inject_Z np == 0)%Q) by (intro H; unfold Qeq in H; cbn in H; lia).
  field. auto.
Qed.
Lemma index2_range npx npy ix : (exists c, In (c, ix) (rect2 npx npy)) <-> 0 <= ix < npx * npy /\ 0 <= npx /\ 0 <= npy.
Proof.
  split.
  - intros [c H]. apply rect2_in in H. destruct H as (i & j & _ & -> & Hi & Hj). nia.
  - intros (H & Hx & Hy). assert (0 < npx) by nia. exists [ix mod npx; ix / npx]. apply rect2_in. exists (ix mod npx), (ix / npx).
    pose proof (Z.mod_pos_bound ix npx ltac:(lia)). pose proof (Z.div_mod ix npx ltac:(lia)). split; auto. split; [lia|]. split; auto.
    split; [apply Z.div_pos; lia|]. apply Z.div_lt_upper_bound; lia.
Qed.
Lemma index3_range npx npy npz ix : 0 <= npx -> 0 <= npy -> 0 <= npz -> ((exists c, In (c, ix) (rect3 npx npy npz)) <-> 0 <= ix < npx * npy * npz).
Proof.
  intros Hx Hy Hz. split.
  - intros [c H]. apply rect3_in in H. destruct H as (i & j & k & _ & -> & Hi & Hj & Hk).
    assert (0 <= i + j * npx < npx * npy) by nia. assert (0 <= k * (npx * npy) <= (npz - 1) * (npx * npy)) by nia. nia.
  - intros H. assert (0 < npx) by nia. assert (0 < npx * npy) by nia. assert (0 < npy) by nia.
    set (q := ix / (npx * npy)). set (r := ix mod (npx * npy)).
    assert (R : 0 <= r < npx * npy) by (apply Z.mod_pos_bound; lia). assert (E : ix = npx * npy * q + r) by (apply Z.div_mod; lia).
    assert (Q : 0 <= q < npz) by (split; [apply Z.div_pos; lia|apply Z.div_lt_upper_bound; lia]). clearbody q r.
    exists [r mod npx; r / npx; q]. apply rect3_in. exists (r mod npx), (r / npx), q.
    pose proof (Z.mod_pos_bound r npx ltac:(lia)). pose proof (Z.div_mod r npx ltac:(lia)). split; auto. split; [nia|]. split; auto. split; [|auto].
    split; [apply Z.div_pos; lia|]. apply Z.div_lt_upper_bound; lia.
Qed.
