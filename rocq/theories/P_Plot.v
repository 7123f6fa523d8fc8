(** Plots: the registry of colour maps, the pictures. *)
From Verif Require Import Base M_Plot S_Plot.
From Coq Require Import QArith Qround String Lqa.
Local Open Scope string_scope.
Local Open Scope list_scope.
Local Open Scope nat_scope.

Lemma mem_in n l : mem n l = true <-> In n l.
Proof.
  unfold mem. rewrite existsb_exists. split; [intros (m & H & E); apply String.eqb_eq in E; now subst|].
  intro H. exists n. split; auto. apply String.eqb_refl.
Qed.
Lemma mem_not n l : mem n l = false <-> ~ In n l.
Proof. rewrite <- mem_in. destruct (mem n l); split; intro H; auto; try discriminate. now exfalso; apply H. Qed.
Definition clean (reg : list string) : Prop := forall n, In n cmaps -> ~ In n reg.
Lemma register_new ns : forall reg, NoDup ns -> (forall n, In n ns -> ~ In n reg) -> register ns reg = (Done, rev ns ++ reg).
Proof.
  induction ns as [|n ns IH]; intros reg N H; auto. cbn [register]. inversion N as [|? ? N1 N2]; subst.
  rewrite (proj2 (mem_not n reg)) by (apply H; left; auto). rewrite IH; auto.
  - cbn [rev]. now rewrite <- app_assoc.
  - intros m Hm [->|X]; [auto|]. exact (H m (or_intror Hm) X).
Qed.
Lemma cmaps_nodup : NoDup cmaps.
Proof. unfold cmaps. repeat (apply NoDup_cons; [cbn; intuition discriminate|]). apply NoDup_nil. Qed.
Lemma unregister_is ns : forall reg, unregister ns reg = filter (fun m => negb (mem m ns)) reg.
Proof.
  induction ns as [|n ns IH]; intro reg; cbn [unregister fold_left].
  - symmetry. clear. induction reg as [|m reg IH]; auto. cbn [filter]. change (mem m []) with false. cbn [negb]. now rewrite IH.
  - change (fold_left (fun r n => drop n r) ns (drop n reg)) with (unregister ns (drop n reg)). rewrite IH. unfold drop. clear.
    induction reg as [|m reg IH]; auto. cbn [filter]. unfold mem at 2. cbn [existsb]. destruct (String.eqb m n); cbn [negb filter orb].
    + exact IH.
    + fold (mem m ns). destruct (mem m ns); cbn [negb]; now rewrite IH.
Qed.
Lemma unregister_clean reg : clean reg -> unregister cmaps (rev cmaps ++ reg) = reg.
Proof.
  intro C. rewrite unregister_is, filter_app.
  assert (F : forall l, (forall m, In m l -> In m cmaps) -> filter (fun m => negb (mem m cmaps)) l = []).
  { induction l as [|m l IH]; intro H; auto. cbn [filter]. rewrite (proj2 (mem_in m cmaps)) by (apply H; left; auto). apply IH. intros; apply H; right; auto. }
  rewrite F by (intros m Hm; now apply in_rev). cbn [app]. revert C. clear. induction reg as [|m reg IH]; intro C; auto. cbn [filter].
  assert (~ In m cmaps) by (intro X; apply (C m X); left; auto). apply mem_not in H. rewrite H. cbn [negb]. f_equal. apply IH.
  intros n Hn X. exact (C n Hn (or_intror X)).
Qed.
Lemma register_clean reg : clean reg -> register cmaps reg = (Done, rev cmaps ++ reg).
Proof. intro C. apply register_new; [exact cmaps_nodup|exact C]. Qed.

Lemma data_good bi k : forall cs, Forall (drawable bi k) cs ->
  exists l, field_data (fields k) cs = inl l /\ Forall2 (fun p c => snd p = c /\ asked k c = Some (fst p)) l cs.
Proof.
  induction cs as [|c cs IH]; intro F; [exists []; split; auto|]. inversion F as [|? ? D F']; subst. destruct (IH F') as (l & E & H).
  destruct D as (a & nx & ny & A & _ & _). exists ((a, c) :: l). split; [|apply Forall2_cons; auto].
  cbn [field_data]. unfold asked in A. destruct (c_field c) as [[f|b|]|]; try discriminate; rewrite E; [rewrite A; reflexivity|]. now injection A as ->.
Qed.
Lemma draw_good bi k : forall cs, Forall (drawable bi k) cs -> forall l reg, (forall m, In m bi \/ In m cmaps -> In m reg) ->
  Forall2 (fun p c => snd p = c /\ asked k c = Some (fst p)) l cs ->
  exists os, draw (lx k) (ly k) reg l = inl os /\
   Forall2 (fun c o => exists a, asked k c = Some a /\ exists reg, imshow (lx k) (ly k) reg a c = inl o) cs os.
Proof.
  intros cs F l reg R. revert l. induction F as [|c cs D F IH]; intros l H; inversion H as [|[b c'] ? l' ? [E A] H']; subst; [exists []; split; auto|].
  cbn [fst snd] in *. destruct (IH _ H') as (os & Ed & Ho). destruct D as (a & nx & ny & A' & Dm & Cm). rewrite A in A'. injection A' as ->.
  assert (I : exists o, imshow (lx k) (ly k) reg a c' = inl o).
  { unfold imshow. rewrite Dm. rewrite (proj2 (mem_in _ reg)); [eauto|]. destruct (c_cmap c'); apply R; auto. }
  destruct I as (o & I). exists (o :: os). split; [cbn [draw]; now rewrite I, Ed|]. apply Forall2_cons; auto. exists a. split; eauto.
Qed.
Lemma pixel_at n len i x : i < n -> (0 < len)%Q -> (inject_Z (Z.of_nat i) * (len / inject_Z (Z.of_nat n)) <= x)%Q ->
  (x < inject_Z (Z.of_nat (S i)) * (len / inject_Z (Z.of_nat n)))%Q -> Z.to_nat (pixel n len x) = i.
Proof.
  intros Hi L H1 H2. unfold pixel. assert (N : (0 < inject_Z (Z.of_nat n))%Q) by (change 0%Q with (inject_Z 0); rewrite <- Zlt_Qlt; lia).
  set (a := inject_Z (Z.of_nat n)) in *. set (w := (len / a)%Q) in *. assert (W : (0 < w)%Q) by (unfold w, Qdiv; apply Qmult_lt_0_compat; auto; apply Qinv_lt_0_compat; auto).
  assert (E : (x * a / len == x / w)%Q) by (unfold w; field; split; intro Z0; clear - Z0 L N; clearbody a; lra).
  rewrite (Qfloor_comp _ _ E). assert (B1 : (inject_Z (Z.of_nat i) <= x / w)%Q) by (apply Qle_shift_div_l; auto).
  assert (B2 : (x / w < inject_Z (Z.of_nat (S i)))%Q) by (apply Qlt_shift_div_r; auto).
  pose proof (Qfloor_le (x / w)) as F1. pose proof (Qlt_floor (x / w)) as F2.
  assert (Z1 : (inject_Z (Qfloor (x / w)) < inject_Z (Z.of_nat (S i)))%Q) by (eapply Qle_lt_trans; eauto).
  assert (Z2 : (inject_Z (Z.of_nat i) < inject_Z (Qfloor (x / w) + 1))%Q) by (eapply Qle_lt_trans; eauto).
  rewrite <- Zlt_Qlt in Z1, Z2. clear - Z1 Z2. lia.
Qed.
Lemma imshow_shows lx ly reg a c o : (0 < lx)%Q -> (0 < ly)%Q -> imshow lx ly reg a c = inl o -> shows_cells lx ly c a o.
Proof.
  intros Lx Ly I nx ny i j x y D Hi Hj X1 X2 Y1 Y2. unfold imshow in I. rewrite D in I.
  destruct (mem _ reg) in I; [|discriminate]. injection I as <-. unfold shown. cbn [o_nx o_ny o_lx o_ly o_img].
  rewrite (pixel_at nx lx i x Hi Lx X1 X2), (pixel_at ny ly j y Hj Ly Y1 Y2). reflexivity.
Qed.
