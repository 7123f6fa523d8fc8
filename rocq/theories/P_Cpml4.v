(** Two decompositions of one grid with absorbing layers. *)
From Coq Require Import Field_theory.
From Verif Require Import Base M_Layout S_Layout M_PartSync S_PartSync M_FieldSync S_FieldSync M_Maxwell S_Maxwell M_Cpml S_Cpml.
From Verif Require Import P_Layout P_PartSync P_PartSync2 P_PartSync3 P_Threads P_FieldGeo P_FieldPar P_FieldSync P_FieldSync2 P_FieldSync3 P_FieldSync4 P_FieldSync5 P_Maxwell P_Maxwell2 P_Maxwell3 P_Cpml P_Cpml2 P_Cpml3.
Local Open Scope Z_scope.

Lemma same_totals axes ns axes' ns' : same_grid axes ns axes' ns' -> totals axes ns = totals axes' ns'.
Proof.
  unfold same_grid, totals. revert axes' ns'. intros axes' ns' H. induction H as [|[a n] [a' n'] l l' [E _] H IH]; [reflexivity|]. cbn [map fst snd] in * . now rewrite E, IH.
Qed.
Lemma same_opens axes ns axes' ns' : same_grid axes ns axes' ns' -> length ns = length axes -> length ns' = length axes' -> opens axes = opens axes'.
Proof.
  intros H L L'. unfold opens. assert (E : map open_ axes = map open_ axes'); [|now rewrite E].
  unfold same_grid in H. revert ns axes' ns' H L L'. induction axes as [|a axes IH]; intros [|n ns] [|a' axes'] [|n' ns'] H L L'; cbn in L, L'; try discriminate; cbn [combine] in H; inversion H as [|? ? ? ? [_ E] H']; subst; [reflexivity|].
  cbn [map fst] in * . unfold open_ at 1 3. rewrite E. f_equal. apply (IH ns axes' ns'); auto; lia.
Qed.

Section Two.
Context {V : Type} (zero : V) (A : arith V) (K : layer V).
Variables (ds : list V) (sides : list pml_side) (SkE SkB : (nat -> V) -> V -> @stencil V) (dim : nat).
Hypothesis LE : forall k dt, local dim (SkE k dt).
Hypothesis LB : forall k dt, local dim (SkB k dt).
Hypothesis KE : forall k k' dt f o j v, (forall a, (a < dim)%nat -> k a = k' a) -> SkE k dt f o j v = SkE k' dt f o j v.
Hypothesis KB : forall k k' dt f o j v, (forall a, (a < dim)%nat -> k a = k' a) -> SkB k dt f o j v = SkB k' dt f o j v.
Hypothesis Hsides : forall s, In s sides -> (axis_of s < dim)%nat.
Notation around ns ng m p c := (fun (f' : nat) (d : list Z) => m (cell ns ng f' p (add c d))).
Notation here_ ns ng m p c := (fun f' : nat => m (cell ns ng f' p c)).
(** one decomposition, its layers and its solver *)
Record setting (ns : list Z) (ng : Z) (bounds : list (list Z)) (opp : nat -> nat) (n : nat) (nbr : nat -> nat -> option nat) (axes : list axis) (position : nat -> list Z) (pmls : nat -> list pml_side)
  (upE : V -> (addr -> V) -> (addr -> V) -> (addr -> V) * (pml_side -> (addr -> V)) -> (addr -> V) * (pml_side -> (addr -> V)))
  (upB : V -> (addr -> V) -> (addr -> V) * (pml_side -> (addr -> V)) -> (addr -> V) * (pml_side -> (addr -> V))) : Prop := {
  t_D : decomp ns ng bounds opp n nbr axes position;
  t_dim : length ns = dim;
  t_th : forall a, (a < dim)%nat -> opens axes a = true -> 0 < thick K < nth a ns 0;
  t_many : forall a, (a < dim)%nat -> opens axes a = true -> 2 <= ax_n (nth a axes (mkAxis 0 Pml Pml));
  t_pmls : forall p, (p < n)%nat -> pmls p = filter (present axes position p) sides;
  t_E : forall dt (mB mJ m : addr -> V) (psi : pml_side -> addr -> V), layered A K ns ng ds n pmls true dt mB
    (fun p f c v => SkE (fun a => kappa_list A K true (pmls p) a (size_ ns a) (coord a c)) dt f (around ns ng mB p c) (here_ ns ng mJ p c) v) (m, psi) (upE dt mB mJ (m, psi));
  t_B : forall dt (mE mJ m : addr -> V) (psi : pml_side -> addr -> V), layered A K ns ng ds n pmls false dt mE
    (fun p f c v => SkB (fun a => kappa_list A K false (pmls p) a (size_ ns a) (coord a c)) dt f (around ns ng mE p c) (here_ ns ng mJ p c) v) (m, psi) (upB dt mE (m, psi)) }.
Section Pair.
Variables (ns : list Z) (ng : Z) (bounds : list (list Z)) (opp : nat -> nat) (n : nat) (nbr : nat -> nat -> option nat) (axes : list axis) (position : nat -> list Z) (pmls : nat -> list pml_side).
Variables (upE : V -> (addr -> V) -> (addr -> V) -> (addr -> V) * (pml_side -> (addr -> V)) -> (addr -> V) * (pml_side -> (addr -> V)))
  (upB : V -> (addr -> V) -> (addr -> V) * (pml_side -> (addr -> V)) -> (addr -> V) * (pml_side -> (addr -> V))).
Variables (ns' : list Z) (ng' : Z) (bounds' : list (list Z)) (opp' : nat -> nat) (n' : nat) (nbr' : nat -> nat -> option nat) (axes' : list axis) (position' : nat -> list Z) (pmls' : nat -> list pml_side).
Variables (upE' : V -> (addr -> V) -> (addr -> V) -> (addr -> V) * (pml_side -> (addr -> V)) -> (addr -> V) * (pml_side -> (addr -> V)))
  (upB' : V -> (addr -> V) -> (addr -> V) * (pml_side -> (addr -> V)) -> (addr -> V) * (pml_side -> (addr -> V))).
Hypothesis T : setting ns ng bounds opp n nbr axes position pmls upE upB.
Hypothesis T' : setting ns' ng' bounds' opp' n' nbr' axes' position' pmls' upE' upB'.
Hypothesis Hsame : same_grid axes ns axes' ns'.
Notation sh := (shows zero axes ns ng n position).
Notation shi := (shows_inside zero axes ns ng n position).
Notation sh' := (shows zero axes' ns' ng' n' position').
Notation shi' := (shows_inside zero axes' ns' ng' n' position').
Notation ph := (phistory upE upB (guards_exchanged bounds ns ng n nbr 3)).
Notation ph' := (phistory upE' upB' (guards_exchanged bounds' ns' ng' n' nbr' 3)).
Lemma psi_ext ns0 n0 position0 pmls0 (PF PF' : pml_side -> nat -> list Z -> V) psi : (forall s f g, PF s f g = PF' s f g) -> psi_shows ns0 n0 position0 pmls0 PF psi -> psi_shows ns0 n0 position0 pmls0 PF' psi.
Proof. intros H HS s f p c Hf Hp Hc Hs. rewrite (HS s f p c Hf Hp Hc Hs). apply H. Qed.
Theorem phistory_same l l' : Forall2 (same_op shi shi') l l' ->
  forall mE mB pE pB mE' mB' pE' pB' FE FB PE PB s s',
  sh FE mE -> sh FB mB -> psi_shows ns n position pmls PE pE -> psi_shows ns n position pmls PB pB ->
  sh' FE mE' -> sh' FB mB' -> psi_shows ns' n' position' pmls' PE pE' -> psi_shows ns' n' position' pmls' PB pB' ->
  ph l (mkPS mE mB pE pB) s -> ph' l' (mkPS mE' mB' pE' pB') s' ->
  exists GE GB, sh GE (ps_E s) /\ sh GB (ps_B s) /\ sh' GE (ps_E s') /\ sh' GB (ps_B s').
Proof using T T' Hsame LE LB KE KB Hsides.
  destruct T as [D Hdim Hth Hmany Hpm UE UB]. destruct T' as [D' Hdim' Hth' Hmany' Hpm' UE' UB'].
  pose proof (ng_pos _ _ _ _ (d_geo _ _ _ _ _ _ _ _ D)) as Hg. pose proof (ng_pos _ _ _ _ (d_geo _ _ _ _ _ _ _ _ D')) as Hg'.
  pose proof (d_len _ _ _ _ _ _ _ _ D) as L. pose proof (d_len _ _ _ _ _ _ _ _ D') as L'.
  pose proof (same_grid_place axes ns axes' ns' Hsame L L') as Hpl. pose proof (same_totals _ _ _ _ Hsame) as ET. pose proof (same_opens _ _ _ _ Hsame L L') as EO.
  induction 1 as [|o o' l l' Ho HO IH]; intros mE mB pE pB mE' mB' pE' pB' FE FB PE PB s s' E B XE XB E' B' XE' XB' H H'.
  - inversion H; subst. inversion H'; subst. exists FE, FB. auto.
  - destruct o as [dt mJ|dt], o' as [dt' mJ'|dt']; cbn [same_op] in Ho; try contradiction.
    + destruct Ho as [<- (FJ & J & J')]. inversion H as [|? ? ? ? ? ? ? mE1 pE1 mE2 ? U X H1|]; subst. inversion H' as [|? ? ? ? ? ? ? mE1' pE1' mE2' ? U' X' H1'|]; subst.
      pose proof (UE dt mB mJ mE pE) as LU. rewrite U in LU. pose proof (UE' dt mB' mJ' mE' pE') as LU'. rewrite U' in LU'.
      destruct (layered_shows zero A K ds sides SkE dim LE KE ns ng bounds opp n nbr axes position D Hdim Hsides Hth Hmany pmls Hpm true dt FB FJ FE PE mB mJ mE pE mE1 pE1 mE2 E B J XE LU X) as [S1 S2].
      destruct (layered_shows zero A K ds sides SkE dim LE KE ns' ng' bounds' opp' n' nbr' axes' position' D' Hdim' Hsides Hth' Hmany' pmls' Hpm' true dt FB FJ FE PE mB' mJ' mE' pE' mE1' pE1' mE2' E' B' J' XE' LU' X') as [S1' S2'].
      rewrite <- ET, <- EO in S1', S2'.
      destruct (gfield_ext zero A K ds sides SkE dim LE true dt (opens axes) (totals axes ns) _ _ FB FJ FE PE FB FJ FE PE (fun g => eq_sym (Hpl g)) ltac:(auto) ltac:(auto) ltac:(auto) ltac:(auto)) as [G1 G2].
      eapply (IH mE2 mB pE1 pB mE2' mB' pE1' pB'); [exact S1|exact B|exact S2|exact XB| |exact B'| |exact XB'|exact H1|exact H1'].
      * exact (shows_ext zero axes' ns' ng' n' position' _ _ _ G1 S1').
      * exact (psi_ext ns' n' position' pmls' _ _ _ G2 S2').
    + subst dt'. inversion H as [| |? ? ? ? ? ? mB1 pB1 mB2 ? U X H1]; subst. inversion H' as [| |? ? ? ? ? ? mB1' pB1' mB2' ? U' X' H1']; subst.
      pose proof (UB dt mE mE mB pB) as LU. rewrite U in LU. pose proof (UB' dt mE' mE' mB' pB') as LU'. rewrite U' in LU'.
      destruct (layered_shows zero A K ds sides SkB dim LB KB ns ng bounds opp n nbr axes position D Hdim Hsides Hth Hmany pmls Hpm false dt FE FE FB PB mE mE mB pB mB1 pB1 mB2 B E (shows_here zero _ _ _ _ _ _ _ Hg E) XB LU X) as [S1 S2].
      destruct (layered_shows zero A K ds sides SkB dim LB KB ns' ng' bounds' opp' n' nbr' axes' position' D' Hdim' Hsides Hth' Hmany' pmls' Hpm' false dt FE FE FB PB mE' mE' mB' pB' mB1' pB1' mB2' B' E' (shows_here zero _ _ _ _ _ _ _ Hg' E') XB' LU' X') as [S1' S2'].
      rewrite <- ET, <- EO in S1', S2'.
      destruct (gfield_ext zero A K ds sides SkB dim LB false dt (opens axes) (totals axes ns) _ _ FE FE FB PB FE FE FB PB (fun g => eq_sym (Hpl g)) ltac:(auto) ltac:(auto) ltac:(auto) ltac:(auto)) as [G1 G2].
      eapply (IH mE mB2 pE pB1 mE' mB2' pE' pB1'); [exact E|exact S1|exact XE|exact S2|exact E'| |exact XE'| |exact H1|exact H1'].
      * exact (shows_ext zero axes' ns' ng' n' position' _ _ _ G1 S1').
      * exact (psi_ext ns' n' position' pmls' _ _ _ G2 S2').
Qed.
End Pair.
End Two.

(** ** the layers of a rectangular domain *)
Definition sides2 := [PXmin; PXmax; PYmin; PYmax].
Definition sides3 := [PXmin; PXmax; PYmin; PYmax; PZmin; PZmax].
Lemma filter_map_snd (l : list (bool * pml_side)) (q : pml_side -> bool) : Forall (fun e => fst e = q (snd e)) l -> map snd (filter fst l) = filter q (map snd l).
Proof. induction 1 as [|[b s] l E H IH]; [reflexivity|]. cbn [filter map fst snd] in * . subst b. destruct (q s); cbn [map]; now rewrite IH. Qed.
Lemma layers2_filter ax ay nx ny th pmls : paired [ax; ay] -> layers2 ax ay nx ny th pmls ->
  forall p, (p < npatch2 ax ay)%nat -> pmls p = filter (present [ax; ay] (position2 ax) p) sides2.
Proof.
  intros Hpa H p Hp. specialize (H p Hp). inversion Hpa as [|? ? Ex Hpa']; subst. inversion Hpa' as [|? ? Ey _]; subst.
  set (i := Z.of_nat p mod ax_n ax) in * . set (j := Z.of_nat p / ax_n ax) in * .
  set (l := [((i =? 0) && bc_eqb (ax_lo ax) Pml, PXmin); ((i =? ax_n ax - 1) && bc_eqb (ax_hi ax) Pml, PXmax);
             ((j =? 0) && bc_eqb (ax_lo ay) Pml, PYmin); ((j =? ax_n ay - 1) && bc_eqb (ax_hi ay) Pml, PYmax)]).
  change (init_pml2 ax ay nx ny th i j) with (P_Layout.chain (add_pml2 nx ny th) l) in H.
  apply P_Layout.chain_sides in H; [|intros; eapply add2_step; eauto]. rewrite H. change sides2 with (map snd l). apply filter_map_snd.
  unfold l. repeat (constructor; [unfold present; cbn; fold i; fold j; rewrite <- ?Ex, <- ?Ey; unfold opens, open_; cbn; apply andb_comm|]). constructor.
Qed.
Lemma layers3_filter ax ay az nx ny th pmls : paired [ax; ay; az] -> layers3 ax ay az nx ny th pmls ->
  forall p, (p < npatch3 ax ay az)%nat -> pmls p = filter (present [ax; ay; az] (position3 ax ay) p) sides3.
Proof.
  intros Hpa H p Hp. specialize (H p Hp). inversion Hpa as [|? ? Ex Hpa']; subst. inversion Hpa' as [|? ? Ey Hpa2]; subst. inversion Hpa2 as [|? ? Ez _]; subst.
  set (i := Z.of_nat p mod ax_n ax) in * . set (j := (Z.of_nat p / ax_n ax) mod ax_n ay) in * . set (k := Z.of_nat p / ax_n ax / ax_n ay) in * .
  set (l := [((i =? 0) && bc_eqb (ax_lo ax) Pml, PXmin); ((i =? ax_n ax - 1) && bc_eqb (ax_hi ax) Pml, PXmax);
             ((j =? 0) && bc_eqb (ax_lo ay) Pml, PYmin); ((j =? ax_n ay - 1) && bc_eqb (ax_hi ay) Pml, PYmax);
             ((k =? 0) && bc_eqb (ax_lo az) Pml, PZmin); ((k =? ax_n az - 1) && bc_eqb (ax_hi az) Pml, PZmax)]).
  change (init_pml3 ax ay az nx ny th i j k) with (P_Layout.chain (add_pml3 nx ny th) l) in H.
  apply P_Layout.chain_sides in H; [|intros; eapply add3_step; eauto]. rewrite H. change sides3 with (map snd l). apply filter_map_snd.
  unfold l. repeat (constructor; [unfold present; cbn; fold i; fold j; fold k; rewrite <- ?Ex, <- ?Ey, <- ?Ez; unfold opens, open_; cbn; apply andb_comm|]). constructor.
Qed.
Lemma layers_nodup (q : pml_side -> bool) l : NoDup l -> NoDup (filter q l). Proof. apply NoDup_filter. Qed.
(** in two dimensions the layers cannot be added when an open axis has a single patch *)
Lemma layers2_many ax ay nx ny th pmls : paired [ax; ay] -> 1 <= ax_n ax -> 1 <= ax_n ay -> layers2 ax ay nx ny th pmls ->
  forall a, (a < 2)%nat -> opens [ax; ay] a = true -> 2 <= ax_n (nth a [ax; ay] (mkAxis 0 Pml Pml)).
Proof.
  intros Hpa Nx Ny H a Ha Ho. inversion Hpa as [|? ? Ex Hpa']; subst. inversion Hpa' as [|? ? Ey _]; subst.
  assert (P0 : (0 < npatch2 ax ay)%nat) by (unfold npatch2; nia). specialize (H 0%nat P0).
  change (Z.of_nat 0) with 0 in H. rewrite Z.mod_0_l, Z.div_0_l in H by lia.
  unfold init_pml2 in H. rewrite <- Ex, <- Ey in H. destruct a as [|[|a]]; [| |lia]; unfold opens, open_ in Ho; cbn in Ho; cbn [nth].
  - destruct (Z.eq_dec (ax_n ax) 1) as [E1|]; [exfalso|lia]. rewrite E1, Ho in H. unfold add_pml2 in H.
    destruct ((th <=? nx) && (th <=? ny)), (0 =? ax_n ay - 1), (bc_eqb (ax_lo ay) Pml); vm_compute in H; discriminate.
  - destruct (Z.eq_dec (ax_n ay) 1) as [E1|]; [exfalso|lia]. rewrite E1, Ho in H. unfold add_pml2 in H.
    destruct ((th <=? nx) && (th <=? ny)), (0 =? ax_n ax - 1), (bc_eqb (ax_lo ax) Pml); vm_compute in H; discriminate.
Qed.
Lemma sides2_nodup : NoDup sides2. Proof. unfold sides2. repeat constructor; cbn; intuition discriminate. Qed.
Lemma sides3_nodup : NoDup sides3. Proof. unfold sides3. repeat constructor; cbn; intuition discriminate. Qed.

Section Settings.
Context {V : Type} (A : arith V) (K : layer V) (zero : V) (inv : V -> V).
Hypothesis Fth : field_theory zero (one_ K) (plus_ A) (times_ A) (minus_ A) (minus1_ A) (over_ A) inv (@eq V).
Lemma setting2 ax ay nx ny ng dx dy pmls : paired [ax; ay] -> 1 <= ax_n ax -> 1 <= ax_n ay -> 0 < ng -> ng <= nx -> ng <= ny ->
  (forall a, (a < 2)%nat -> opens [ax; ay] a = true -> 0 < thick K < nth a [nx; ny] 0) -> layers2 ax ay nx ny (thick K) pmls ->
  setting A K [dx; dy] sides2 (KE2 A dx dy) (KB2 A dx dy) 2 [nx; ny] ng bounds2 opp2 (npatch2 ax ay) (nbr2 ax ay) [ax; ay] (position2 ax) pmls
    (solver_e2 A K nx ny ng dx dy (npatch2 ax ay) pmls) (solver_b2 A K nx ny ng dx dy (npatch2 ax ay) pmls).
Proof.
  intros Hpa Nx Ny Hg Hx Hy Hth HL. pose proof (layers2_filter ax ay nx ny (thick K) pmls Hpa HL) as HF.
  assert (NL : forall p, (p < npatch2 ax ay)%nat -> NoDup (pmls p)) by (intros p Hp; rewrite HF by exact Hp; apply NoDup_filter, sides2_nodup).
  constructor; auto.
  - apply decomp2; auto.
  - apply (layers2_many ax ay nx ny (thick K) pmls Hpa Nx Ny HL).
  - intros dt mB mJ m psi. apply (solver_e2_ok A K zero inv Fth); auto.
  - intros dt mE mJ m psi. apply (solver_b2_ok A K zero inv Fth); auto.
Qed.
Lemma setting3 ax ay az nx ny nz ng dx dy dz pmls : paired [ax; ay; az] -> 1 <= ax_n ax -> 1 <= ax_n ay -> 1 <= ax_n az -> 0 < ng -> ng <= nx -> ng <= ny -> ng <= nz ->
  (forall a, (a < 3)%nat -> opens [ax; ay; az] a = true -> 0 < thick K < nth a [nx; ny; nz] 0) ->
  (forall a, (a < 3)%nat -> opens [ax; ay; az] a = true -> 2 <= ax_n (nth a [ax; ay; az] (mkAxis 0 Pml Pml))) -> layers3 ax ay az nx ny (thick K) pmls ->
  setting A K [dx; dy; dz] sides3 (KE3 A dx dy dz) (KB3 A dx dy dz) 3 [nx; ny; nz] ng bounds3 opp3 (npatch3 ax ay az) (nbr3 ax ay az) [ax; ay; az] (position3 ax ay) pmls
    (solver_e3 A K nx ny nz ng dx dy dz (npatch3 ax ay az) pmls) (solver_b3 A K nx ny nz ng dx dy dz (npatch3 ax ay az) pmls).
Proof.
  intros Hpa Nx Ny Nz Hg Hx Hy Hz Hth Hm HL. pose proof (layers3_filter ax ay az nx ny (thick K) pmls Hpa HL) as HF.
  assert (NL : forall p, (p < npatch3 ax ay az)%nat -> NoDup (pmls p)) by (intros p Hp; rewrite HF by exact Hp; apply NoDup_filter, sides3_nodup).
  constructor; auto.
  - apply decomp3; auto.
  - intros dt mB mJ m psi. apply (solver_e3_ok A K zero inv Fth); auto.
  - intros dt mE mJ m psi. apply (solver_b3_ok A K zero inv Fth); auto.
Qed.
End Settings.
