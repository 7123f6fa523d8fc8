(** Histories of updates on decomposed grids: independence of the decomposition, divergences. *)
From Coq Require Import Field_theory Ring Field.
From Verif Require Import Base M_Layout S_Layout M_PartSync S_PartSync M_FieldSync S_FieldSync M_Maxwell S_Maxwell.
From Verif Require Import P_Layout P_PartSync P_PartSync2 P_PartSync3 P_Threads P_FieldGeo P_FieldPar P_FieldSync P_FieldSync2 P_FieldSync3 P_FieldSync4 P_FieldSync5 P_Maxwell P_Maxwell2.
Local Open Scope Z_scope.

Record decomp (ns : list Z) (ng : Z) (bounds : list (list Z)) (opp : nat -> nat) (n : nat) (nbr : nat -> nat -> option nat)
  (axes : list axis) (position : nat -> list Z) : Prop := mkDecomp {
  d_geo : geometry ns ng bounds opp;
  d_pair : paired axes;
  d_len : length ns = length axes;
  d_grid : forall p, (p < n)%nat -> in_grid axes (position p);
  d_all : forall d, dirs_ok ns d -> d <> map (fun _ => 0) ns -> In d bounds;
  d_nbr : forall p b q, (p < n)%nat -> (b < length bounds)%nat -> nbr p b = Some q <-> (q < n)%nat /\ wrap_all axes (add (position p) (nth b bounds [])) = Some (position q);
  d_onto : forall i, in_grid axes i -> exists q, (q < n)%nat /\ position q = i }.

Lemma decomp2 ax ay nx ny ng : paired [ax; ay] -> 1 <= ax_n ax -> 1 <= ax_n ay -> 0 < ng -> ng <= nx -> ng <= ny ->
  decomp [nx; ny] ng bounds2 opp2 (npatch2 ax ay) (nbr2 ax ay) [ax; ay] (position2 ax).
Proof.
  intros Hp Nx Ny Hg Hx Hy. constructor; auto.
  - now apply geometry2.
  - intros; now apply hgrid2.
  - apply all2.
  - intros p0 b q Hp0 Hb. apply (nbr2_spec ax ay Nx Ny p0 b q Hp0 Hb).
  - apply (honto2 ax ay Nx Ny).
Qed.
Lemma decomp3 ax ay az nx ny nz ng : paired [ax; ay; az] -> 1 <= ax_n ax -> 1 <= ax_n ay -> 1 <= ax_n az -> 0 < ng -> ng <= nx -> ng <= ny -> ng <= nz ->
  decomp [nx; ny; nz] ng bounds3 opp3 (npatch3 ax ay az) (nbr3 ax ay az) [ax; ay; az] (position3 ax ay).
Proof.
  intros Hp Nx Ny Nz Hg Hx Hy Hz. constructor; auto.
  - now apply geometry3.
  - intros; now apply hgrid3.
  - apply all3.
  - intros p0 b q Hp0 Hb. apply (nbr3_spec ax ay az Nx Ny Nz p0 b q Hp0 Hb).
  - apply (honto3 ax ay az Nx Ny Nz).
Qed.

Lemma place1_again a n x g e : place1 a n 0 x = Some g -> place1 a n 0 (g + e) = place1 a n 0 (x + e).
Proof.
  unfold place1. rewrite !Z.mul_0_l, !Z.add_0_l. set (N := ax_n a * n).
  destruct ((0 <=? x) && (x <? N)) eqn:B; [intro E; inversion E; subst; reflexivity|].
  destruct (bc_eqb (ax_lo a) Periodic) eqn:P; [|discriminate]. intro E. inversion E; subst g. clear E.
  assert (M : (x mod N + e) mod N = (x + e) mod N) by (rewrite Zplus_mod_idemp_l; reflexivity).
  assert (K : forall y, (if (0 <=? y) && (y <? N) then Some y else Some (y mod N)) = Some (y mod N)).
  { intro y. destruct ((0 <=? y) && (y <? N)) eqn:C; [|reflexivity]. apply andb_true_iff in C as [C1 C2]. rewrite Z.mod_small by lia. reflexivity. }
  rewrite !K, M. reflexivity.
Qed.
Lemma place_again axes : forall ns c g e, length ns = length axes -> length c = length axes -> length e = length axes ->
  place axes ns (zeros ns) c = Some g -> place axes ns (zeros ns) (add g e) = place axes ns (zeros ns) (add c e).
Proof.
  induction axes as [|a axes IH]; intros [|n ns] [|x c] g [|y e] H1 H2 H3; cbn in H1, H2, H3; try discriminate.
  - cbn. intro E. inversion E; subst. reflexivity.
  - cbn [zeros map place]. destruct (place1 a n 0 x) as [g1|] eqn:E1; [|discriminate]. fold (zeros ns). destruct (place axes ns (zeros ns) c) as [r|] eqn:E2; [|discriminate].
    intro E. inversion E; subst. cbn [add place]. rewrite (place1_again _ _ _ _ _ E1), (IH ns c r e) by (auto; lia). reflexivity.
Qed.

Lemma flat_len ns : forall i c, length i = length ns -> length c = length ns -> length (flat ns i c) = length ns.
Proof. induction ns as [|k l IH]; intros [|x i] [|y c] H1 H2; cbn in *; try discriminate; auto. Qed.

Section Hist.
Context {V : Type} (zero : V).

Lemma grid_step_ext S axes ns axes' ns' FO FJ F FO' FJ' F' : local (length ns) S -> same_grid axes ns axes' ns' ->
  length ns = length axes -> length ns' = length axes' ->
  (forall f g, FO f g = FO' f g) -> (forall f g, FJ f g = FJ' f g) -> (forall f g, F f g = F' f g) ->
  forall f g, grid_step zero S axes ns FO FJ F f g = grid_step zero S axes' ns' FO' FJ' F' f g.
Proof.
  intros HL HS L L' HO HJ HF f g. unfold grid_step. rewrite HF. apply HL; [|auto].
  intros f' d _ _ _. rewrite <- (same_grid_place axes ns axes' ns' HS L L'). destruct (place axes ns (zeros ns) (add g d)); auto.
Qed.
Lemma shows_ext axes ns ng n position F F' (m : addr -> V) : (forall f g, F f g = F' f g) -> shows zero axes ns ng n position F m -> shows zero axes ns ng n position F' m.
Proof. intros H HS f p c Hf Hp Hc. rewrite (HS f p c Hf Hp Hc). unfold shown. destruct (place axes ns (position p) c); auto. Qed.

Lemma step_shows' ns ng bounds opp n nbr axes position (D : decomp ns ng bounds opp n nbr axes position) S FO FJ F mO mJ m m1 m2 : local (length ns) S ->
  shows zero axes ns ng n position F m -> shows zero axes ns ng n position FO mO -> shows_inside zero axes ns ng n position FJ mJ ->
  updated S ns ng n mO mJ m m1 -> guards_exchanged bounds ns ng n nbr 3 m1 m2 ->
  shows zero axes ns ng n position (grid_step zero S axes ns FO FJ F) m2.
Proof. destruct D as [G H1 H2 H3 H4 H5 H6]. exact (step_shows zero ns ng bounds opp n G nbr axes position H1 H2 H3 H4 H5 H6 S FO FJ F mO mJ m m1 m2). Qed.

Lemma shows_here axes ns ng n position F m : 0 <= ng -> shows zero axes ns ng n position F m -> shows_inside zero axes ns ng n position F m.
Proof. intros Hg H f p c Hf Hp Hc. apply H; auto. apply interior_within; auto; lia. Qed.

(** the value of an updated field at a cell that lies in the grid *)
Lemma shown_step ns ng bounds opp n nbr axes position (D : decomp ns ng bounds opp n nbr axes position) S FO FJ F p f c : local (length ns) S -> (p < n)%nat -> length c = length ns -> place axes ns (position p) c <> None ->
  shown zero axes ns position (grid_step zero S axes ns FO FJ F) p f c =
  S f (fun f' d => shown zero axes ns position FO p f' (add c d)) (fun f' => shown zero axes ns position FJ p f' c) (shown zero axes ns position F p f c).
Proof.
  intros HL Hp Lc HP. destruct D as [G H1 H2 H3 H4 H5 H6]. pose proof (grid_len axes _ (H3 p Hp)) as Li. unfold shown at 1 3 4.
  destruct (place axes ns (position p) c) as [g|] eqn:E; [|now elim HP]. unfold grid_step. apply HL; [|reflexivity].
  intros f' d _ _ Ld. unfold shown. rewrite place_flat in E by lia.
  rewrite (place_again axes ns (flat ns (position p) c) g d); auto; try lia.
  - rewrite (place_flat axes ns (position p) (add c d)); auto; [|rewrite add_length; lia]. rewrite flat_add by lia. reflexivity.
  - rewrite flat_len by lia. exact H2.
Qed.

Section Two.
Variables (SE SB : V -> @stencil V).
Variables (ns : list Z) (ng : Z) (bounds : list (list Z)) (opp : nat -> nat) (n : nat) (nbr : nat -> nat -> option nat) (axes : list axis) (position : nat -> list Z).
Variables (ns' : list Z) (ng' : Z) (bounds' : list (list Z)) (opp' : nat -> nat) (n' : nat) (nbr' : nat -> nat -> option nat) (axes' : list axis) (position' : nat -> list Z).
Hypothesis D : decomp ns ng bounds opp n nbr axes position.
Hypothesis D' : decomp ns' ng' bounds' opp' n' nbr' axes' position'.
Hypothesis Hdim : length ns = length ns'.
Hypothesis Hsame : same_grid axes ns axes' ns'.
Hypothesis LE : forall dt, local (length ns) (SE dt).
Hypothesis LB : forall dt, local (length ns) (SB dt).
Variables (upE upE' : V -> (addr -> V) -> (addr -> V) -> (addr -> V) -> addr -> V) (upB upB' : V -> (addr -> V) -> (addr -> V) -> addr -> V).
Hypothesis UE : forall dt mB mJ mE, updated (SE dt) ns ng n mB mJ mE (upE dt mB mJ mE).
Hypothesis UE' : forall dt mB mJ mE, updated (SE dt) ns' ng' n' mB mJ mE (upE' dt mB mJ mE).
Hypothesis UB : forall dt mE mB, updated (SB dt) ns ng n mE mE mB (upB dt mE mB).
Hypothesis UB' : forall dt mE mB, updated (SB dt) ns' ng' n' mE mE mB (upB' dt mE mB).
Notation sh := (shows zero axes ns ng n position).
Notation sh' := (shows zero axes' ns' ng' n' position').
Notation shi := (shows_inside zero axes ns ng n position).
Notation shi' := (shows_inside zero axes' ns' ng' n' position').

Theorem history_same l l' mE mB mE' mB' FE FB s s' :
  Forall2 (same_op shi shi') l l' ->
  sh FE mE -> sh FB mB -> sh' FE mE' -> sh' FB mB' ->
  history upE upB (guards_exchanged bounds ns ng n nbr 3) l (mE, mB) s ->
  history upE' upB' (guards_exchanged bounds' ns' ng' n' nbr' 3) l' (mE', mB') s' ->
  exists GE GB, sh GE (fst s) /\ sh GB (snd s) /\ sh' GE (fst s') /\ sh' GB (snd s').
Proof using D D' Hdim Hsame LE LB UE UE' UB UB'.
  intro HO. revert mE mB mE' mB' FE FB. induction HO as [|o o' l l' Ho HO IH]; intros mE mB mE' mB' FE FB E B E' B' H H'.
  - inversion H; subst. inversion H'; subst. exists FE, FB. auto.
  - pose proof (ng_pos _ _ _ _ (d_geo _ _ _ _ _ _ _ _ D)) as Hg. pose proof (ng_pos _ _ _ _ (d_geo _ _ _ _ _ _ _ _ D')) as Hg'.
    destruct o as [dt mJ|dt], o' as [dt' mJ'|dt']; cbn [same_op] in Ho; try contradiction.
    + destruct Ho as [<- (FJ & J & J')]. inversion H as [|? ? ? ? ? mE1 ? X H1|]; subst. inversion H' as [|? ? ? ? ? mE1' ? X' H1'|]; subst.
      pose proof (step_shows' _ _ _ _ _ _ _ _ D (SE dt) FB FJ FE mB mJ mE _ mE1 (LE dt) E B J (UE dt mB mJ mE) X) as S1.
      assert (LE' : local (length ns') (SE dt)) by (rewrite <- Hdim; apply LE).
      pose proof (step_shows' _ _ _ _ _ _ _ _ D' (SE dt) FB FJ FE mB' mJ' mE' _ mE1' LE' E' B' J' (UE' dt mB' mJ' mE') X') as S1'.
      eapply (IH mE1 mB mE1' mB' _ FB); [exact S1|exact B| |exact B'|exact H1|exact H1'].
      eapply shows_ext; [|exact S1']. intros. symmetry. apply grid_step_ext; auto; [apply (d_len _ _ _ _ _ _ _ _ D)|apply (d_len _ _ _ _ _ _ _ _ D')].
    + subst dt'. inversion H as [| |? ? ? ? mB1 ? X H1]; subst. inversion H' as [| |? ? ? ? mB1' ? X' H1']; subst.
      pose proof (step_shows' _ _ _ _ _ _ _ _ D (SB dt) FE FE FB mE mE mB _ mB1 (LB dt) B E (shows_here _ _ _ _ _ _ _ Hg E) (UB dt mE mB) X) as S1.
      assert (LB' : local (length ns') (SB dt)) by (rewrite <- Hdim; apply LB).
      pose proof (step_shows' _ _ _ _ _ _ _ _ D' (SB dt) FE FE FB mE' mE' mB' _ mB1' LB' B' E' (shows_here _ _ _ _ _ _ _ Hg' E') (UB' dt mE' mB') X') as S1'.
      eapply (IH mE mB1 mE' mB1' FE); [exact E|exact S1|exact E'| |exact H1|exact H1'].
      eapply shows_ext; [|exact S1']. intros. symmetry. apply grid_step_ext; auto; [apply (d_len _ _ _ _ _ _ _ _ D)|apply (d_len _ _ _ _ _ _ _ _ D')].
Qed.

End Two.

Section Divergence.
Variables (A : arith V) (SE SB : V -> @stencil V).
Variables (ns : list Z) (ng : Z) (bounds : list (list Z)) (opp : nat -> nat) (n : nat) (nbr : nat -> nat -> option nat) (axes : list axis) (position : nat -> list Z).
Hypothesis D : decomp ns ng bounds opp n nbr axes position.
Hypothesis LE : forall dt, local (length ns) (SE dt).
Hypothesis LB : forall dt, local (length ns) (SB dt).
Variables (upE : V -> (addr -> V) -> (addr -> V) -> (addr -> V) -> addr -> V) (upB : V -> (addr -> V) -> (addr -> V) -> addr -> V).
Hypothesis UE : forall dt mB mJ mE, updated (SE dt) ns ng n mB mJ mE (upE dt mB mJ mE).
Hypothesis UB : forall dt mE mB, updated (SB dt) ns ng n mE mE mB (upB dt mE mB).
Notation sh := (shows zero axes ns ng n position).
Notation shi := (shows_inside zero axes ns ng n position).
Notation sv := (shown zero axes ns position).

Lemma history_B IB p l mE mB FE FB s FJs : currents_are shi l FJs ->
  (forall dt FO F, IB (sv (grid_step zero (SB dt) axes ns FO FO F) p) = IB (sv F p)) ->
  sh FE mE -> sh FB mB -> history upE upB (guards_exchanged bounds ns ng n nbr 3) l (mE, mB) s ->
  exists GE GB, sh GE (fst s) /\ sh GB (snd s) /\ IB (sv GB p) = IB (sv FB p) :> V.
Proof using D LE LB UE UB.
  intros HJ KB. revert mE mB FE FB. unfold currents_are in HJ. induction HJ as [|o FJ l FJs HJ1 HJ IH]; intros mE mB FE FB E B H.
  - inversion H; subst. exists FE, FB. auto.
  - pose proof (ng_pos _ _ _ _ (d_geo _ _ _ _ _ _ _ _ D)) as Hg. destruct o as [dt mJ|dt].
    + inversion H as [|? ? ? ? ? mE1 ? X H1|]; subst. cbn in HJ1.
      pose proof (step_shows' _ _ _ _ _ _ _ _ D (SE dt) FB FJ FE mB mJ mE _ mE1 (LE dt) E B HJ1 (UE dt mB mJ mE) X) as S1.
      exact (IH _ _ _ _ S1 B H1).
    + inversion H as [| |? ? ? ? mB1 ? X H1]; subst.
      pose proof (step_shows' _ _ _ _ _ _ _ _ D (SB dt) FE FE FB mE mE mB _ mB1 (LB dt) B E (shows_here _ _ _ _ _ _ _ Hg E) (UB dt mE mB) X) as S1.
      destruct (IH _ _ _ _ E S1 H1) as (GE & GB & R1 & R2 & R3). exists GE, GB. split; [exact R1|]. split; [exact R2|]. rewrite R3. apply KB.
Qed.
Lemma history_E IE p l mE mB FE FB s FJs : currents_are shi l FJs ->
  (forall dt FO FJ F, IE (sv (grid_step zero (SE dt) axes ns FO FJ F) p) = minus_ A (IE (sv F p)) (times_ A (over_ A dt (eps0 A)) (IE (sv FJ p)))) ->
  sh FE mE -> sh FB mB -> history upE upB (guards_exchanged bounds ns ng n nbr 3) l (mE, mB) s ->
  exists GE GB, sh GE (fst s) /\ sh GB (snd s) /\ IE (sv GE p) = carried A (combine l (map (fun FJ => IE (sv FJ p)) FJs)) (IE (sv FE p)).
Proof using D LE LB UE UB.
  intros HJ KE. revert mE mB FE FB. unfold currents_are in HJ. induction HJ as [|o FJ l FJs HJ1 HJ IH]; intros mE mB FE FB E B H.
  - inversion H; subst. exists FE, FB. auto.
  - pose proof (ng_pos _ _ _ _ (d_geo _ _ _ _ _ _ _ _ D)) as Hg. destruct o as [dt mJ|dt].
    + inversion H as [|? ? ? ? ? mE1 ? X H1|]; subst. cbn in HJ1.
      pose proof (step_shows' _ _ _ _ _ _ _ _ D (SE dt) FB FJ FE mB mJ mE _ mE1 (LE dt) E B HJ1 (UE dt mB mJ mE) X) as S1.
      destruct (IH _ _ _ _ S1 B H1) as (GE & GB & R1 & R2 & R3). exists GE, GB. split; [exact R1|]. split; [exact R2|]. rewrite R3.
      cbn [combine map]. unfold carried. cbn [fold_left fst snd]. f_equal. apply KE.
    + inversion H as [| |? ? ? ? mB1 ? X H1]; subst.
      pose proof (step_shows' _ _ _ _ _ _ _ _ D (SB dt) FE FE FB mE mE mB _ mB1 (LB dt) B E (shows_here _ _ _ _ _ _ _ Hg E) (UB dt mE mB) X) as S1.
      destruct (IH _ _ _ _ E S1 H1) as (GE & GB & R1 & R2 & R3). exists GE, GB. split; [exact R1|]. split; [exact R2|]. rewrite R3. reflexivity.
Qed.
End Divergence.
End Hist.

Section Identities.
Context {V : Type} (A : arith V) (zero one : V) (inv : V -> V).
Hypothesis Fth : field_theory zero one (plus_ A) (times_ A) (minus_ A) (minus1_ A) (over_ A) inv (@eq V).
Lemma Rth : ring_theory zero one (plus_ A) (times_ A) (minus_ A) (minus1_ A) (@eq V). Proof using Fth. exact (F_R Fth). Qed.
Add Ring VR : Rth.
Lemma div_inv x y : over_ A x y = times_ A x (inv y). Proof using Fth. exact (Fdiv_def Fth x y). Qed.
Lemma eps_cancel dt j : eps0 A <> zero -> times_ A (eps0 A) (times_ A (over_ A dt (eps0 A)) j) = times_ A dt j.
Proof using Fth.
  intro H. rewrite div_inv. pose proof (Finv_l Fth _ H) as E.
  transitivity (times_ A (times_ A dt j) (times_ A (inv (eps0 A)) (eps0 A))); [ring|]. rewrite E. ring.
Qed.
Lemma carried_gauss l : eps0 A <> zero -> forall d rho, minus_ A (times_ A (eps0 A) (carried A l d)) (charge_after A l rho) = minus_ A (times_ A (eps0 A) d) rho.
Proof using Fth.
  intro H. induction l as [|[o dj] l IH]; intros d rho; [reflexivity|]. destruct o as [dt mJ|dt].
  - transitivity (minus_ A (times_ A (eps0 A) (minus_ A d (times_ A (over_ A dt (eps0 A)) dj))) (minus_ A rho (times_ A dt dj))); [exact (IH _ _)|].
    transitivity (minus_ A (minus_ A (times_ A (eps0 A) d) (times_ A (eps0 A) (times_ A (over_ A dt (eps0 A)) dj))) (minus_ A rho (times_ A dt dj))); [ring|].
    rewrite (eps_cancel dt dj H). ring.
  - exact (IH d rho).
Qed.

Ltac offsets := cbn [add]; rewrite ?Z.add_0_r; repeat match goal with |- context [?x + -1] => change (x + -1) with (x - 1) end.
Section P2.
Variables (ns : list Z) (ng : Z) (bounds : list (list Z)) (opp : nat -> nat) (n : nat) (nbr : nat -> nat -> option nat) (axes : list axis) (position : nat -> list Z).
Hypothesis D : decomp ns ng bounds opp n nbr axes position.
Variables (dx dy dz : V) (p : nat) (i j k : Z).
Hypothesis Hp : (p < n)%nat.
Notation sv := (shown zero axes ns position).
Notation inside c := (place axes ns (position p) c <> None).
Lemma divB2_step dt FO F : length ns = 2%nat -> inside [i; j] -> inside [i + 1; j] -> inside [i; j + 1] ->
  divB2 A (sv (grid_step zero (SB2 A dx dy dt) axes ns FO FO F) p) dx dy i j = divB2 A (sv F p) dx dy i j.
Proof using Fth D Hp.
  intros L H1 H2 H3. unfold divB2. assert (HL : local (length ns) (SB2 A dx dy dt)) by (rewrite L; apply local_SB2).
  rewrite !(shown_step zero ns ng bounds opp n nbr axes position D) by (auto; rewrite L; reflexivity).
  cbv beta iota zeta delta [SB2]. offsets. rewrite !div_inv. ring.
Qed.
Lemma divE2_step dt FO FJ F : length ns = 2%nat -> inside [i; j] -> inside [i - 1; j] -> inside [i; j - 1] ->
  divE2 A (sv (grid_step zero (SE2 A dx dy dt) axes ns FO FJ F) p) dx dy i j =
  minus_ A (divE2 A (sv F p) dx dy i j) (times_ A (over_ A dt (eps0 A)) (divE2 A (sv FJ p) dx dy i j)).
Proof using Fth D Hp.
  intros L H1 H2 H3. unfold divE2. assert (HL : local (length ns) (SE2 A dx dy dt)) by (rewrite L; apply local_SE2).
  rewrite !(shown_step zero ns ng bounds opp n nbr axes position D) by (auto; rewrite L; reflexivity).
  cbv beta iota zeta delta [SE2]. offsets. rewrite !div_inv. ring.
Qed.
Lemma divB3_step dt FO F : length ns = 3%nat -> inside [i; j; k] -> inside [i + 1; j; k] -> inside [i; j + 1; k] -> inside [i; j; k + 1] ->
  divB3 A (sv (grid_step zero (SB3 A dx dy dz dt) axes ns FO FO F) p) dx dy dz i j k = divB3 A (sv F p) dx dy dz i j k.
Proof using Fth D Hp.
  intros L H1 H2 H3 H4. unfold divB3. assert (HL : local (length ns) (SB3 A dx dy dz dt)) by (rewrite L; apply local_SB3).
  rewrite !(shown_step zero ns ng bounds opp n nbr axes position D) by (auto; rewrite L; reflexivity).
  cbv beta iota zeta delta [SB3]. offsets. rewrite !div_inv. ring.
Qed.
Lemma divE3_step dt FO FJ F : length ns = 3%nat -> inside [i; j; k] -> inside [i - 1; j; k] -> inside [i; j - 1; k] -> inside [i; j; k - 1] ->
  divE3 A (sv (grid_step zero (SE3 A dx dy dz dt) axes ns FO FJ F) p) dx dy dz i j k =
  minus_ A (divE3 A (sv F p) dx dy dz i j k) (times_ A (over_ A dt (eps0 A)) (divE3 A (sv FJ p) dx dy dz i j k)).
Proof using Fth D Hp.
  intros L H1 H2 H3 H4. unfold divE3. assert (HL : local (length ns) (SE3 A dx dy dz dt)) by (rewrite L; apply local_SE3).
  rewrite !(shown_step zero ns ng bounds opp n nbr axes position D) by (auto; rewrite L; reflexivity).
  cbv beta iota zeta delta [SE3]. offsets. rewrite !div_inv. ring.
Qed.
End P2.
End Identities.
