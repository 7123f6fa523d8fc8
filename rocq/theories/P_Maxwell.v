(** The loops of the field solver, and the grid view of an update followed by the exchange. *)
From Verif Require Import Base M_Layout S_Layout M_PartSync S_PartSync M_FieldSync S_FieldSync M_Maxwell S_Maxwell.
From Verif Require Import P_Layout P_PartSync P_PartSync2 P_PartSync3 P_Threads P_FieldGeo P_FieldPar P_FieldSync P_FieldSync2 P_FieldSync3 P_FieldSync4 P_FieldSync5 P_AutoPatch.
Local Open Scope Z_scope.

Lemma fold_flat_map {A B C} (f : C -> B -> C) (g : A -> list B) l c :
  fold_left f (flat_map g l) c = fold_left (fun c a => fold_left f (g a) c) l c.
Proof. revert c. induction l as [|a l IH]; intro c; [reflexivity|]. cbn [flat_map fold_left]. now rewrite fold_left_app, IH. Qed.
Lemma fold_map {A B C} (f : C -> B -> C) (g : A -> B) l c : fold_left f (map g l) c = fold_left (fun c a => f c (g a)) l c.
Proof. revert c. induction l as [|a l IH]; intro c; [reflexivity|]. cbn. apply IH. Qed.
Lemma fold_ext_in {A C} (f g : C -> A -> C) l : forall c, (forall c a, In a l -> f c a = g c a) -> fold_left f l c = fold_left g l c.
Proof. induction l as [|a l IH]; intros c H; [reflexivity|]. cbn [fold_left]. rewrite (H c a) by now left. apply IH. intros; apply H; now right. Qed.

(** nested loops over a block *)
Lemma block2 {C} (body : C -> Z -> Z -> C) nx ny c :
  fold_left (fun m i => fold_left (fun m j => body m i j) (zseq ny) m) (zseq nx) c
  = fold_left (fun m l => match l with [i; j] => body m i j | _ => m end) (block [nx; ny]) c.
Proof.
  cbn [block]. rewrite fold_flat_map. apply fold_ext_in. intros m i _. rewrite fold_map, fold_flat_map. apply fold_ext_in. intros m' j _. reflexivity.
Qed.
Lemma block3 {C} (body : C -> Z -> Z -> Z -> C) nx ny nz c :
  fold_left (fun m i => fold_left (fun m j => fold_left (fun m k => body m i j k) (zseq nz) m) (zseq ny) m) (zseq nx) c
  = fold_left (fun m l => match l with [i; j; k] => body m i j k | _ => m end) (block [nx; ny; nz]) c.
Proof.
  cbn [block]. rewrite fold_flat_map. apply fold_ext_in. intros m i _. rewrite fold_map, fold_flat_map. apply fold_ext_in. intros m' j _.
  rewrite fold_map, fold_flat_map. apply fold_ext_in. intros m2 k _. reflexivity.
Qed.

(** ** the result of the loops *)
Section Loops.
Context {V : Type}.
(** one visit of cell c of patch p: the three components get their new values, nothing else changes *)
Definition visit (ns : list Z) (ng : Z) (p : nat) (h : nat -> list Z -> V -> V) (body : (addr -> V) -> list Z -> addr -> V) : Prop :=
  forall m c, interior ns c ->
    (forall f, (f < 3)%nat -> body m c (cell ns ng f p c) = h f c (m (cell ns ng f p c))) /\
    (forall a, (forall f, (f < 3)%nat -> a <> cell ns ng f p c) -> body m c a = m a).
Variables (ns : list Z) (ng : Z).
Hypothesis Hinj : forall f p c f' p' c', interior ns c -> interior ns c' -> cell ns ng f p c = cell ns ng f' p' c' -> f = f' /\ p = p' /\ c = c'.

Lemma loop_result p h body : visit ns ng p h body -> forall cs m, NoDup cs -> (forall c, In c cs -> interior ns c) ->
  (forall f c, (f < 3)%nat -> In c cs -> fold_left body cs m (cell ns ng f p c) = h f c (m (cell ns ng f p c))) /\
  (forall a, (forall f c, (f < 3)%nat -> In c cs -> a <> cell ns ng f p c) -> fold_left body cs m a = m a).
Proof using Hinj.
  intro HV. induction cs as [|c0 cs IH]; intros m ND HI; [split; [now intros|auto]|].
  apply NoDup_cons_iff in ND as [N0 ND]. cbn [fold_left].
  destruct (HV m c0 (HI c0 (or_introl eq_refl))) as [V1 V2].
  destruct (IH (body m c0) ND (fun c I => HI c (or_intror I))) as [I1 I2]. split.
  - intros f c Hf [<- | I].
    + rewrite I2; [now apply V1|]. intros f' c' Hf' I' E. apply Hinj in E as (_ & _ & ->); [contradiction| |]; apply HI; [now left|now right].
    + rewrite I1 by auto. f_equal. apply V2. intros f' Hf' E. apply Hinj in E as (_ & _ & ->); [contradiction| |]; apply HI; [now right|now left].
  - intros a Ha. rewrite I2 by (intros f c Hf I; apply Ha; [auto|now right]). apply V2. intros f Hf. apply Ha; [auto|now left].
Qed.
(** all patches *)
Lemma patches_result n (h : nat -> nat -> list Z -> V -> V) (up : (addr -> V) -> nat -> addr -> V) :
  (forall p m, (forall f c, (f < 3)%nat -> interior ns c -> up m p (cell ns ng f p c) = h p f c (m (cell ns ng f p c))) /\
               (forall a, (forall f c, (f < 3)%nat -> interior ns c -> a <> cell ns ng f p c) -> up m p a = m a)) ->
  forall m,
  (forall f p c, (f < 3)%nat -> (p < n)%nat -> interior ns c -> fold_left up (seq 0 n) m (cell ns ng f p c) = h p f c (m (cell ns ng f p c))) /\
  (forall a, (forall f p c, (f < 3)%nat -> (p < n)%nat -> interior ns c -> a <> cell ns ng f p c) -> fold_left up (seq 0 n) m a = m a).
Proof using Hinj.
  intros HU. induction n as [|n IH]; intro m; [split; [intros; lia|auto]|].
  rewrite seq_S, fold_left_app. cbn [fold_left plus]. destruct (IH m) as [I1 I2].
  destruct (HU (0 + n)%nat (fold_left up (seq 0 n) m)) as [U1 U2]. cbn [plus] in *. split.
  - intros f p c Hf Hp Hc. destruct (Nat.eq_dec p n) as [->|Np].
    + rewrite U1 by auto. f_equal. apply I2. intros f' p' c' Hf' Hp' Hc' E. apply Hinj in E as (_ & E & _); auto. lia.
    + rewrite U2; [apply I1; auto; lia|]. intros f' c' Hf' Hc' E. apply Hinj in E as (_ & E & _); auto.
  - intros a Ha. rewrite U2 by (intros; apply Ha; auto; lia). apply I2. intros; apply Ha; auto; lia.
Qed.
End Loops.

(** ** places on the whole grid *)
Definition zeros (ns : list Z) : list Z := map (fun _ => 0) ns.
Lemma place_flat axes : forall ns i c, length ns = length axes -> length i = length axes -> length c = length axes ->
  place axes ns i c = place axes ns (zeros ns) (flat ns i c).
Proof.
  induction axes as [|a axes IH]; intros [|n ns] [|k i] [|x c] H1 H2 H3; cbn in H1, H2, H3; try discriminate; [reflexivity|].
  cbn [place zeros map flat]. rewrite (IH ns i c) by lia. unfold place1. rewrite Z.mul_0_l, Z.add_0_l. reflexivity.
Qed.
Lemma flat_add ns : forall i c d, length i = length ns -> length c = length ns -> length d = length ns -> flat ns i (add c d) = add (flat ns i c) d.
Proof.
  induction ns as [|n ns IH]; intros [|k i] [|x c] [|e d] H1 H2 H3; cbn in H1, H2, H3; try discriminate; [reflexivity|].
  cbn [flat add]. rewrite IH by lia. f_equal. lia.
Qed.
Lemma same_grid_place axes ns axes' ns' : same_grid axes ns axes' ns' -> length ns = length axes -> length ns' = length axes' ->
  forall c, place axes ns (zeros ns) c = place axes' ns' (zeros ns') c.
Proof.
  unfold same_grid. revert ns axes' ns'. induction axes as [|a axes IH]; intros [|n ns] [|a' axes'] [|n' ns'] H L L'; cbn in L, L'; try discriminate.
  - intro; reflexivity.
  - cbn in H. inversion H.
  - cbn in H. inversion H.
  - cbn [combine] in H. inversion H as [|? ? ? ? [E1 E2] H']; subst. cbn [fst snd] in E1, E2. intros [|x c]; [reflexivity|]. cbn [place zeros map].
    rewrite (IH ns axes' ns' H') by lia. unfold place1. rewrite !Z.mul_0_l, !Z.add_0_l, E1, E2. reflexivity.
Qed.

(** ** a stencil: the new value of a component from the surrounding values of the other field, the current and the old value *)
Definition near (d : list Z) : Prop := Forall (fun x => -1 <= x <= 1) d.
Section Stencil.
Context {V : Type} (zero : V).
Definition stencil := nat -> (nat -> list Z -> V) -> (nat -> V) -> V -> V.
Definition local (dim : nat) (S : stencil) : Prop := forall f o o' j j' v,
  (forall g d, (g < 3)%nat -> near d -> length d = dim -> o g d = o' g d) -> (forall g, (g < 3)%nat -> j g = j' g) -> S f o j v = S f o' j' v.
(** the update of the whole grid *)
Definition grid_step (S : stencil) (axes : list axis) (ns : list Z) (FO FJ F : nat -> list Z -> V) (f : nat) (g : list Z) : V :=
  S f (fun f' d => match place axes ns (zeros ns) (add g d) with Some h => FO f' h | None => zero end) (fun f' => FJ f' g) (F f g).
Definition updated (S : stencil) (ns : list Z) (ng : Z) (n : nat) (mO mJ m m' : addr -> V) : Prop :=
  (forall f p c, (f < 3)%nat -> (p < n)%nat -> interior ns c ->
    m' (cell ns ng f p c) = S f (fun f' d => mO (cell ns ng f' p (add c d))) (fun f' => mJ (cell ns ng f' p c)) (m (cell ns ng f p c))) /\
  (forall a, (forall f p c, (f < 3)%nat -> (p < n)%nat -> interior ns c -> a <> cell ns ng f p c) -> m' a = m a).

Variables (ns : list Z) (ng : Z) (bounds : list (list Z)) (opp : nat -> nat) (n : nat).
Hypothesis G : geometry ns ng bounds opp.
Variable nbr : nat -> nat -> option nat.
Variable axes : list axis.
Variable position : nat -> list Z.
Hypothesis Hpair : paired axes.
Hypothesis Hlen : length ns = length axes.
Hypothesis Hgrid : forall p, (p < n)%nat -> in_grid axes (position p).
Hypothesis Hall : forall d, dirs_ok ns d -> d <> map (fun _ => 0) ns -> In d bounds.
Hypothesis Hnbr : forall p b q, (p < n)%nat -> (b < length bounds)%nat -> nbr p b = Some q <-> (q < n)%nat /\ wrap_all axes (add (position p) (nth b bounds [])) = Some (position q).
Hypothesis Honto : forall i, in_grid axes i -> exists q, (q < n)%nat /\ position q = i.
Notation shows := (shows zero axes ns ng n position).
Notation shows_inside := (shows_inside zero axes ns ng n position).

Lemma grid_len i : in_grid axes i -> length i = length axes.
Proof using. clear. intro H. unfold in_grid in H. induction H; cbn; auto. Qed.
Lemma near_within c d : interior ns c -> near d -> length d = length ns -> within ng ns (add c d).
Proof using G.
  pose proof (proj1 (g_sizes _ _ _ _ G)) as Hg'. clear - Hg'. intro Hc. revert d. induction Hc as [|k x l c Hx Hc IH]; intros [|e d] Hd Hl; cbn in Hl; try discriminate; [constructor|].
  apply Forall_cons_iff in Hd as [H1 Hd]. cbn [add]. constructor; [lia|]. apply IH; [exact Hd|lia].
Qed.
Lemma shown_add F p f c d : (p < n)%nat -> length c = length ns -> length d = length ns ->
  shown zero axes ns position F p f (add c d) = match place axes ns (zeros ns) (add (flat ns (position p) c) d) with Some g => F f g | None => zero end.
Proof using Hlen Hgrid.
  intros Hp Hc Hd. unfold shown. pose proof (grid_len _ (Hgrid p Hp)) as L. clear - Hlen L Hc Hd.
  rewrite place_flat; [|exact Hlen|exact L|rewrite add_length; lia]. rewrite flat_add by lia. reflexivity.
Qed.

Theorem step_shows S FO FJ F mO mJ m m1 m2 : local (length ns) S ->
  shows F m -> shows FO mO -> shows_inside FJ mJ -> updated S ns ng n mO mJ m m1 -> guards_exchanged bounds ns ng n nbr 3 m1 m2 ->
  shows (grid_step S axes ns FO FJ F) m2.
Proof using G Hpair Hlen Hgrid Hall Hnbr Honto.
  intros HL HF HO HJ [U1 U2] [R _] f p c Hf Hp Hc. rewrite (R f p c Hf Hp Hc).
  rewrite (guard_global ns ng bounds opp n G nbr axes position Hpair Hlen Hgrid Hall Hnbr Honto m1 (grid_step S axes ns FO FJ F) f); [|clear p c Hp Hc|exact Hp|exact Hc].
  - unfold shown. destruct (place axes ns (position p) c) as [g|] eqn:E; [reflexivity|].
    rewrite U2; [rewrite (HF f p c Hf Hp Hc); unfold shown; now rewrite E|].
    intros f' p' c' Hf' Hp' Hc' Ec. apply (cell_inj ns ng bounds opp G) in Ec as (-> & -> & ->); auto; [|apply interior_within; auto; apply (ng_pos ns ng bounds opp G)].
    rewrite (place_interior ns ng bounds opp n G axes position Hpair Hlen Hgrid p' c' Hp' Hc') in E. discriminate.
  - intros p c g Hp Hc E. rewrite (U1 f p c Hf Hp Hc). pose proof (interior_len ns c Hc) as Lc.
    rewrite (place_interior ns ng bounds opp n G axes position Hpair Hlen Hgrid p c Hp Hc) in E. inversion E; subst g. clear E.
    assert (Wc : within ng ns c) by (apply interior_within; auto; apply (ng_pos ns ng bounds opp G)).
    assert (Ex : forall F0 f0, shown zero axes ns position F0 p f0 c = F0 f0 (flat ns (position p) c)).
    { intros. unfold shown. now rewrite (place_interior ns ng bounds opp n G axes position Hpair Hlen Hgrid p c Hp Hc). }
    rewrite (HF f p c Hf Hp Wc), Ex. unfold grid_step. apply HL.
    + intros f' d Hf' Hd Ld. rewrite (HO f' p _ Hf' Hp (near_within c d Hc Hd Ld)). apply shown_add; auto.
    + intros f' Hf'. rewrite (HJ f' p c Hf' Hp Hc). apply Ex.
Qed.
End Stencil.
