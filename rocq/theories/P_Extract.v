(** Proofs about ExtractSpeciesDensity. *)
From Verif Require Import Base M_Layout P_Layout M_Slices S_Slices P_Slices M_Extract S_Extract.
Local Open Scope Z_scope.
Local Open Scope list_scope.

Definition inb (shape k : list Z) : Prop := Forall2 (fun n x => 0 <= x < n) shape k.
Lemma size_pos shape k : inb shape k -> 0 < size_of shape.
Proof. induction 1 as [|n x ns xs H F IH]; cbn [size_of]; nia. Qed.
Lemma offset_range shape k : inb shape k -> 0 <= offset shape k < size_of shape.
Proof. induction 1 as [|n x ns xs H F IH]; cbn [size_of offset]; [lia|]. nia. Qed.
Lemma cell_at_offset shape k : inb shape k -> cell_at shape (offset shape k) = k.
Proof.
  induction 1 as [|n x ns xs H F IH]; cbn [cell_at offset]; [reflexivity|]. pose proof (offset_range _ _ F) as R.
  rewrite Z.div_add_l by lia. rewrite Z.div_small by lia. rewrite (Z.add_comm (x * _)), Z.mod_add by lia. rewrite Z.mod_small by lia. rewrite IH. f_equal. lia.
Qed.
Lemma minus_start_box l j : in_box l j = true -> inb (nums l) (minus_start l j).
Proof.
  revert j. induction l as [|[[[lf ls] o] n] l IH]; intros [|x j]; cbn [in_box nums map minus_start snd]; try discriminate; [constructor|].
  intro H. apply andb_prop in H. destruct H as [H1 H2]. constructor; [lia|]. apply IH. exact H2.
Qed.
Lemma pos_eqb_eq a b : pos_eqb a b = true <-> a = b.
Proof.
  revert b. induction a as [|x a IH]; intros [|y b]; cbn [pos_eqb]; split; try discriminate; auto.
  - intro H. apply andb_prop in H. destruct H as [H1 H2]. apply IH in H2. f_equal; [lia|exact H2].
  - intro H. injection H as -> ->. rewrite Z.eqb_refl. cbn [andb]. apply IH. reflexivity.
Qed.
Lemma positions_in npatch pos : In pos (positions npatch) <-> inb npatch pos.
Proof.
  revert pos. induction npatch as [|n ns IH]; intro pos; cbn [positions].
  - split; [intros [<-|[]]; constructor|intro H; inversion H; left; reflexivity].
  - rewrite in_flat_map. split.
    + intros (x & Hx & H). apply in_map_iff in H. destruct H as (q & <- & Hq). constructor; [apply zseq_in in Hx; exact Hx|apply IH; exact Hq].
    + intro H. inversion H as [|? x ? q H1 H2]; subst. exists x. split; [apply zseq_in; exact H1|]. apply in_map. apply IH. exact H2.
Qed.
Lemma nodup_key {A B} (f : A -> B) l a b : NoDup (map f l) -> In a l -> In b l -> f a = f b -> a = b.
Proof.
  intros N. induction l as [|x l IH]; [intros []|]. cbn [map] in N. inversion N as [|? ? N1 N2]; subst.
  intros [->|Ia] [->|Ib] E; auto.
  - exfalso. apply N1. rewrite E. apply in_map. exact Ib.
  - exfalso. apply N1. rewrite <- E. apply in_map. exact Ia.
Qed.

Lemma split_ranks0 {A} (l : list (list A)) : concat l = hd [] l ++ concat (tl l).
Proof. destruct l; reflexivity. Qed.

Section Main.
Context {V : Type} (zero nan : V).
Variables (npatch psizes msizes : list Z) (ss : option (list nslice)) (masked : bool) (ranks : list (list (epatch V))).
Hypothesis LY : layout_ok npatch psizes masked ranks.
(** what the selection is: cells of the array, their owners, their places there *)
Variables (shp : list Z -> Prop) (own loc : list Z -> list Z).
Hypothesis INFO : forall pos, inb npatch pos ->
  match info psizes ss pos with
  | Some l => shape_ok msizes ss l = true /\ (forall j, in_box l j = true <-> shp j /\ own j = pos) /\
              (forall j, shp j -> own j = pos -> picked (steps psizes ss) l (minus_start l j) = loc j)
  | None => forall j, shp j -> own j <> pos
  end.
Let remote := concat (tl ranks).
Hypothesis CONT : forall p l k, In p remote -> info psizes ss (e_pos p) = Some l -> inb (nums l) k -> offset (nums l) k = offset psizes k.

Let root := hd [] ranks.
Lemma split_ranks : concat ranks = root ++ remote.
Proof. exact (split_ranks0 ranks). Qed.

Lemma local_fold (ps : list (epatch V)) (out : list Z -> V) : (forall p, In p ps -> inb npatch (e_pos p)) -> NoDup (map e_pos ps) ->
  exists out', fold_left (local_step psizes msizes ss) ps (Done out) = Done out' /\
    (forall p j, In p ps -> shp j -> own j = e_pos p -> out' j = e_data p (loc j)) /\
    (forall j, (forall p, In p ps -> shp j -> own j <> e_pos p) -> out' j = out j).
Proof.
  revert out. induction ps as [|p ps IH]; intros out Hin N.
  - exists out. split; [reflexivity|]. split; [intros p j []|auto].
  - cbn [map] in N. inversion N as [|? ? N1 N2]; subst. cbn [fold_left]. pose proof (INFO (e_pos p) (Hin p (or_introl eq_refl))) as I.
    unfold local_step at 2. destruct (info psizes ss (e_pos p)) as [l|] eqn:El.
    + destruct I as (I1 & I2 & I3). rewrite I1.
      destruct (IH (assign l (selected psizes ss p l) out) (fun q Hq => Hin q (or_intror Hq)) N2) as (o & E & A & B). exists o. split; [exact E|]. split.
      * intros q j [<-|Hq] Hj Ho; [|apply (A q j Hq Hj Ho)]. rewrite B.
        -- unfold assign. rewrite (proj2 (I2 j) (conj Hj Ho)). unfold selected. rewrite (I3 j Hj Ho). reflexivity.
        -- intros q Hq _ Ho'. apply N1. rewrite <- Ho, Ho'. apply in_map. exact Hq.
      * intros j Hn. rewrite B; [|intros q Hq; apply (Hn q (or_intror Hq))]. unfold assign. destruct (in_box l j) eqn:Eb; [|reflexivity].
        apply I2 in Eb. destruct Eb as [Hj Ho]. exfalso. exact (Hn p (or_introl eq_refl) Hj Ho).
    + destruct (IH out (fun q Hq => Hin q (or_intror Hq)) N2) as (o & E & A & B). exists o. split; [exact E|]. split.
      * intros q j [<-|Hq] Hj Ho; [exfalso; exact (I j Hj Ho)|apply (A q j Hq Hj Ho)].
      * intros j Hn. apply B. intros q Hq. apply (Hn q (or_intror Hq)).
Qed.

Lemma index_at_some pos i : index_at ranks pos = Some i -> exists p, In p (concat ranks) /\ e_pos p = pos /\ e_index p = i.
Proof.
  unfold index_at. destruct (find _ _) as [p|] eqn:E; [|discriminate]. intro H. injection H as <-. apply find_some in E. destruct E as [E1 E2].
  exists p. split; [apply in_rev; exact E1|]. split; [apply pos_eqb_eq; exact E2|reflexivity].
Qed.
Lemma index_at_none pos : index_at ranks pos = None -> forall p, In p (concat ranks) -> e_pos p <> pos.
Proof.
  unfold index_at. destruct (find _ _) as [p|] eqn:E; [discriminate|]. intros _ p Hp Ep. apply in_rev in Hp.
  pose proof (find_none _ _ E p Hp) as H. cbn in H. rewrite (proj2 (pos_eqb_eq _ _) Ep) in H. discriminate.
Qed.
Lemma nodup_app_disjoint {A} (l m : list A) a : NoDup (l ++ m) -> In a l -> In a m -> False.
Proof.
  induction l as [|x l IH]; [intros _ []|]. cbn [app]. intros N [->|I] J; inversion N as [|? ? N1 N2]; subst; [apply N1; apply in_or_app; auto|auto].
Qed.

Lemma remote_one pos (out : list Z -> V) (buf : Z -> V) : inb npatch pos ->
  exists out' buf', remote_step psizes ss masked ranks (Done (out, buf)) pos = Done (out', buf') /\
    (forall p j, In p remote -> e_pos p = pos -> shp j -> own j = pos -> out' j = e_data p (loc j)) /\
    (forall j, (forall p, In p remote -> shp j -> own j = pos -> e_pos p <> pos) -> out' j = out j).
Proof.
  intro Hp. pose proof (INFO pos Hp) as I. unfold remote_step. destruct (info psizes ss pos) as [l|] eqn:El.
  2: { exists out, buf. split; [reflexivity|]. split; [intros p j _ _ Hj Ho; exfalso; exact (I j Hj Ho)|auto]. }
  destruct I as (I1 & I2 & I3). destruct LY as [L1 L2 L3 L4 L5 L6].
  destruct (index_at ranks pos) as [i|] eqn:Ei.
  - destruct (index_at_some _ _ Ei) as (p0 & P1 & P2 & P3). fold root. destruct (is_local root i) eqn:Eloc.
    + exists out, buf. split; [reflexivity|]. split; [|auto]. intros p j Hr Ep Hj Ho. exfalso.
      unfold is_local in Eloc. apply existsb_exists in Eloc. destruct Eloc as (q & Q1 & Q2). apply Z.eqb_eq in Q2.
      assert (q = p0) by (apply (nodup_key e_index (concat ranks)); auto; [rewrite split_ranks; apply in_or_app; auto|congruence]).
      assert (p = p0) by (apply (nodup_key e_pos (concat ranks)); auto; [rewrite split_ranks; apply in_or_app; auto|congruence]). subst.
      rewrite split_ranks, map_app in L4. apply (nodup_app_disjoint _ _ (e_pos p0) L4); apply in_map; assumption.
    + fold remote. assert (In p0 remote) as R0.
      { rewrite split_ranks in P1. apply in_app_or in P1. destruct P1 as [P1|P1]; [|exact P1]. exfalso. unfold is_local in Eloc.
        assert (existsb (fun p => e_index p =? i) root = true) as X by (apply existsb_exists; exists p0; split; [exact P1|apply Z.eqb_eq; exact P3]). rewrite X in Eloc. discriminate. }
      unfold message. fold remote. destruct (find _ remote) as [p|] eqn:Ef.
      * apply find_some in Ef. destruct Ef as [F1 F2]. apply andb_prop in F2. destruct F2 as [F2 _]. apply Z.eqb_eq in F2.
        assert (p = p0) by (apply (nodup_key e_index (concat ranks)); auto; [rewrite split_ranks; apply in_or_app; auto|congruence]). subst p.
        rewrite P2, El. eexists. eexists. split; [reflexivity|]. split.
        -- intros p j Hr Ep Hj Ho. assert (p = p0) by (apply (nodup_key e_pos (concat ranks)); auto; [rewrite split_ranks; apply in_or_app; auto|congruence]). subst p.
           unfold assign. pose proof (proj2 (I2 j) (conj Hj Ho)) as Eb. rewrite Eb. pose proof (minus_start_box l j Eb) as B.
           rewrite <- P2 in El. rewrite <- (CONT p0 l _ R0 El B). unfold receive. pose proof (offset_range _ _ B) as R.
           assert ((0 <=? offset (nums l) (minus_start l j)) && (offset (nums l) (minus_start l j) <? size_of (nums l)) = true) as -> by lia.
           rewrite cell_at_offset by exact B. unfold selected. rewrite (I3 j Hj Ho). reflexivity.
        -- intros j Hn. unfold assign. destruct (in_box l j) eqn:Eb; [|reflexivity]. apply I2 in Eb. destruct Eb as [Hj Ho]. exfalso. exact (Hn p0 R0 Hj Ho P2).
      * exfalso. pose proof (find_none _ _ Ef p0 R0) as X. cbn beta in X. unfold sends in X. rewrite P2, El, P3, Z.eqb_refl in X. discriminate.
  - destruct masked eqn:Em.
    + exists out, buf. split; [reflexivity|]. split; [|auto]. intros p j Hr Ep. exfalso. apply (index_at_none _ Ei p); [rewrite split_ranks; apply in_or_app; auto|exact Ep].
    + exfalso. destruct (L6 eq_refl pos Hp) as (p & H1 & H2). exact (index_at_none _ Ei p H1 H2).
Qed.
Lemma remote_fold ps (out : list Z -> V) (buf : Z -> V) : (forall pos, In pos ps -> inb npatch pos) ->
  exists out' buf', fold_left (remote_step psizes ss masked ranks) ps (Done (out, buf)) = Done (out', buf') /\
    (forall p j, In p remote -> In (e_pos p) ps -> shp j -> own j = e_pos p -> out' j = e_data p (loc j)) /\
    (forall j, (forall p, In p remote -> shp j -> own j = e_pos p -> ~ In (e_pos p) ps) -> out' j = out j).
Proof.
  revert out buf. induction ps as [|pos ps IH]; intros out buf Hin.
  - exists out, buf. split; [reflexivity|]. split; [intros p j _ []|auto].
  - destruct (remote_one pos out buf (Hin pos (or_introl eq_refl))) as (o1 & b1 & E1 & A1 & B1).
    destruct (IH o1 b1 (fun q Hq => Hin q (or_intror Hq))) as (o2 & b2 & E2 & A2 & B2).
    exists o2, b2. cbn [fold_left]. rewrite E1. split; [exact E2|].
    assert (DEC : forall q, In q ps \/ ~ In q ps).
    { intro q. destruct (in_dec (list_eq_dec Z.eq_dec) q ps); auto. }
    split.
    + intros p j Hr Hi Hj Ho. destruct (DEC (e_pos p)) as [Y|N]; [apply (A2 p j Hr Y Hj Ho)|].
      destruct Hi as [Hi|Hi]; [|contradiction]. rewrite B2.
      * apply (A1 p j Hr (eq_sym Hi) Hj). congruence.
      * intros q Hq _ Ho' I. apply N. rewrite <- Ho, Ho'. exact I.
    + intros j Hn. rewrite B2.
      * apply B1. intros p Hr Hj Ho Ep. apply (Hn p Hr Hj); [congruence|left; auto].
      * intros p Hr Hj Ho I. apply (Hn p Hr Hj Ho). right. exact I.
Qed.

Lemma assembled (old : list Z -> V) : exists out out' buf, fold_left (local_step psizes msizes ss) root (Done old) = Done out /\
  fold_left (remote_step psizes ss masked ranks) (positions npatch) (Done (out, fun _ => zero)) = Done (out', buf) /\
  forall p j, In p (concat ranks) -> shp j -> own j = e_pos p -> out' j = e_data p (loc j).
Proof.
  destruct LY as [L1 L2 L3 L4 L5 L6]. pose proof L4 as L4'. rewrite split_ranks, map_app in L4'.
  destruct (local_fold root old) as (out & E & A & B).
  { intros p Hp. apply L3. rewrite split_ranks. apply in_or_app. auto. }
  { clear - L4'. revert L4'. generalize (map e_pos remote). induction (map e_pos root) as [|x l IH]; intros m N; [constructor|]. cbn [app] in N. inversion N as [|? ? N1 N2]; subst.
    constructor; [intro I; apply N1; apply in_or_app; auto|apply (IH m); exact N2]. }
  destruct (remote_fold (positions npatch) out (fun _ => zero)) as (out' & buf & E' & A' & B').
  { intros pos Hp. apply positions_in. exact Hp. }
  exists out, out', buf. split; [exact E|]. split; [exact E'|]. intros p j Hp Hj Ho. rewrite split_ranks in Hp. apply in_app_or in Hp. destruct Hp as [Hp|Hp].
  - rewrite B'; [apply (A p j Hp Hj Ho)|]. intros q Hq _ Ho' _. apply (nodup_app_disjoint _ _ (e_pos p) L4'); [apply in_map; exact Hp|]. rewrite <- Ho, Ho'. apply in_map. exact Hq.
  - apply (A' p j Hp); auto. apply positions_in. apply L3. rewrite split_ranks. apply in_or_app. auto.
Qed.
End Main.

(** ** no slice *)
Lemma whole_spec psizes : Forall (fun sz => 0 < sz) psizes -> forall pos, length pos = length psizes ->
  (forall j, in_box (whole psizes pos) j = true <-> length j = length psizes /\ owner psizes j = pos) /\
  (forall j, length j = length psizes -> owner psizes j = pos -> picked (map (fun _ => 1) psizes) (whole psizes pos) (minus_start (whole psizes pos) j) = within psizes j).
Proof.
  induction 1 as [|sz szs Hs F IH]; intros [|c cs] L; try discriminate; cbn [whole].
  - split; [|intros [|] H; [reflexivity|discriminate]]. intros [|x j]; cbn; split; auto; try discriminate. intros [H _]. discriminate.
  - destruct (IH cs ltac:(cbn in L; lia)) as [A B]. split.
    + intros [|x j]; cbn [in_box length owner]; [split; [discriminate|intros [? _]; discriminate]|]. split.
      * intro H. apply andb_prop in H. destruct H as [H1 H2]. apply A in H2. destruct H2 as [H2 H3]. split; [lia|]. f_equal; [|exact H3].
        symmetry. apply (Z.div_unique _ _ _ (x - c * sz)); lia.
      * intros [H1 H2]. injection H2 as H2 H3. rewrite (proj2 (A j)) by (split; [lia|exact H3]).
        pose proof (Z.div_mod x sz ltac:(lia)). pose proof (Z.mod_pos_bound x sz Hs). rewrite H2 in *. lia.
    + intros [|x j] H1 H2; [discriminate|]. cbn [owner] in H2. injection H2 as H2 H3. cbn [minus_start picked within map]. f_equal.
      * rewrite Z.mod_eq by lia. rewrite H2. lia.
      * apply B; [cbn in H1; lia|exact H3].
Qed.
Lemma nums_whole psizes pos : length pos = length psizes -> nums (whole psizes pos) = psizes.
Proof. revert pos. induction psizes as [|sz szs IH]; intros [|c cs] L; try discriminate; [reflexivity|]. cbn [whole nums map snd]. f_equal. apply IH. cbn in L. lia. Qed.

Lemma owner_global psizes pos c : in_patch psizes c -> length pos = length psizes -> owner psizes (global psizes pos c) = pos /\ within psizes (global psizes pos c) = c /\ length (global psizes pos c) = length psizes.
Proof.
  intro H. revert pos. induction H as [|sz x szs xs H F IH]; intros [|p ps] L; try discriminate; [auto|]. cbn [global owner within length].
  destruct (IH ps ltac:(cbn in L; lia)) as (A & B & C). rewrite A, B, C. rewrite Z.div_add_l by lia. rewrite Z.div_small by lia.
  rewrite (Z.add_comm (p * sz)), Z.mod_add by lia. rewrite Z.mod_small by lia. repeat split; auto. f_equal. lia.
Qed.
Lemma inb_length shape k : inb shape k -> length k = length shape.
Proof. induction 1; cbn [length]; lia. Qed.

Lemma inside_spec {V} psizes (ranks : list (list (epatch V))) g : length g = length psizes -> inside psizes ranks g = true <-> exists p, In p (concat ranks) /\ owner psizes g = e_pos p.
Proof.
  intro L. assert (map (fun xs => fst xs / snd xs) (combine g psizes) = owner psizes g) as E.
  { revert g L. induction psizes as [|sz szs IH]; intros [|x g] L; try discriminate; [reflexivity|]. cbn [combine map owner fst snd]. f_equal. apply IH. cbn in L. lia. }
  unfold inside. rewrite E, existsb_exists. split; intros (p & H1 & H2); exists p; split; auto; [apply pos_eqb_eq in H2; auto|apply pos_eqb_eq; auto].
Qed.

Lemma extract_whole {V} (zero nan : V) npatch psizes msizes masked ranks old : layout_ok npatch psizes masked ranks ->
  exists out, extract zero nan npatch psizes msizes None masked ranks old = Done out /\
    (forall p c, In p (concat ranks) -> in_patch psizes c -> out (global psizes (e_pos p) c) = e_data p c) /\
    (masked = true -> forall g, in_domain npatch psizes g -> (forall p, In p (concat ranks) -> e_pos p <> owner psizes g) -> out g = nan).
Proof.
  intro LY. pose proof LY as [L1 L2 L3 L4 L5 L6].
  assert (INFO : forall pos, inb npatch pos ->
    match info psizes None pos with
    | Some l => shape_ok msizes None l = true /\ (forall j, in_box l j = true <-> length j = length psizes /\ owner psizes j = pos) /\
                (forall j, length j = length psizes -> owner psizes j = pos -> picked (steps psizes None) l (minus_start l j) = within psizes j)
    | None => forall j, length j = length psizes -> owner psizes j <> pos end).
  { intros pos Hp. apply inb_length in Hp. unfold info, shape_ok, steps. split; [reflexivity|]. apply whole_spec; [exact L2|lia]. }
  destruct (assembled zero npatch psizes msizes None masked ranks LY (fun j => length j = length psizes) (owner psizes) (within psizes) INFO) with (old := old) as (o & o' & b & E1 & E2 & A).
  { intros p l k Hp El _. unfold info in El. injection El as <-. rewrite nums_whole; [reflexivity|].
    assert (In p (concat ranks)) as I by (destruct ranks; [destruct Hp|cbn [concat]; apply in_or_app; right; exact Hp]). pose proof (inb_length _ _ (L3 p I)). lia. }
  unfold extract. rewrite E1, E2. unfold mask_step.
  assert (G : forall p c, In p (concat ranks) -> in_patch psizes c -> o' (global psizes (e_pos p) c) = e_data p c).
  { intros p c Hp Hc. pose proof (inb_length _ _ (L3 p Hp)) as Lp. destruct (owner_global psizes (e_pos p) c Hc ltac:(lia)) as (O & W & L). rewrite (A p _ Hp L O), W. reflexivity. }
  destruct masked.
  - assert (pos_eqb (density_shape npatch psizes None) (domain_shape npatch psizes) = true) as -> by (apply pos_eqb_eq; reflexivity).
    eexists. split; [reflexivity|]. split.
    + intros p c Hp Hc. pose proof (inb_length _ _ (L3 p Hp)) as Lp. destruct (owner_global psizes (e_pos p) c Hc ltac:(lia)) as (O & W & L).
      rewrite (proj2 (inside_spec psizes ranks _ L)); [apply G; assumption|exists p; auto].
    + intros _ g Hg Hn. assert (length g = length psizes) as L.
      { apply inb_length in Hg. rewrite map_length, combine_length in Hg. lia. }
      destruct (inside psizes ranks g) eqn:Ei; [|reflexivity]. apply (inside_spec psizes ranks g L) in Ei. destruct Ei as (p & H1 & H2). exfalso. exact (Hn p H1 (eq_sym H2)).
  - exists o'. split; [reflexivity|]. split; [exact G|]. discriminate.
Qed.

(** ** with a slice *)
Lemma picked_minus ss l j : length l = length ss -> picked (map n_step ss) l (minus_start l j) = local_index ss l j.
Proof. revert l j. induction ss as [|s ss IH]; intros [|[[[lf ls] o] n] l] j L; try discriminate; [reflexivity|]. destruct j as [|x j]; [reflexivity|]. cbn [map minus_start picked local_index]. f_equal. apply IH. cbn in L. lia. Qed.
Lemma slices_info_length ss psizes coords l : slices_info ss psizes coords = Some l -> length psizes = length ss -> length coords = length ss -> length l = length ss.
Proof.
  revert psizes coords l. induction ss as [|s ss IH]; intros [|sz szs] [|c cs] l E L1 L2; try discriminate; cbn [slices_info] in E.
  - injection E as <-. reflexivity.
  - destruct (compute_patch_slice _ _ _); [|discriminate]. destruct (slices_info ss szs cs) eqn:E'; [|discriminate]. injection E as <-. cbn [length]. rewrite (IH _ _ _ E'); cbn in L1, L2; lia.
Qed.
Lemma wf_axes_length dims szs ms ss : wf_axes dims szs ms ss -> length szs = length ss /\ length dims = length ss.
Proof. induction 1 as [|? ? ? ? ? ? ? ? ? ? ? ? [A B]]; cbn [length]; lia. Qed.

Lemma extract_slice {V} (zero nan : V) npatch psizes msizes sl ranks old : layout_ok npatch psizes false ranks ->
  wf_axes (domain_shape npatch psizes) psizes msizes sl ->
  (forall p l k, In p (concat (tl ranks)) -> slices_info sl psizes (e_pos p) = Some l -> inb (nums l) k -> offset (nums l) k = offset psizes k) ->
  exists out, extract zero nan npatch psizes msizes (Some sl) false ranks old = Done out /\
    (forall p j, In p (concat ranks) -> in_shape sl j -> owner psizes (gcell sl j) = e_pos p -> out j = e_data p (within psizes (gcell sl j))).
Proof.
  intros LY WF CONT. pose proof LY as [L1 L2 L3 L4 L5 L6]. destruct (wf_axes_length _ _ _ _ WF) as [W1 W2].
  assert (INFO : forall pos, inb npatch pos ->
    match info psizes (Some sl) pos with
    | Some l => shape_ok msizes (Some sl) l = true /\ (forall j, in_box l j = true <-> in_shape sl j /\ owner psizes (gcell sl j) = pos) /\
                (forall j, in_shape sl j -> owner psizes (gcell sl j) = pos -> picked (steps psizes (Some sl)) l (minus_start l j) = within psizes (gcell sl j))
    | None => forall j, in_shape sl j -> owner psizes (gcell sl j) <> pos end).
  { intros pos Hp. pose proof (inb_length _ _ Hp) as Lp. assert (coords_ok psizes pos) as CO.
    { split; [lia|]. clear - Hp. induction Hp; constructor; auto. lia. }
    pose proof (slices_info_spec _ _ _ _ WF pos CO) as S. unfold info, shape_ok, steps. destruct (slices_info sl psizes pos) as [l|] eqn:El; [|exact S].
    destruct S as (S1 & S2 & S3). split; [exact S1|]. split; [exact S2|]. intros j Hj Ho. rewrite picked_minus; [apply S3; assumption|].
    apply (slices_info_length _ _ _ _ El); lia. }
  destruct (assembled zero npatch psizes msizes (Some sl) false ranks LY (in_shape sl) (fun j => owner psizes (gcell sl j)) (fun j => within psizes (gcell sl j)) INFO CONT old) as (o & o' & b & E1 & E2 & A).
  unfold extract. rewrite E1, E2. exists o'. split; [reflexivity|exact A].
Qed.

(** one piece of memory *)
Lemma nums_all dim c sz s lf ls o n : wf_slice dim s -> 0 < sz -> 0 <= c -> c * sz + sz <= dim -> all_cells_of dim s -> compute_patch_slice s (c * sz) sz = Some (lf, ls, o, n) -> n = sz.
Proof.
  intros W Hs Hc Hd (A & B & C) E. destruct (patch_slice_some s dim c sz W Hs Hc _ _ _ _ E) as (X1 & X2 & X3 & _ & _ & X4 & _).
  unfold mine in X4. rewrite A, B, C in X4. pose proof (proj1 (X4 o) ltac:(lia)). pose proof (proj1 (X4 (o + n - 1)) ltac:(lia)).
  pose proof (proj2 (X4 (c * sz)) ltac:(nia)). pose proof (proj2 (X4 (c * sz + sz - 1)) ltac:(nia)). lia.
Qed.
Lemma nums_one dim c sz s lf ls o n : wf_slice dim s -> 0 < sz -> 0 <= c -> n_stop s = n_start s + 1 -> compute_patch_slice s (c * sz) sz = Some (lf, ls, o, n) -> n = 1.
Proof.
  intros W Hs Hc H E. destruct (patch_slice_some s dim c sz W Hs Hc _ _ _ _ E) as (X1 & X2 & X3 & _ & _ & X4 & _). destruct W as (_ & _ & _ & W).
  unfold mine in X4. rewrite H in X4. pose proof (proj1 (X4 (o + n - 1)) ltac:(lia)). nia.
Qed.
Lemma nums_all_list npatch szs : forall ms ss dims pos l, dims = domain_shape npatch szs -> wf_axes dims szs ms ss -> inb npatch pos -> Forall2 all_cells_of dims ss -> slices_info ss szs pos = Some l -> nums l = szs.
Proof.
  intros ms ss dims pos l E W. revert npatch pos l E. induction W as [|dim sz m s dims szs ms ss Hs Hsz Hm Hw IH]; intros npatch pos l E Hp F El.
  - destruct pos; cbn [slices_info] in El; injection El as <-; reflexivity.
  - destruct npatch as [|np npatch]; [discriminate|]. unfold domain_shape in E. cbn [combine map fst snd] in E. injection E as E1 E2.
    inversion Hp as [|? c ? cs Hc Hcs]; subst. inversion F as [|? ? ? ? F1 F2]; subst. cbn [slices_info] in El.
    destruct (compute_patch_slice s (c * sz) sz) as [[[[lf ls] o] n]|] eqn:Ec; [|discriminate]. destruct (slices_info ss szs cs) eqn:Es; [|discriminate]. injection El as <-.
    cbn [nums map snd]. f_equal; [apply (nums_all (np * sz) c sz s lf ls o n); auto; try lia; nia|apply (IH npatch cs); auto].
Qed.
Lemma unbroken_offset npatch szs ms ss dims pos l k : dims = domain_shape npatch szs -> wf_axes dims szs ms ss -> inb npatch pos -> unbroken dims ss -> slices_info ss szs pos = Some l -> inb (nums l) k ->
  offset (nums l) k = offset szs k.
Proof.
  intros E W Hp U. revert szs ms npatch pos l k E W Hp. induction U as [d s dims ss F|d s dims ss O U IH]; intros szs ms npatch pos l k E W Hp El Hk;
    inversion W as [|? sz m ? ? szs' ms' ? Hs Hsz Hm Hw]; subst; (destruct npatch as [|np npatch]; [discriminate|]); unfold domain_shape in E; cbn [combine map fst snd] in E; injection E as E1 E2;
    inversion Hp as [|? c ? cs Hc Hcs]; subst; cbn [slices_info] in El;
    (destruct (compute_patch_slice s (c * sz) sz) as [[[[lf ls] o] n]|] eqn:Ec; [|discriminate]); (destruct (slices_info ss szs' cs) as [l'|] eqn:Es; [|discriminate]); injection El as <-;
    cbn [nums map snd] in *; fold (nums l') in *; inversion Hk as [|? x ? xs Hx Hxs]; subst; cbn [offset].
  - rewrite (nums_all_list npatch szs' ms' ss _ cs l' eq_refl Hw Hcs F Es). reflexivity.
  - assert (n = 1) by (eapply nums_one; eauto; lia). assert (x = 0) by lia. subst x. rewrite (IH szs' ms' npatch cs l' xs eq_refl Hw Hcs Es Hxs). lia.
Qed.
Lemma mask_shape {V} (zero nan : V) npatch psizes msizes sl ranks old out : out_shape sl <> domain_shape npatch psizes ->
  extract zero nan npatch psizes msizes (Some sl) true ranks old <> Done out.
Proof.
  intros H. unfold extract. destruct (fold_left _ _ _); try discriminate. destruct (fold_left _ _ _) as [[o b]| | |]; try discriminate.
  unfold mask_step. destruct (pos_eqb _ _) eqn:E; [|discriminate]. apply pos_eqb_eq in E. contradiction.
Qed.

Lemma domain_cell npatch psizes g : length psizes = length npatch -> Forall (fun sz => 0 < sz) psizes -> in_domain npatch psizes g ->
  Forall2 (fun n x => 0 <= x < n) npatch (owner psizes g) /\ in_patch psizes (within psizes g) /\ global psizes (owner psizes g) (within psizes g) = g.
Proof.
  unfold in_domain. revert psizes g. induction npatch as [|n ns IH]; intros [|sz szs] g L F H; try discriminate; cbn [combine map fst snd] in H.
  - inversion H; subst. repeat split; constructor.
  - inversion H as [|? x ? xs Hx Hxs]; subst. inversion F as [|? ? F1 F2]; subst. destruct (IH szs xs ltac:(cbn in L; lia) F2 Hxs) as (A & B & C).
    cbn [owner within global]. pose proof (Z.mod_pos_bound x sz F1) as M. pose proof (Z.div_mod x sz ltac:(lia)) as D.
    split; [|split]; [constructor; [|exact A]|constructor; [exact M|exact B]|rewrite C; f_equal; lia].
    split; [apply Z.div_pos; lia|apply Z.div_lt_upper_bound; lia].
Qed.
