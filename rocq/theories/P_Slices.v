From Verif Require Import Base M_Slices S_Slices.
Local Open Scope Z_scope.

Lemma normalize1_wf dim u s : 0 <= dim -> normalize1 dim u = Ok s -> wf_slice dim s.
Proof.
  intros Hd. unfold normalize1, wf_slice. destruct u as [i|a b c| | |]; try discriminate.
  - destruct (i <? 0) eqn:E1; destruct (_ || _) eqn:E; try discriminate;
      intros [= <-]; cbn; lia.
  - destruct (dflt c 1 <=? 0) eqn:E0; [discriminate|].
    destruct (_ <=? Z.max 0 (Z.min (if dflt a 0 <? 0 then _ else _) dim)) eqn:E; [discriminate|].
    intros [= <-]; cbn. lia.
Qed.

Lemma normalize1_int dim i0 s : 0 <= dim -> normalize1 dim (UInt i0) = Ok s ->
  forall i, selects s i <-> py_item dim i0 i.
Proof.
  intros Hd H i. unfold normalize1 in H. unfold selects, py_item.
  destruct (i0 <? 0) eqn:E1; destruct (_ || _) eqn:E; try discriminate;
    injection H as <-; cbn; split.
  - intros (k & Hk & -> & Hi). right. lia.
  - intros [H|H]; [lia|]. exists 0. lia.
  - intros (k & Hk & -> & Hi). left. lia.
  - intros [H|H]; [|lia]. exists 0. lia.
Qed.

Lemma normalize1_int_err dim i0 : 0 <= dim ->
  (exists e, normalize1 dim (UInt i0) = Err e) <-> ~ exists i, py_item dim i0 i.
Proof.
  intros Hd. unfold normalize1, py_item. split.
  - intros (e & H) (i & Hi). destruct (i0 <? 0) eqn:E1; destruct (_ || _) eqn:E; try discriminate; lia.
  - intros H. exists EIndex. destruct (i0 <? 0) eqn:E1; destruct (_ || _) eqn:E; auto; exfalso; apply H.
    + exists (dim + i0). right. lia.
    + exists i0. left. lia.
Qed.

Lemma bound_eq dim v df : 0 <= dim -> 0 <= df <= dim ->
  Z.max 0 (Z.min (if dflt v df <? 0 then dim + dflt v df else dflt v df) dim) = py_bound dim v df.
Proof.
  intros Hd Hdf. unfold py_bound, dflt. destruct v as [x|].
  - destruct (x <? 0) eqn:E; lia.
  - destruct (df <? 0) eqn:E; lia.
Qed.

Lemma normalize1_slice dim a b c s : 0 <= dim -> normalize1 dim (USlice a b c) = Ok s ->
  forall i, selects s i <-> py_selects dim a b c i.
Proof.
  intros Hd H i. unfold normalize1 in H. cbv zeta in H.
  destruct (dflt c 1 <=? 0) eqn:E0; [discriminate|].
  rewrite (bound_eq dim a 0), (bound_eq dim b dim) in H by lia.
  destruct (py_bound dim b dim <=? py_bound dim a 0) eqn:E; [discriminate|]. injection H as <-.
  unfold selects, py_selects. cbn [n_start n_stop n_step]. reflexivity.
Qed.

Lemma normalize1_slice_err dim a b c : 0 <= dim ->
  (exists e, normalize1 dim (USlice a b c) = Err e) <->
  (exists st, c = Some st /\ st <= 0) \/ (~ exists i, py_selects dim a b c i).
Proof.
  intros Hd. unfold normalize1. cbv zeta. rewrite (bound_eq dim a 0), (bound_eq dim b dim) by lia. split.
  - intros (e & H). destruct (dflt c 1 <=? 0) eqn:E0.
    + left. unfold dflt in E0. destruct c as [st|]; [exists st; split; [auto|lia]|lia].
    + right. destruct (py_bound dim b dim <=? py_bound dim a 0) eqn:E; [|discriminate]. intros (i & k & Hk & Hi & Hl).
      fold (dflt c 1) in Hi. nia.
  - intros [(st & -> & Hst)|H].
    + exists EStep. unfold dflt. destruct (st <=? 0) eqn:E; [auto|lia].
    + destruct (dflt c 1 <=? 0) eqn:E0; [eauto|].
      destruct (py_bound dim b dim <=? py_bound dim a 0) eqn:E; [eauto|]. exfalso. apply H.
      exists (py_bound dim a 0). exists 0. fold (dflt c 1). lia.
Qed.

(** list level *)
Lemma normalize_loop_spec dims us ss :
  length us = length dims -> normalize_loop dims us = Ok ss ->
  length ss = length dims /\
  forall k, (k < length dims)%nat -> normalize1 (nth k dims 0) (nth k us UOther) = Ok (nth k ss (mkSlice 0 0 0)).
Proof.
  revert us ss; induction dims as [|dim ds IH]; intros us ss Hl H; destruct us as [|u us]; try discriminate.
  - injection H as <-. split; auto. intros k Hk; cbn in Hk; lia.
  - cbn [normalize_loop] in H. destruct (normalize1 dim u) as [s|e] eqn:E1; [|discriminate].
    destruct (normalize_loop ds us) as [l|e] eqn:E2; [|discriminate]. injection H as <-.
    destruct (IH us l) as [L1 L2]; auto. split; [cbn; lia|].
    intros [|k] Hk; cbn in *; auto. apply L2; lia.
Qed.

Lemma normalize_loop_err dims us :
  length us = length dims ->
  (exists e, normalize_loop dims us = Err e) <->
  exists k, (k < length dims)%nat /\ exists e, normalize1 (nth k dims 0) (nth k us UOther) = Err e.
Proof.
  revert us; induction dims as [|dim ds IH]; intros us Hl; destruct us as [|u us]; try discriminate.
  - split; [intros (e & H); discriminate|intros (k & Hk & _); cbn in Hk; lia].
  - cbn [normalize_loop length]. injection Hl as Hl. specialize (IH us Hl).
    destruct (normalize1 dim u) as [s|e] eqn:E1.
    + split.
      * intros (e & H). destruct (normalize_loop ds us) as [l|e2]; [discriminate|].
        destruct (proj1 IH (ex_intro _ e2 eq_refl)) as (k & Hk & He). exists (S k). split; [lia|auto].
      * intros ([|k] & Hk & He).
        -- cbn in He. rewrite E1 in He. destruct He; discriminate.
        -- destruct (proj2 IH) as (e & ->); [|eauto]. exists k. split; [lia|auto].
    + split; [|eauto]. intros _. exists 0%nat. split; [lia|]. cbn. eauto.
Qed.

(* ---------- patch slices ---------- *)

Lemma ceil_div_spec a b : 0 < b -> a <= ceil_div a b * b < a + b.
Proof. intro H. unfold ceil_div. pose proof (Z.div_mod (-a) b ltac:(lia)).
  pose proof (Z.mod_pos_bound (-a) b H). nia. Qed.

Lemma range_len_spec a b s : 0 < s -> a < b -> forall j, 0 <= j -> (j < range_len a b s <-> a + j * s < b).
Proof.
  intros Hs Hab j Hj. unfold range_len.
  pose proof (ceil_div_spec (b - a) s Hs). split; intros; nia.
Qed.

Section OneAxis.
Variables (s : nslice) (dim c size : Z).
Hypothesis Hs : wf_slice dim s.
Hypothesis Hsize : 0 < size.
Hypothesis Hc : 0 <= c.
Let start := n_start s. Let stop := n_stop s. Let step := n_step s.

(** selected output positions whose cell lies in the patch *)
Definition mine (j : Z) : Prop := 0 <= j /\ start + j * step < stop /\ c * size <= start + j * step < c * size + size.

Lemma patch_slice_some lf ls o n :
  compute_patch_slice s (c * size) size = Some (lf, ls, o, n) ->
  0 <= lf /\ 0 <= o /\ 0 < n /\ ls = lf + n * step /\ lf + (n - 1) * step < size /\
  (forall j, o <= j < o + n <-> mine j) /\
  (forall j, lf + (j - o) * step = start + j * step - c * size).
Proof.
  destruct Hs as (S1 & S2 & S3 & S4). fold start in S1, S2; fold stop in S2, S3; fold step in S4.
  unfold compute_patch_slice. fold start stop step.
  set (off := c * size).
  assert (Hoff : 0 <= off) by (unfold off; nia).
  set (q := ceil_div (Z.max 0 (off - start)) step).
  pose proof (ceil_div_spec (Z.max 0 (off - start)) step S4) as Hq. fold q in Hq.
  set (last := Z.min stop (off + size) - 1).
  set (r := (last - start) / step).
  assert (Hr : r * step <= last - start < r * step + step).
  { unfold r. pose proof (Z.div_mod (last - start) step ltac:(lia)).
    pose proof (Z.mod_pos_bound (last - start) step S4). nia. }
  destruct (start + r * step <? start + q * step) eqn:E; [discriminate|].
  intros [= <- <- <- <-].
  replace (start + q * step - start) with (q * step) by ring.
  rewrite Z.div_mul by lia.
  replace (start + r * step - (start + q * step)) with ((r - q) * step) by ring.
  rewrite Z.div_mul by lia.
  assert (Hqr : q <= r) by nia.
  assert (Hq0 : 0 <= q) by nia.
  assert (Hlast : last < off + size /\ last < stop) by (unfold last; lia).
  refine (conj _ (conj _ (conj _ (conj _ (conj _ (conj _ _)))))).
  - lia.
  - lia.
  - lia.
  - reflexivity.
  - replace (r - q + 1 - 1) with (r - q) by ring. nia.
  - intro j. unfold mine. fold off. split.
    + intro Hj. assert (q * step <= j * step <= r * step) by nia. lia.
    + intros (J1 & J2 & J3).
      assert (Hle : j * step < r * step + step) by (unfold last in Hr; lia).
      assert (Hge : q * step < j * step + step) by lia. nia.
  - intro j. ring.
Qed.

Lemma patch_slice_none :
  compute_patch_slice s (c * size) size = None -> forall j, ~ mine j.
Proof.
  destruct Hs as (S1 & S2 & S3 & S4). fold start in S1, S2; fold stop in S2, S3; fold step in S4.
  unfold compute_patch_slice. fold start stop step.
  set (off := c * size).
  set (q := ceil_div (Z.max 0 (off - start)) step).
  pose proof (ceil_div_spec (Z.max 0 (off - start)) step S4) as Hq. fold q in Hq.
  set (last := Z.min stop (off + size) - 1).
  set (r := (last - start) / step).
  assert (Hr : r * step <= last - start < r * step + step).
  { unfold r. pose proof (Z.div_mod (last - start) step ltac:(lia)).
    pose proof (Z.mod_pos_bound (last - start) step S4). nia. }
  destruct (start + r * step <? start + q * step) eqn:E; [|discriminate].
  intros _ j (J1 & J2 & J3). fold off in J3. unfold last in Hr.
  assert (r < q) by nia. assert (j * step < r * step + step) by lia.
  assert (j <= r) by nia. assert (q * step < off - start + step \/ q = 0) by nia. nia.
Qed.

(** the local slice has exactly [n] elements in an array of at least [size] cells *)
Lemma patch_slice_extent lf ls o n m :
  compute_patch_slice s (c * size) size = Some (lf, ls, o, n) -> size <= m ->
  np_extent m lf ls step = n.
Proof.
  intros H Hm. destruct (patch_slice_some _ _ _ _ H) as (A & B & C & D & E & _ & _).
  destruct Hs as (S1 & S2 & S3 & S4). fold step in S4.
  unfold np_extent. assert (lf < m) by nia.
  rewrite (Z.min_l lf m) by lia. subst ls.
  unfold range_len.
  pose proof (ceil_div_spec (Z.min (lf + n * step) m - lf) step S4) as Hcd.
  revert Hcd. generalize (ceil_div (Z.min (lf + n * step) m - lf) step) as w. intros w Hw.
  destruct (Z.min_spec (lf + n * step) m) as [[_ M]|[M0 M]]; rewrite M in Hw; nia.
Qed.
End OneAxis.

(* ---------- n axes ---------- *)

Lemma mine_owner s dim c sz x : wf_slice dim s -> 0 < sz -> 0 <= x ->
  (mine s c sz x <-> n_start s + x * n_step s < n_stop s /\ (n_start s + x * n_step s) / sz = c).
Proof.
  intros Hs Hz Hx. destruct Hs as (A & B & C & D). unfold mine.
  split.
  - intros (H1 & H2 & H3). split; auto. symmetry.
    apply (Z.div_unique _ _ _ (n_start s + x * n_step s - c * sz)); lia.
  - intros (H1 & H2). repeat split; auto; subst c;
    pose proof (Z.div_mod (n_start s + x * n_step s) sz ltac:(lia));
    pose proof (Z.mod_pos_bound (n_start s + x * n_step s) sz Hz); lia.
Qed.

Lemma slices_info_spec dims szs ms ss : wf_axes dims szs ms ss ->
  forall coords, coords_ok szs coords ->
  match slices_info ss szs coords with
  | Some l =>
      extents_ok ss ms l = true /\
      (forall j, in_box l j = true <-> in_shape ss j /\ owner szs (gcell ss j) = coords) /\
      (forall j, in_shape ss j -> owner szs (gcell ss j) = coords ->
                 local_index ss l j = within szs (gcell ss j))
  | None => forall j, in_shape ss j -> owner szs (gcell ss j) <> coords
  end.
Proof.
  intro H; induction H as [|dim sz m s dims szs ms ss Hs Hsz Hm Hw IH]; intros coords [Hl Hf].
  - destruct coords; [|discriminate]. cbn [slices_info].
    split; [reflexivity|]. split; [|intros j Hj _; inversion Hj; reflexivity].
    intro j. destruct j as [|x j]; cbn; split; try discriminate.
    + intros _. split; [constructor|reflexivity].
    + reflexivity.
    + intros [Hj _]. inversion Hj.
  - destruct coords as [|c cs]; [discriminate|]. inversion Hf as [|? ? Hc Hf']; subst.
    assert (Hok : coords_ok szs cs) by (split; auto).
    specialize (IH cs Hok). cbn [slices_info].
    destruct (compute_patch_slice s (c * sz) sz) as [[[[lf ls] o] n]|] eqn:E.
    + destruct (patch_slice_some s dim c sz Hs Hsz Hc _ _ _ _ E) as (A & B & C & D & F & G & L).
      pose proof (patch_slice_extent s dim c sz Hs Hsz Hc _ _ _ _ m E Hm) as X.
      destruct (slices_info ss szs cs) as [l|].
      * destruct IH as (I1 & I2 & I3). split; [|split; [intro j; split; [intro H; split|]|]].
        -- cbn [extents_ok]. rewrite I1, X. lia.
        -- destruct j as [|x j]; [discriminate|]. cbn [in_box] in H.
           apply andb_prop in H. destruct H as [H Hb]. apply I2 in Hb.
           assert (Hx : o <= x < o + n) by lia. apply G in Hx.
           assert (0 <= x) by (destruct Hx; auto).
           apply (mine_owner s dim c sz x Hs Hsz) in Hx; auto.
           constructor; [lia|tauto|tauto].
        -- destruct j as [|x j]; [discriminate|]. cbn [in_box] in H.
           apply andb_prop in H. destruct H as [H Hb]. apply I2 in Hb.
           assert (Hx : o <= x < o + n) by lia. apply G in Hx.
           assert (0 <= x) by (destruct Hx; auto).
           apply (mine_owner s dim c sz x Hs Hsz) in Hx; auto.
           cbn [gcell owner]. f_equal; tauto.
        -- intros [Hj Ho]. inversion Hj as [|? ? x j' Hx0 Hx Hj']; subst. cbn [gcell owner] in Ho.
           injection Ho as Ho1 Ho2. cbn [in_box].
           assert (Hm' : mine s c sz x) by (apply (mine_owner s dim c sz x Hs Hsz); [lia|split; [lia|auto]]).
           apply G in Hm'. rewrite (proj2 (I2 j') (conj Hj' Ho2)). lia.
        -- intros j Hj Ho. inversion Hj as [|? ? x j' Hx0 Hx Hj']; subst. cbn [gcell owner within local_index] in *.
           injection Ho as Ho1 Ho2. rewrite L. f_equal; [|now apply I3].
           rewrite <- Ho1. rewrite Z.mod_eq by lia. ring.
      * intros j Hj Ho. inversion Hj as [|? ? x j' Hx0 Hx Hj']; subst. cbn [gcell owner] in Ho.
        injection Ho as Ho1 Ho2. exact (IH j' Hj' Ho2).
    + intros j Hj Ho. inversion Hj as [|? ? x j' Hx0 Hx Hj']; subst. cbn [gcell owner] in Ho.
      injection Ho as Ho1 Ho2.
      apply (patch_slice_none s dim c sz Hs Hsz Hc E x).
      apply (mine_owner s dim c sz x Hs Hsz); [lia|split; [lia|auto]].
Qed.

Section Writes.
Context {V : Type}.
Variables (dims szs ms : list Z) (ss : list nslice).
Hypothesis Hw : wf_axes dims szs ms ss.

Lemma write_patch_spec coords (data out : list Z -> V) :
  coords_ok szs coords ->
  exists out', write_patch ss szs ms (coords, data) out = Some out' /\
  (forall j, in_shape ss j -> owner szs (gcell ss j) = coords -> out' j = data (within szs (gcell ss j))) /\
  (forall j, ~ (in_shape ss j /\ owner szs (gcell ss j) = coords) -> out' j = out j).
Proof.
  intro Hc. pose proof (slices_info_spec dims szs ms ss Hw coords Hc) as H.
  unfold write_patch. destruct (slices_info ss szs coords) as [l|].
  - destruct H as (H1 & H2 & H3). rewrite H1. eexists; split; [reflexivity|]. split.
    + intros j Hj Ho. rewrite (proj2 (H2 j)) by auto. now rewrite H3.
    + intros j Hn. destruct (in_box l j) eqn:E; auto. exfalso. apply Hn. now apply H2.
  - exists out. repeat split; auto. intros j Hj Ho. exfalso. eapply H; eauto.
Qed.

Lemma write_patches_spec (ps : list (list Z * (list Z -> V))) out :
  (forall p, In p ps -> coords_ok szs (fst p)) -> NoDup (map fst ps) ->
  exists out', write_patches ss szs ms ps out = Some out' /\
  (forall p j, In p ps -> in_shape ss j -> owner szs (gcell ss j) = fst p ->
     out' j = snd p (within szs (gcell ss j))) /\
  (forall j, (in_shape ss j -> ~ In (owner szs (gcell ss j)) (map fst ps)) -> out' j = out j).
Proof.
  revert out; induction ps as [|[c data] ps IH]; intros out Hc Hnd.
  - exists out. repeat split; auto. intros p j [].
  - cbn [map fst] in Hnd. inversion Hnd as [|? ? Hni Hnd']; subst.
    destruct (write_patch_spec c data out (Hc _ (or_introl eq_refl))) as (o1 & E1 & W1 & W2).
    destruct (IH o1 (fun p Hp => Hc p (or_intror Hp)) Hnd') as (o2 & E2 & X1 & X2).
    exists o2. cbn [write_patches]. rewrite E1. split; auto. split.
    + intros p j [<-|Hp] Hj Ho; cbn [fst snd] in *.
      * rewrite X2; [now apply W1|]. intros _. now rewrite Ho.
      * eapply X1; eauto.
    + intros j Hn. rewrite X2.
      * apply W2. intros [Hj Ho]. apply (Hn Hj). cbn. left; auto.
      * intros Hj Hin. apply (Hn Hj). cbn. right; auto.
Qed.
End Writes.

(** the dataset's shape is the box of output positions *)
Lemma out_shape_spec dims szs ms ss : wf_axes dims szs ms ss ->
  length (out_shape ss) = length dims /\
  forall j, in_shape ss j <-> length j = length ss /\
    forall k, (k < length ss)%nat -> 0 <= nth k j 0 < nth k (out_shape ss) 0.
Proof.
  intro H; induction H as [|dim sz m s dims szs ms ss Hs Hsz Hm Hw IH].
  - split; [reflexivity|]. intro j; split.
    + intro Hj; inversion Hj. split; auto. intros k Hk; cbn in Hk; lia.
    + intros [Hl _]. destruct j; [constructor|discriminate].
  - destruct IH as [L IH]. split; [cbn; f_equal; exact L|].
    destruct Hs as (A & B & C & D). intro j; split.
    + intro Hj; inversion Hj as [|? ? x j' Hx0 Hx Hj']; subst. apply IH in Hj'. destruct Hj' as [L' Hj'].
      split; [cbn; lia|]. intros [|k] Hk; cbn.
      * split; auto. now apply range_len_spec.
      * apply Hj'. cbn in Hk. lia.
    + intros [L' Hj]. destruct j as [|x j]; [discriminate|]. cbn in L'.
      pose proof (Hj 0%nat ltac:(cbn; lia)) as H0. cbn in H0.
      constructor; [lia| |].
      * apply (range_len_spec _ _ _ D B x); lia.
      * apply IH. split; [lia|]. intros k Hk. apply (Hj (S k)). cbn. lia.
Qed.

Lemma normalize_slice_ok dims spec ss :
  (forall k, (k < length dims)%nat -> 0 <= nth k dims 0) ->
  normalize_slice dims spec = Ok (Some ss) ->
  exists us, (spec = UTuple us \/ exists u, spec = USingle u /\ us = [u]) /\
  length us = length dims /\ length ss = length dims /\
  forall k, (k < length dims)%nat ->
    wf_slice (nth k dims 0) (nth k ss (mkSlice 0 0 0)) /\
    match nth k us UOther with
    | UInt i0 => forall i, selects (nth k ss (mkSlice 0 0 0)) i <-> py_item (nth k dims 0) i0 i
    | USlice a b c => forall i, selects (nth k ss (mkSlice 0 0 0)) i <-> py_selects (nth k dims 0) a b c i
    | _ => False
    end.
Proof.
  intros Hd H. 
  assert (G : forall us, (if existsb is_ell us then Err EEllipsis else if existsb is_new us then Err ENewaxis
     else if negb (Nat.eqb (length us) (length dims)) then Err ELength
     else match normalize_loop dims us with Ok l => Ok (Some l) | Err e => Err e end) = Ok (Some ss) ->
     length us = length dims /\ normalize_loop dims us = Ok ss).
  { intros us. destruct (existsb is_ell us); [discriminate|]. destruct (existsb is_new us); [discriminate|].
    destruct (Nat.eqb_spec (length us) (length dims)); cbn [negb]; [|discriminate].
    destruct (normalize_loop dims us); [|discriminate]. intros [= ->]. auto. }
  assert (K : exists us, (spec = UTuple us \/ exists u, spec = USingle u /\ us = [u]) /\
              length us = length dims /\ normalize_loop dims us = Ok ss).
  { destruct spec as [|u|us]; [discriminate| |]; apply G in H; eexists; split; eauto. }
  destruct K as (us & Hus & L & N). exists us. split; auto. split; auto.
  destruct (normalize_loop_spec dims us ss L N) as [L2 N2]. split; auto.
  intros k Hk. specialize (N2 k Hk). specialize (Hd k Hk).
  split; [eapply normalize1_wf; eauto|].
  destruct (nth k us UOther) as [i0|a b c| | |] eqn:E; try discriminate.
  - now apply normalize1_int.
  - now apply normalize1_slice.
Qed.

Lemma normalize_slice_err dims us :
  (forall k, (k < length dims)%nat -> 0 <= nth k dims 0) ->
  length us = length dims ->
  (exists e, normalize_slice dims (UTuple us) = Err e) <->
  exists k, (k < length dims)%nat /\
    match nth k us UOther with
    | UInt i0 => ~ exists i, py_item (nth k dims 0) i0 i
    | USlice a b c => (exists st, c = Some st /\ st <= 0) \/ ~ exists i, py_selects (nth k dims 0) a b c i
    | _ => True
    end.
Proof.
  intros Hd Hl. unfold normalize_slice.
  assert (W : forall p, existsb p us = true -> p UOther = false -> exists k, (k < length dims)%nat /\ p (nth k us UOther) = true).
  { intros p Hp _. apply existsb_exists in Hp. destruct Hp as (u & Hin & Hu).
    apply (In_nth _ _ UOther) in Hin. destruct Hin as (k & Hk & <-). exists k. split; [lia|auto]. }
  destruct (existsb is_ell us) eqn:E1.
  { split; [|eauto]. intros _. destruct (W _ E1 eq_refl) as (k & Hk & Hp). exists k. split; auto.
    destruct (nth k us UOther); auto; discriminate. }
  destruct (existsb is_new us) eqn:E2.
  { split; [|eauto]. intros _. destruct (W _ E2 eq_refl) as (k & Hk & Hp). exists k. split; auto.
    destruct (nth k us UOther); auto; discriminate. }
  rewrite (proj2 (Nat.eqb_eq _ _) Hl). cbn [negb].
  transitivity (exists e, normalize_loop dims us = Err e).
  { destruct (normalize_loop dims us) as [l|e]; split; intros (e' & H'); try discriminate; eauto. }
  rewrite normalize_loop_err by auto.
  split; intros (k & Hk & He); exists k; split; auto; specialize (Hd k Hk).
  - destruct (nth k us UOther) as [i0|a b c| | |]; auto.
    + now apply normalize1_int_err.
    + now apply normalize1_slice_err.
  - destruct (nth k us UOther) as [i0|a b c| | |]; cbn; eauto.
    + now apply normalize1_int_err.
    + now apply normalize1_slice_err.
Qed.
