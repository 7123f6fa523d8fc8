(** Proofs about automatic patch counts. *)
From Verif Require Import Base M_AutoPatch S_AutoPatch.
From Coq Require Import Sorting.Sorted.
Open Scope Z_scope.

Lemma zrange_in a b x : In x (zrange a b) <-> a <= x < b.
Proof.
  unfold zrange. rewrite in_map_iff. split.
  - intros [i [<- Hi]]. apply in_seq in Hi. lia.
  - intro H. exists (Z.to_nat (x - a)). split; [lia|]. apply in_seq. lia.
Qed.
Lemma insert_in x l y : In y (insert x l) <-> y = x \/ In y l.
Proof.
  induction l as [|z l IH]; cbn [insert In]; [intuition|]. destruct (x <? z); cbn [In]; [intuition|].
  destruct (Z.eqb_spec x z) as [->|]; cbn [In]; [intuition|]. rewrite IH. intuition.
Qed.
Lemma insert_sorted x l : StronglySorted Z.lt l -> StronglySorted Z.lt (insert x l).
Proof.
  induction 1 as [|z l Hl IH Hz]; cbn [insert]; [repeat constructor|]. destruct (Z.ltb_spec x z).
  - constructor; [now constructor|]. constructor; auto. eapply Forall_impl; [|exact Hz]. cbn. lia.
  - destruct (Z.eqb_spec x z); [now constructor|]. constructor; auto. apply Forall_forall. intros y Hy. apply insert_in in Hy as [->|Hy]; [lia|].
    eapply Forall_forall in Hz; eauto.
Qed.
Lemma fold_div_in n l : forall s d,
  In d (fold_left (fun s i => if n mod i =? 0 then insert (n / i) (insert i s) else s) l s) <->
  In d s \/ exists i, In i l /\ n mod i = 0 /\ (d = i \/ d = n / i).
Proof.
  induction l as [|i l IH]; intros s d; cbn [fold_left].
  - split; auto. intros [H|[i [[] _]]]; auto.
  - rewrite IH. destruct (Z.eqb_spec (n mod i) 0) as [E|E].
    + rewrite !insert_in. split.
      * intros [[->|[->|H]]|[j [Hj H]]]; auto.
        -- right. exists i. split; [now left|]; auto.
        -- right. exists i. split; [now left|]; auto.
        -- right. exists j. split; [now right|]; auto.
      * intros [H|[j [[<-|Hj] [Em [->| ->]]]]]; auto; right; exists j; auto.
    + split.
      * intros [H|[j [Hj H]]]; auto. right. exists j. split; [now right|auto].
      * intros [H|[j [[<-|Hj] [Em H]]]]; auto; [congruence|]. right. exists j. auto.
Qed.
Lemma find_divisors_in n d : 0 < n -> In d (find_divisors n) <-> splits n d.
Proof.
  intro Hn. unfold find_divisors. rewrite Z.abs_eq by lia. rewrite fold_div_in.
  pose proof (Z.sqrt_spec n ltac:(lia)) as [S1 S2]. set (r := Z.sqrt n) in *. assert (Hr : 0 <= r) by apply Z.sqrt_nonneg.
  unfold splits. split.
  - intros [[]|[i [Hi [Hm Hd]]]]. apply zrange_in in Hi.
    assert (E : n = i * (n / i)) by (apply Z_div_exact_full_2; lia). set (e := n / i) in *. clearbody e.
    assert (i <= e) by nia. destruct Hd as [->| ->].
    + split; [nia|]. exists e. lia.
    + split; [nia|]. exists i. lia.
  - intros [Hd [e He]]. right. destruct (Z_le_gt_dec d r) as [Hle|Hgt].
    + exists d. split; [apply zrange_in; lia|]. split; auto. rewrite He. apply Z_mod_mult.
    + assert (Hde : 1 < e <= r) by nia. exists e. split; [apply zrange_in; lia|]. split.
      * rewrite He, Z.mul_comm. apply Z_mod_mult.
      * right. rewrite He, Z.mul_comm. symmetry. apply Z_div_mult. lia.
Qed.
Lemma find_divisors_sorted n : StronglySorted Z.lt (find_divisors n).
Proof.
  unfold find_divisors. generalize (zrange 2 (Z.sqrt (Z.abs n) + 1)). intro l. assert (H : StronglySorted Z.lt (@nil Z)) by constructor.
  revert H. generalize (@nil Z). induction l as [|i l IH]; intros s H; cbn [fold_left]; auto. apply IH. destruct (_ =? 0); auto.
  now apply insert_sorted, insert_sorted.
Qed.
Lemma sorted_head n x l : 0 < n -> find_divisors n = x :: l -> splits n x /\ forall d, splits n d -> x <= d.
Proof.
  intros Hn E. split; [apply find_divisors_in; auto; rewrite E; now left|]. intros d Hd. apply find_divisors_in in Hd; auto.
  pose proof (find_divisors_sorted n) as S. rewrite E in *. inversion S as [|? ? _ F]; subst. destruct Hd as [->|Hd]; [lia|].
  eapply Forall_forall in F; eauto. lia.
Qed.
Lemma no_divisors n : 0 < n -> find_divisors n = [] <-> forall d, ~ splits n d.
Proof.
  intro Hn. split.
  - intros E d Hd. apply find_divisors_in in Hd; auto. rewrite E in Hd. destruct Hd.
  - intro H. destruct (find_divisors n) as [|x l] eqn:E; auto. exfalso. apply (H x). apply find_divisors_in; auto. rewrite E. now left.
Qed.

(** ** the width test *)
Lemma in_range_wide n guard thick np : 0 < guard -> 0 < thick -> splits n np -> in_range np (npatch_max n thick guard) = true <-> wide n guard thick np.
Proof.
  intros Hg Ht [Hd [e He]]. unfold in_range, npatch_max, wide. rewrite andb_true_iff, !Z.leb_le.
  assert (E : n / np = e) by (rewrite He; apply Z_div_mult; lia). rewrite E.
  assert (A : forall w, 0 < w -> np <= n / w <-> w <= e).
  { intros w Hw. split; intro H.
    - pose proof (Z.mul_div_le n w Hw). nia.
    - apply Z.div_le_lower_bound; [auto|]. nia. }
  rewrite Z.min_glb_iff, (A thick), (A (2 * guard)) by lia. lia.
Qed.

(** ** the selection loop *)
Section Select.
  Context {A : Type} (count diff : A -> Z) (ok : A -> bool).
  Definition pass (b : best A) (c : A) : best A := if ok c then consider b (count c) (diff c) c else b.
  (** everything accepted so far is no better than the best *)
  Definition good (seen : list A) (b : best A) : Prop :=
    match b with
    | None => forall c, In c seen -> ok c = false
    | Some (n0, d0, c0) => In c0 seen /\ ok c0 = true /\ n0 = count c0 /\ d0 = diff c0 /\
        forall c, In c seen -> ok c = true -> (count c0 <= count c /\ diff c0 <= diff c) \/ count c0 < count c \/ diff c0 < diff c
    end.
  Lemma pass_good seen b c : good seen b -> good (seen ++ [c]) (pass b c).
  Proof.
    intro H. unfold pass. destruct (ok c) eqn:E.
    - unfold consider. destruct b as [[[n0 d0] c0]|].
      + cbn [good] in H. destruct H as (Hi & Ho & -> & -> & H). destruct ((count c <=? count c0) && (diff c <=? diff c0)) eqn:El.
        * cbn [good]. split; [apply in_or_app; right; now left|]. repeat split; auto. intros x Hx Hox. apply in_app_or in Hx as [Hx|[<-|[]]].
          -- specialize (H x Hx Hox). lia.
          -- left. lia.
        * cbn [good]. split; [apply in_or_app; now left|]. repeat split; auto. intros x Hx Hox. apply in_app_or in Hx as [Hx|[<-|[]]]; auto.
          right. lia.
      + cbn [good] in *. split; [apply in_or_app; right; now left|]. repeat split; auto. intros x Hx Hox. apply in_app_or in Hx as [Hx|[<-|[]]].
        * rewrite H in Hox by auto. discriminate.
        * left. lia.
    - destruct b as [[[n0 d0] c0]|]; cbn [good] in *.
      + destruct H as (Hi & Ho & Hn & Hd & H). split; [apply in_or_app; now left|]. repeat split; auto. intros x Hx Hox.
        apply in_app_or in Hx as [Hx|[<-|[]]]; auto. congruence.
      + intros x Hx. apply in_app_or in Hx as [Hx|[<-|[]]]; auto.
  Qed.
  Lemma select_good l : forall seen b, good seen b -> good (seen ++ l) (fold_left pass l b).
  Proof.
    induction l as [|c l IH]; intros seen b H; cbn [fold_left]; [now rewrite app_nil_r|].
    replace (seen ++ c :: l) with ((seen ++ [c]) ++ l) by (rewrite <- app_assoc; reflexivity). apply IH. now apply pass_good.
  Qed.
  Lemma select_ok l : good l (fold_left pass l None).
  Proof. apply (select_good l [] None). cbn. tauto. Qed.
End Select.
Lemma fold_left_ext {A B} (f g : A -> B -> A) l : (forall a b, f a b = g a b) -> forall a, fold_left f l a = fold_left g l a.
Proof. intro H. induction l as [|x l IH]; intro a; cbn [fold_left]; [reflexivity|]. now rewrite H, IH. Qed.

Section TwoD.
  Context (nx ny guard thick least : Z) (Hx : 0 < nx) (Hy : 0 < ny) (Hg : 0 < guard) (Ht : 0 < thick).
  Definition ok2 (c : Z * Z) : bool :=
    negb (fst c * snd c <? least) && (in_range (fst c) (npatch_max nx thick guard) || in_range (snd c) (npatch_max ny thick guard)).
  Lemma cands2 x y : In (x, y) (list_prod (find_divisors nx) (find_divisors ny)) /\ ok2 (x, y) = true <-> fits2 nx ny guard thick least x y.
  Proof.
    rewrite in_prod_iff, !find_divisors_in by auto. unfold ok2, fits2. cbn [fst snd]. rewrite andb_true_iff, orb_true_iff, negb_true_iff, Z.ltb_ge.
    split.
    - intros [[Sx Sy] [Hl Hw]]. rewrite !in_range_wide in Hw by auto. auto.
    - intros (Sx & Sy & Hl & Hw). rewrite !in_range_wide by auto. auto.
  Qed.
  Definition sel2 := fold_left (pass (fun c => fst c * snd c) (fun c => edge_diff2 nx ny (fst c) (snd c)) ok2) (list_prod (find_divisors nx) (find_divisors ny)) None.
  Lemma auto_patch_2d_eq : auto_patch_2d nx ny guard thick least =
    match sel2 with
    | Some (_, _, c) => Returns c
    | None => match find_divisors nx, find_divisors ny with x :: _, y :: _ => Returns (x, y) | _, _ => IndexOutOfRange end
    end.
  Proof.
    unfold auto_patch_2d. cbv zeta. replace ((thick =? 0) || (2 * guard =? 0)) with false by lia.
    unfold sel2; erewrite fold_left_ext; [reflexivity|]. intros b [x y]. unfold pass, ok2. cbn [fst snd]. destruct (_ <? _); reflexivity.
  Qed.
  Theorem auto_patch_2d_spec x y : auto_patch_2d nx ny guard thick least = Returns (x, y) ->
    splits nx x /\ splits ny y /\
    (forall x' y', fits2 nx ny guard thick least x' y' ->
       fits2 nx ny guard thick least x y /\
       (x' * y' <= x * y -> edge_diff2 nx ny x' y' <= edge_diff2 nx ny x y ->
        x' * y' = x * y /\ edge_diff2 nx ny x' y' = edge_diff2 nx ny x y)) /\
    ((forall x' y', ~ fits2 nx ny guard thick least x' y') -> forall x' y', splits nx x' -> splits ny y' -> x <= x' /\ y <= y').
  Proof.
    rewrite auto_patch_2d_eq. pose proof (select_ok (fun c => fst c * snd c) (fun c => edge_diff2 nx ny (fst c) (snd c)) ok2 (list_prod (find_divisors nx) (find_divisors ny))) as G. fold sel2 in G.
    destruct sel2 as [[[n0 d0] [a b]]|]; cbn [good] in G.
    - intro E. inversion E; subst. destruct G as (Hi & Ho & -> & -> & G). assert (F : fits2 nx ny guard thick least x y) by (apply cands2; auto).
      split; [apply F|]. split; [apply F|]. split.
      + intros x' y' F'. split; auto. intros Hc Hd. apply cands2 in F' as [Hi' Ho']. specialize (G (x', y') Hi' Ho'). cbn [fst snd] in G. lia.
      + intros Hno. exfalso. exact (Hno x y F).
    - destruct (find_divisors nx) as [|x0 lx] eqn:Ex; [discriminate|]. destruct (find_divisors ny) as [|y0 ly] eqn:Ey; [discriminate|].
      intro E. inversion E; subst. destruct (sorted_head nx x lx Hx Ex) as [Sx Lx]. destruct (sorted_head ny y ly Hy Ey) as [Sy Ly].
      split; auto. split; auto. split; [|auto]. intros x' y' F'. exfalso. apply cands2 in F' as [Hi' Ho']. rewrite Ex, Ey in Hi'. rewrite (G _ Hi') in Ho'. discriminate.
  Qed.
  Theorem auto_patch_2d_defined :
    (exists x y, splits nx x /\ splits ny y) <-> (exists x y, auto_patch_2d nx ny guard thick least = Returns (x, y)).
  Proof.
    split.
    - intros (x & y & Sx & Sy). rewrite auto_patch_2d_eq. destruct sel2 as [[[n0 d0] [a b]]|]; [eauto|].
      apply find_divisors_in in Sx, Sy; auto. destruct (find_divisors nx); [destruct Sx|]. destruct (find_divisors ny); [destruct Sy|]. eauto.
    - intros (x & y & E). apply auto_patch_2d_spec in E. exists x, y. tauto.
  Qed.
End TwoD.

Section ThreeD.
  Context (nx ny nz guard thick least : Z) (Hx : 0 < nx) (Hy : 0 < ny) (Hz : 0 < nz) (Hg : 0 < guard) (Ht : 0 < thick).
  Definition ok3 (c : Z * Z * Z) : bool :=
    let '(x, y, z) := c in
    negb (x * y * z <? least) && (in_range x (npatch_max nx thick guard) || in_range y (npatch_max ny thick guard) || in_range z (npatch_max nz thick guard)).
  Definition cnt3 (c : Z * Z * Z) : Z := let '(x, y, z) := c in x * y * z.
  Definition dif3 (c : Z * Z * Z) : Z := let '(x, y, z) := c in edge_diff3 nx ny nz x y z.
  Definition all3 := list_prod (list_prod (find_divisors nx) (find_divisors ny)) (find_divisors nz).
  Lemma cands3 x y z : In (x, y, z) all3 /\ ok3 (x, y, z) = true <-> fits3 nx ny nz guard thick least x y z.
  Proof.
    unfold all3. rewrite !in_prod_iff, !find_divisors_in by auto. unfold ok3, fits3. rewrite andb_true_iff, !orb_true_iff, negb_true_iff, Z.ltb_ge.
    split.
    - intros [[[Sx Sy] Sz] [Hl Hw]]. rewrite !in_range_wide in Hw by auto. tauto.
    - intros (Sx & Sy & Sz & Hl & Hw). rewrite !in_range_wide by auto. tauto.
  Qed.
  Definition sel3 := fold_left (pass cnt3 dif3 ok3) all3 None.
  Lemma auto_patch_3d_eq : auto_patch_3d nx ny nz guard thick least =
    match sel3 with
    | Some (_, _, c) => Returns c
    | None => match find_divisors nx, find_divisors ny, find_divisors nz with x :: _, y :: _, z :: _ => Returns (x, y, z) | _, _, _ => IndexOutOfRange end
    end.
  Proof.
    unfold auto_patch_3d. cbv zeta. replace ((thick =? 0) || (2 * guard =? 0)) with false by lia.
    unfold sel3; erewrite fold_left_ext; [reflexivity|]. intros b [[x y] z]. unfold pass, ok3. destruct (_ <? _); reflexivity.
  Qed.
  Theorem auto_patch_3d_spec x y z : auto_patch_3d nx ny nz guard thick least = Returns (x, y, z) ->
    splits nx x /\ splits ny y /\ splits nz z /\
    (forall x' y' z', fits3 nx ny nz guard thick least x' y' z' ->
       fits3 nx ny nz guard thick least x y z /\
       (x' * y' * z' <= x * y * z -> edge_diff3 nx ny nz x' y' z' <= edge_diff3 nx ny nz x y z ->
        x' * y' * z' = x * y * z /\ edge_diff3 nx ny nz x' y' z' = edge_diff3 nx ny nz x y z)) /\
    ((forall x' y' z', ~ fits3 nx ny nz guard thick least x' y' z') ->
       forall x' y' z', splits nx x' -> splits ny y' -> splits nz z' -> x <= x' /\ y <= y' /\ z <= z').
  Proof.
    rewrite auto_patch_3d_eq. pose proof (select_ok cnt3 dif3 ok3 all3) as G. fold sel3 in G.
    destruct sel3 as [[[n0 d0] [[a b] c]]|]; cbn [good] in G.
    - intro E. inversion E; subst. destruct G as (Hi & Ho & -> & -> & G). assert (F : fits3 nx ny nz guard thick least x y z) by (apply cands3; auto).
      split; [apply F|]. split; [apply F|]. split; [apply F|]. split.
      + intros x' y' z' F'. split; auto. intros Hc Hd. apply cands3 in F' as [Hi' Ho']. specialize (G (x', y', z') Hi' Ho'). cbn [cnt3 dif3] in G. lia.
      + intros Hno. exfalso. exact (Hno x y z F).
    - assert (Ha : forall x' y' z', ~ fits3 nx ny nz guard thick least x' y' z').
      { intros x' y' z' F'. apply cands3 in F' as [Hi' Ho']. rewrite (G _ Hi') in Ho'. discriminate. }
      destruct (find_divisors nx) as [|x0 lx] eqn:Ex; [discriminate|]. destruct (find_divisors ny) as [|y0 ly] eqn:Ey; [discriminate|].
      destruct (find_divisors nz) as [|z0 lz] eqn:Ez; [discriminate|].
      intro E. inversion E; subst. destruct (sorted_head nx x lx Hx Ex) as [Sx Lx]. destruct (sorted_head ny y ly Hy Ey) as [Sy Ly].
      destruct (sorted_head nz z lz Hz Ez) as [Sz Lz].
      split; auto. split; auto. split; auto. split; [|auto]. intros x' y' z' F'. exfalso. eapply Ha; eauto.
  Qed.
  Theorem auto_patch_3d_defined :
    (exists x y z, splits nx x /\ splits ny y /\ splits nz z) <-> (exists x y z, auto_patch_3d nx ny nz guard thick least = Returns (x, y, z)).
  Proof.
    split.
    - intros (x & y & z & Sx & Sy & Sz). rewrite auto_patch_3d_eq. destruct sel3 as [[[n0 d0] [[a b] c]]|]; [eauto|].
      apply find_divisors_in in Sx, Sy, Sz; auto. destruct (find_divisors nx); [destruct Sx|]. destruct (find_divisors ny); [destruct Sy|].
      destruct (find_divisors nz); [destruct Sz|]. eauto.
    - intros (x & y & z & E). apply auto_patch_3d_spec in E. exists x, y, z. tauto.
  Qed.
End ThreeD.
