(** Consequences of the exchange: repeating it, cells away from the sides, completion, and the view of the whole grid. *)
From Verif Require Import Base M_Layout S_Layout M_PartSync S_PartSync M_FieldSync S_FieldSync P_Layout P_PartSync P_PartSync2 P_PartSync3 P_Threads P_FieldGeo P_FieldPar P_FieldSync P_FieldSync2 P_FieldSync3.
Local Open Scope Z_scope.

Section Acc.
Context {V : Type} (zero : V) (plus : V -> V -> V).
Hypothesis Hm : monoid zero plus.
Notation acc := (accumulated zero plus).
Lemma total_zero (l : list V) : (forall x, In x l -> x = zero) -> total zero plus l = zero.
Proof.
  destruct Hm as (H0 & H1 & H2). induction l as [|a l IH]; intro H; [reflexivity|]. unfold total in *. cbn [fold_right]. rewrite IH by (intros x Hx; apply H; now right). rewrite (H a) by now left. apply H0.
Qed.
Lemma accumulated_idem l m a : pairs_ok l -> acc l (acc l m) a = acc l m a.
Proof.
  intros [_ Dj]. unfold accumulated at 1. destruct (existsb (fun ds => addr_eqb (snd ds) a) l) eqn:E.
  - unfold accumulated. now rewrite E.
  - rewrite total_zero; [apply Hm|]. intros x Hx. unfold vals in Hx. apply in_map_iff in Hx as (ds & <- & Hd). apply filter_In in Hd as [Hd _].
    unfold accumulated. assert (Ex : existsb (fun d => addr_eqb (snd d) (snd ds)) l = true).
    { apply existsb_exists. exists ds. split; auto. apply addr_eqb_refl. }
    now rewrite Ex.
Qed.
End Acc.

Section Geo.
Variables (ns : list Z) (ng : Z) (bounds : list (list Z)) (opp : nat -> nat) (n : nat).
Hypothesis G : geometry ns ng bounds opp.
Notation nb := (length bounds).
Notation dir b := (nth b bounds []).
Notation Ns := (extents ns ng).
Variable nbr : nat -> nat -> option nat.
Hypothesis Sym : nbr_symmetric n nb opp nbr.
Context {V : Type} (zero : V) (plus : V -> V -> V).
Hypothesis Hm : monoid zero plus.
Notation cell := (cell ns ng).

(** cells at least a guard width away from the sides *)
Lemma deep_unseen c d : Forall2 (fun n x => ng <= x < n - ng) ns c -> dirs_ok ns d -> d <> map (fun _ => 0) ns -> ~ within ng ns (seen_from ns d c).
Proof using G.
  intros Hc [Hl Hd] Hz Hw. apply Hz. clear - G Hc Hl Hd Hw. pose proof (ng_pos ns ng bounds opp G) as Hg. clear G. revert d Hl Hd Hw.
  induction Hc as [|k x ns c Hx Hc IH]; intros [|e d] Hl Hd Hw; cbn in Hl; try discriminate; auto. apply Forall_cons_iff in Hd as [Hd1 Hd].
  unfold seen_from in Hw. cbn [combine map fst snd] in Hw. inversion Hw as [|? ? ? ? W1 W2]; subst. cbn. f_equal; [destruct Hd1 as [->|[->| ->]]; lia|]. apply IH; auto.
Qed.
Lemma deep_result (m : addr -> V) f p c : Forall2 (fun n x => ng <= x < n - ng) ns c -> current_result zero plus bounds ns ng nbr m f p c = m (cell f p c).
Proof using G Hm.
  intro Hc. pose proof (ng_pos ns ng bounds opp G) as Hg. assert (Hi : interior ns c) by (clear - Hg Hc; induction Hc; constructor; auto; lia).
  unfold current_result. rewrite (proj2 (interior_b_ok ns c (interior_len ns c Hi))) by auto. rewrite total_zero; auto; [apply Hm|].
  intros x Hx. apply in_map_iff in Hx as (b & <- & Hb). apply in_seq in Hb. destruct (nbr p b) as [q|]; auto. unfold deposited.
  destruct (within_b ng ns (seen_from ns (dir b) c)) eqn:W; auto. exfalso. pose proof (g_dirs _ _ _ _ G b ltac:(lia)) as Hd.
  apply within_b_ok in W; [|apply seen_length; [destruct Hd; auto|exact (interior_len ns c Hi)]]. apply (deep_unseen c (dir b)); auto.
  intro E. apply (g_zero _ _ _ _ G). rewrite <- E. apply nth_In. lia.
Qed.

(** the exchange between processes finishes *)
Theorem guard_exchange_completes rank nattrs tab types sched (m : addr -> V) : tab_is (ax_guard ng) ns bounds tab -> tab_is (ax_types ng) Ns bounds types ->
  exists ts, guard_transfers ns ng n nb opp nbr rank nattrs types = Some ts /\
    ((forall t, (t < length (guard_tasks Ns tab (here nbr rank) n nattrs ++ ts))%nat ->
       (length (nth t (guard_tasks Ns tab (here nbr rank) n nattrs ++ ts) []) <= count_occ Nat.eq_dec sched t)%nat) ->
     exists m', guard_exchange ns ng n nb opp nbr rank zero plus nattrs tab types sched m = Some m').
Proof using G Sym.
  intros T1 T2. pose proof (guard_transfers_eq ns ng bounds opp n G nbr rank Sym nattrs types T2) as E. eexists. split; [exact E|]. intro H.
  unfold guard_exchange. rewrite E. now apply parallel_completes.
Qed.
Theorem current_exchange_completes rank tab mtab s1 s2 (m : addr -> V) : tab_is (ax_mpi ng) ns bounds mtab ->
  exists ts, current_transfers ns ng n nb opp nbr rank mtab = Some ts /\
    ((forall t, (t < length (current_tasks Ns tab (here nbr rank) n))%nat -> (length (nth t (current_tasks Ns tab (here nbr rank) n) []) <= count_occ Nat.eq_dec s1 t)%nat) ->
     (forall t, (t < length ts)%nat -> (length (nth t ts []) <= count_occ Nat.eq_dec s2 t)%nat) ->
     exists m', current_exchange ns ng n nb opp nbr rank zero plus tab mtab s1 s2 m = Some m').
Proof using G Sym.
  intro T2. pose proof (current_transfers_eq ns ng bounds opp n G nbr rank Sym mtab T2) as E. eexists. split; [exact E|]. intros H1 H2.
  unfold current_exchange. destruct (parallel_completes zero plus _ _ m H1) as [m1 E1]. rewrite E1, E. now apply parallel_completes.
Qed.
End Geo.

(** ** the whole grid *)
Lemma place1_step a n ng i x : ax_lo a = ax_hi a -> 0 < ng -> ng <= n -> 0 <= i < ax_n a -> - ng <= x < n + ng ->
  let s := if x <? 0 then -1 else if x <? n then 0 else 1 in
  place1 a n i x = match wrap a (i + s) with Some k => Some (k * n + (x - s * n)) | None => None end.
Proof.
  intros Hp Hg Hn Hi Hx s. unfold place1, wrap. rewrite <- Hp.
  assert (Hs : s = -1 /\ x < 0 \/ s = 0 /\ 0 <= x < n \/ s = 1 /\ n <= x).
  { unfold s. destruct (x <? 0) eqn:E1; [left; split; auto; lia|right]. destruct (x <? n) eqn:E2; [left|right]; split; auto; lia. }
  clearbody s. assert (Hin : 0 <= i * n <= (ax_n a - 1) * n) by nia.
  destruct (i + s <? 0) eqn:E1; [|destruct (ax_n a <=? i + s) eqn:E2].
  - assert (i = 0 /\ s = -1) as [-> ->] by lia. assert (x < 0) by lia. replace (0 <=? 0 * n + x) with false by lia. cbn [andb].
    destruct (bc_eqb (ax_lo a) Periodic); auto. f_equal. symmetry. apply Z.mod_unique_pos with (q := -1); nia.
  - assert (i = ax_n a - 1 /\ s = 1) as [-> ->] by lia. assert (n <= x) by lia. replace ((ax_n a - 1) * n + x <? ax_n a * n) with false by nia. rewrite andb_false_r.
    destruct (bc_eqb (ax_lo a) Periodic); auto. f_equal. symmetry. apply Z.mod_unique_pos with (q := 1); nia.
  - assert (Hb : 0 <= (i + s) * n + (x - s * n) /\ (i + s) * n + (x - s * n) < ax_n a * n) by (split; nia).
    replace (i * n + x) with ((i + s) * n + (x - s * n)) by ring. replace (0 <=? _) with true by lia. replace (_ <? _) with true by lia. reflexivity.
Qed.
Fixpoint flat (ns i c : list Z) : list Z := match ns, i, c with n :: ns', k :: i', x :: c' => (k * n + x) :: flat ns' i' c' | _, _, _ => [] end.
Lemma place_step axes ns ng i c : paired axes -> sizes_ok ng ns -> length ns = length axes -> in_grid axes i -> within ng ns c ->
  place axes ns i c = match wrap_all axes (add i (sides_of ns c)) with Some k => Some (flat ns k (seen_from ns (sides_of ns c) c)) | None => None end.
Proof.
  intros Hp [Hg Hs] Hl Hi Hc. revert axes i Hp Hl Hi Hs. induction Hc as [|n x ns c Hx Hc IH]; intros [|a axes] i Hp Hl Hi Hs; cbn in Hl; try discriminate.
  - inversion Hi; subst. reflexivity.
  - inversion Hi as [|? k ? i' Hk Hi']; subst. apply Forall_cons_iff in Hp as [Hp1 Hp]. apply Forall_cons_iff in Hs as [Hs1 Hs].
    cbn [place]. rewrite (place1_step a n ng k x) by (auto; lia). rewrite IH by (auto; lia).
    unfold sides_of, seen_from. cbn [combine map fst snd add wrap_all]. destruct (wrap a _) as [w|]; [|reflexivity]. destruct (wrap_all axes _) as [r|]; reflexivity.
Qed.
Lemma flat_inj ns axes i c i' c' : interior ns c -> interior ns c' -> in_grid axes i -> in_grid axes i' -> length ns = length axes -> flat ns i c = flat ns i' c' -> i = i' /\ c = c'.
Proof.
  intros Hc Hc' Hi. revert axes i Hi i' c' Hc'. induction Hc as [|n x ns c Hx Hc IH]; intros axes i Hi i' c' Hc' Hi' Hl E.
  - inversion Hc'; subst. destruct axes; [|discriminate]. inversion Hi; inversion Hi'; subst; auto.
  - inversion Hc' as [|? x' ? c2 Hx' Hc2]; subst. destruct axes as [|a axes]; [discriminate|]. inversion Hi as [|? k ? i2 Hk Hi2]; subst. inversion Hi' as [|? k' ? i3 Hk' Hi3]; subst.
    cbn [flat] in E. inversion E as [[E1 E2]]. cbn in Hl. destruct (IH axes i2 Hi2 i3 c2 Hc2 Hi3 ltac:(lia) E2) as [-> ->].
    assert (E3 : x + k * n = x' + k' * n) by lia. apply pair_inj in E3; auto. destruct E3 as [-> ->]. auto.
Qed.
Lemma all_cells_in ng ns c : In c (all_cells ng ns) <-> within ng ns c.
Proof.
  unfold all_cells, extents, within. rewrite in_map_iff. split.
  - intros (k & <- & Hk). apply block_in in Hk. revert k Hk. induction ns as [|n ns IH]; intros [|y k] Hk; [apply Forall2_nil|inversion Hk|inversion Hk|].
    cbn [map] in *. assert (Hy : 0 <= y < n + 2 * ng /\ Forall2 (fun n x : Z => 0 <= x < n) (map (fun n : Z => n + 2 * ng) ns) k).
    { remember (n + 2 * ng) as N eqn:EN. clear EN. inversion Hk; auto. }
    apply Forall2_cons; [lia|]. now apply IH.
  - intro H. exists (map (fun i => i + ng) c). split; [rewrite map_map; rewrite <- (map_id c) at 2; apply map_ext; intro; lia|]. apply block_in.
    induction H as [|n x ns c Hx Hc IH]; cbn [map]; [apply Forall2_nil|apply Forall2_cons; [lia|auto]].
Qed.
Lemma all_cells_NoDup ng ns : NoDup (all_cells ng ns).
Proof.
  apply nodup_inj; [apply block_NoDup|]. intros a b _ _. revert b. induction a as [|x a IH]; intros [|y b] E; try discriminate; auto. cbn in E. inversion E as [[E1 E2]]. f_equal; [lia|auto].
Qed.

Section Grid.
Variables (ns : list Z) (ng : Z) (bounds : list (list Z)) (opp : nat -> nat) (n : nat).
Hypothesis G : geometry ns ng bounds opp.
Notation nb := (length bounds).
Notation dir b := (nth b bounds []).
Variable nbr : nat -> nat -> option nat.
Hypothesis Sym : nbr_symmetric n nb opp nbr.
Variable axes : list axis.
Variable position : nat -> list Z.
Hypothesis Hpair : paired axes.
Hypothesis Hlen : length ns = length axes.
Hypothesis Hgrid : forall p, (p < n)%nat -> in_grid axes (position p).
Hypothesis Hall : forall d, dirs_ok ns d -> d <> map (fun _ => 0) ns -> In d bounds.
Hypothesis Hnbr : forall p b q, (p < n)%nat -> (b < nb)%nat -> nbr p b = Some q <-> (q < n)%nat /\ wrap_all axes (add (position p) (dir b)) = Some (position q).
Hypothesis Honto : forall i, in_grid axes i -> exists q, (q < n)%nat /\ position q = i.
Notation cell := (cell ns ng).
Notation pl p c := (place axes ns (position p) c).

Lemma add_zero_r i : in_grid axes i -> add i (map (fun _ => 0) ns) = i.
Proof using Hlen.
  clear - Hlen. intro H. revert ns Hlen. induction H as [|a k axes i Hk Hi IH]; intros [|m ns] Hl; cbn in Hl; try discriminate; auto. cbn. rewrite IH by lia. f_equal. lia.
Qed.
Lemma wrap_grid i : in_grid axes i -> wrap_all axes i = Some i.
Proof using. clear. intro H. induction H as [|a k axes i Hk Hi IH]; [reflexivity|]. cbn. rewrite IH. unfold wrap. replace (k <? 0) with false by lia. replace (ax_n a <=? k) with false by lia. reflexivity. Qed.
Lemma seen_zero c : length c = length ns -> seen_from ns (map (fun _ => 0) ns) c = c.
Proof using.
  clear. unfold seen_from. revert c. induction ns as [|m l IH]; intros [|x c] Hl; cbn in Hl; try discriminate; auto. cbn. rewrite IH by lia. f_equal. lia.
Qed.
(** a place is held by exactly one patch as an interior cell *)
Lemma place_interior p c : (p < n)%nat -> interior ns c -> pl p c = Some (flat ns (position p) c).
Proof using G Hpair Hlen Hgrid.
  intros Hp Hc. pose proof (interior_len ns c Hc) as Lc. rewrite (place_step axes ns ng); auto; [|apply G|apply interior_within; auto; apply (ng_pos ns ng bounds opp G)].
  rewrite (proj1 (sides_zero ns c Lc)) by auto. rewrite add_zero_r, wrap_grid, seen_zero; auto.
Qed.
Lemma place_facing p c : (p < n)%nat -> within ng ns c -> ~ interior ns c ->
  match pl p c with
  | Some g => exists q, facing bounds nbr p (sides_of ns c) = Some q /\ (q < n)%nat /\ interior ns (seen_from ns (sides_of ns c) c) /\ pl q (seen_from ns (sides_of ns c) c) = Some g
  | None => facing bounds nbr p (sides_of ns c) = None
  end.
Proof using G Hpair Hlen Hgrid Hall Hnbr Honto.
  intros Hp Hc Hi. pose proof (within_length ng ns c Hc) as Lc. pose proof (sides_dirs ns c Lc) as Hd.
  assert (Hz : sides_of ns c <> map (fun _ => 0) ns) by (rewrite <- (sides_zero ns c Lc); auto).
  pose proof (Hall _ Hd Hz) as Hb. apply (In_nth _ _ []) in Hb as (b & Hb & Eb).
  rewrite (place_step axes ns ng) by (auto; apply G). destruct (wrap_all axes (add (position p) (sides_of ns c))) as [k|] eqn:W.
  - assert (Hk : in_grid axes k). { eapply wrap_all_grid; [apply (Hgrid p Hp)| |exact W]. unfold unit_offset. destruct Hd as [Hd1 Hd2]. clear - Hlen Hd1 Hd2. revert axes Hlen Hd1.
      generalize (sides_of ns c) Hd2. clear Hd2. intros s Hs. revert ns. induction Hs as [|x s Hx Hs IH]; intros [|m l] [|a axes] H1 H2; cbn in H1, H2; try discriminate; constructor; [destruct Hx as [->|[->| ->]]; lia|]. apply (IH l); lia. }
    destruct (Honto k Hk) as (q & Hq & Eq). exists q. pose proof (guard_seen ng ns c (g_sizes _ _ _ _ G) Hc) as Hs. split; [|split; [auto|split; [auto|]]].
    + apply (facing_some ns ng bounds opp G). exists b. split; auto. split; auto. apply Hnbr; auto. split; auto. now rewrite Eb, W, Eq.
    + rewrite (place_interior q) by auto. now rewrite Eq.
  - destruct (facing bounds nbr p (sides_of ns c)) as [q|] eqn:F; auto. apply (facing_some ns ng bounds opp G) in F as (b' & Hb' & Eb' & En). apply Hnbr in En as [_ En]; auto. rewrite Eb', W in En. discriminate.
Qed.
Lemma place_unique p c q c' g : (p < n)%nat -> (q < n)%nat -> interior ns c -> interior ns c' -> pl p c = Some g -> pl q c' = Some g -> position p = position q /\ c = c'.
Proof using G Hpair Hlen Hgrid.
  intros Hp Hq Hc Hc' E E'. rewrite (place_interior p c) in E by auto. rewrite (place_interior q c') in E' by auto. apply (flat_inj ns axes); auto. congruence.
Qed.

(** copies of one grid field *)
Theorem guard_global {V} (m : addr -> V) (F : nat -> list Z -> V) f :
  (forall p c g, (p < n)%nat -> interior ns c -> pl p c = Some g -> m (cell f p c) = F f g) ->
  forall p c, (p < n)%nat -> within ng ns c ->
  guard_result bounds ns ng nbr m f p c = match pl p c with Some g => F f g | None => m (cell f p c) end.
Proof using G Hpair Hlen Hgrid Hall Hnbr Honto.
  intros H p c Hp Hc. pose proof (within_length ng ns c Hc) as Lc. destruct (interior_b ns c) eqn:B.
  - apply interior_b_ok in B; auto. unfold guard_result. rewrite (facing_interior ns ng bounds opp G nbr p c B). rewrite (place_interior p c) by auto. apply H; auto. apply place_interior; auto.
  - assert (Hi : ~ interior ns c) by (rewrite <- (interior_b_ok ns c Lc); congruence). pose proof (place_facing p c Hp Hc Hi) as PF. unfold guard_result.
    destruct (pl p c) as [g|].
    + destruct PF as (q & -> & Hq & Hs & Eg). apply H; auto.
    + now rewrite PF.
Qed.

Hypothesis Hposition : forall p q, (p < n)%nat -> (q < n)%nat -> position p = position q -> p = q.
(** all copies of the place of an interior cell *)
Definition seen_copies (p : nat) (c : list Z) : list (nat * list Z) :=
  flat_map (fun b => match nbr p b with Some q => if within_b ng ns (seen_from ns (dir b) c) then [(q, seen_from ns (dir b) c)] else [] | None => [] end) (seq 0 nb).
Lemma seen_copies_in p c q c' : interior ns c -> In (q, c') (seen_copies p c) <-> exists b, (b < nb)%nat /\ nbr p b = Some q /\ c' = seen_from ns (dir b) c /\ within ng ns c'.
Proof using G.
  clear Hposition Honto Hnbr Hlen Hgrid Hall Hpair position axes. intro Hc. pose proof (interior_len ns c Hc) as Lc. unfold seen_copies. rewrite in_flat_map. split.
  - intros (b & Hb & H). apply in_seq in Hb. destruct (nbr p b) as [q'|] eqn:E; [|contradiction]. destruct (within_b ng ns (seen_from ns (dir b) c)) eqn:W; [|contradiction]. destruct H as [H|[]]. inversion H; subst q' c'.
    exists b. split; [lia|]. split; auto. split; auto. apply within_b_ok in W; auto. apply seen_length; auto. apply (g_dirs _ _ _ _ G b). lia.
  - intros (b & Hb & E & -> & Hw). exists b. split; [apply in_seq; lia|]. rewrite E. rewrite (proj2 (within_b_ok ng ns _ (within_length ng ns _ Hw))) by auto. now left.
Qed.
Lemma seen_copies_NoDup p c : interior ns c -> NoDup (seen_copies p c).
Proof using G.
  clear Hposition Honto Hnbr Hlen Hgrid Hall Hpair position axes. intro Hc. pose proof (interior_len ns c Hc) as Lc. apply nodup_flat; [apply seq_NoDup| |].
  - intros b _. destruct (nbr p b); [|constructor]. destruct (within_b _ _ _); repeat constructor; auto.
  - intros b b' x Hb Hb' H H'. apply in_seq in Hb, Hb'. destruct (nbr p b) as [q|]; [|contradiction]. destruct (nbr p b') as [q'|]; [|contradiction].
    destruct (within_b ng ns (seen_from ns (dir b) c)); [|contradiction]. destruct (within_b ng ns (seen_from ns (dir b') c)); [|contradiction].
    destruct H as [H|[]], H' as [H'|[]]. subst x. inversion H' as [[E1 E2]]. apply (dir_inj ns ng bounds opp G); [lia|lia|].
    pose proof (g_dirs _ _ _ _ G b ltac:(lia)) as [D1 _]. pose proof (g_dirs _ _ _ _ G b' ltac:(lia)) as [D2 _].
    apply (seen_dir_inj ng ns (dir b) (dir b') c); auto; apply G.
Qed.
Lemma copies_perm p c g : (p < n)%nat -> interior ns c -> pl p c = Some g -> Permutation (copies_of axes ns ng n position g) ((p, c) :: seen_copies p c).
Proof using G Sym Hpair Hlen Hgrid Hall Hnbr Honto Hposition.
  intros Hp Hc Eg. pose proof (interior_len ns c Hc) as Lc. pose proof (ng_pos ns ng bounds opp G) as Hg0. apply NoDup_Permutation.
  - apply NoDup_filter. apply nodup_prod; [apply seq_NoDup|apply all_cells_NoDup].
  - constructor; [|now apply seen_copies_NoDup]. intro H. apply seen_copies_in in H as (b & Hb & E & E' & Hw); auto.
    apply (not_interior ns ng bounds opp G c b Hb Hc); [now rewrite <- E'|now rewrite <- E'].
  - intros [q c']. unfold copies_of. rewrite filter_In, in_prod_iff, in_seq, all_cells_in. cbn [fst snd]. split.
    + intros ((Hq & Hw) & Hpl). assert (Hq' : (q < n)%nat) by lia. pose proof (within_length ng ns c' Hw) as Lc'. destruct (pl q c') as [g'|] eqn:Eg'; [|discriminate]. apply list_eqb_eq in Hpl. subst g'.
      destruct (interior_b ns c') eqn:B.
      * apply interior_b_ok in B; auto. destruct (place_unique p c q c' g) as [E1 E2]; auto. left. f_equal; auto.
      * assert (Hi : ~ interior ns c') by (rewrite <- (interior_b_ok ns c' Lc'); congruence). pose proof (place_facing q c' Hq' Hw Hi) as PF. rewrite Eg' in PF. destruct PF as (p' & F & Hp' & Hs & Ep).
        destruct (place_unique p c p' (seen_from ns (sides_of ns c') c') g) as [E1 E2]; auto. apply Hposition in E1; auto. subst p'. right. apply seen_copies_in; auto.
        apply (facing_some ns ng bounds opp G) in F as (b & Hb & Eb & En). destruct (Sym q b p Hq' Hb En) as (_ & S2 & S3 & S4). exists (opp b). split; auto. split; auto.
        split; auto. rewrite E2, <- Eb. symmetry. apply (seen_opp ns ng bounds opp G); auto.
    + intros [H|H].
      * inversion H; subst q c'. split; [split; [lia|now apply interior_within]|]. rewrite Eg. apply list_eqb_eq. reflexivity.
      * apply seen_copies_in in H as (b & Hb & E & -> & Hw); auto. destruct (Sym p b q Hp Hb E) as (Hq & S2 & S3 & S4). split; [split; [lia|auto]|].
        pose proof (not_interior ns ng bounds opp G c b Hb Hc Hw) as Hi. pose proof (place_facing q _ Hq Hw Hi) as PF.
        rewrite (src_guard ns ng bounds opp G c b Hb Hc Hw) in PF. rewrite (seen_opp ns ng bounds opp G c b Hb Lc) in PF.
        destruct (pl q (seen_from ns (dir b) c)) as [g'|].
        -- destruct PF as (p' & F & Hp' & _ & Ep). apply (facing_some ns ng bounds opp G) in F as (b' & Hb' & Eb' & En). apply (dir_inj ns ng bounds opp G) in Eb'; auto. subst b'. rewrite S4 in En. inversion En; subst p'.
           apply list_eqb_eq. congruence.
        -- exfalso. assert (F : facing bounds nbr q (dir (opp b)) = Some p) by (apply (facing_some ns ng bounds opp G); eauto). congruence.
Qed.
Context {V : Type} (zero : V) (plus : V -> V -> V).
Hypothesis Hm : monoid zero plus.
Lemma total_perm l l' : Permutation l l' -> total zero plus l = total zero plus l'.
Proof using Hm. destruct Hm as (H0 & H1 & H2). unfold total. induction 1 as [|x l l' P IH|x y l|l l' l'' P1 IH1 P2 IH2]; cbn [fold_right]; auto; [now rewrite IH|rewrite !H2, (H1 y x); auto|congruence]. Qed.
Lemma total_app l l' : total zero plus (l ++ l') = plus (total zero plus l) (total zero plus l').
Proof using Hm. destruct Hm as (H0 & H1 & H2). unfold total. induction l as [|x l IH]; cbn [fold_right app]; [now rewrite H1, H0|]. now rewrite IH, H2. Qed.
Theorem current_global (m : addr -> V) f p c g : (p < n)%nat -> interior ns c -> pl p c = Some g ->
  current_result zero plus bounds ns ng nbr m f p c = total zero plus (map (fun qc => m (cell f (fst qc) (snd qc))) (copies_of axes ns ng n position g)).
Proof using G Sym Hpair Hlen Hgrid Hall Hnbr Honto Hposition Hm.
  intros Hp Hc Eg. rewrite (total_perm _ _ (Permutation_map _ (copies_perm p c g Hp Hc Eg))). cbn [map total fold_right fst snd]. unfold current_result.
  rewrite (proj2 (interior_b_ok ns c (interior_len ns c Hc))) by auto. f_equal. unfold seen_copies. induction (seq 0 nb) as [|b l IH]; [reflexivity|].
  cbn [flat_map map fold_right]. change (fold_right plus zero) with (total zero plus) in *. rewrite map_app, total_app, <- IH. f_equal.
  destruct Hm as (H0 & H1 & H2). destruct (nbr p b) as [q|]; [|reflexivity]. unfold deposited. destruct (within_b _ _ _); cbn; [now rewrite H0|reflexivity].
Qed.
End Grid.
Lemma accumulated_ext {V} (zero : V) plus l m m' a : (forall x, m x = m' x) -> accumulated zero plus l m a = accumulated zero plus l m' a.
Proof.
  intro H. unfold accumulated, vals. destruct (existsb _ l); auto. rewrite H. f_equal. f_equal. apply map_ext. intro x. apply H.
Qed.
