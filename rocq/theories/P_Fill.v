(** Proofs for C40 and C71. *)
From Verif Require Import Base M_Fill S_Fill.
From Coq Require Import QArith Lqa.
Local Open Scope nat_scope.
Local Open Scope list_scope.

Section Fill.
Variable density : cell -> Q.
Variable density_min : Q.
Variable ppc_func : cell -> Q.
Variable rand : nat -> Q.
Hypothesis Hrand : forall i, (0 <= rand i)%Q /\ (rand i < 1)%Q.
Notation ppc := (ppc ppc_func).
Notation dense := (dense density density_min).
Notation put_axes := (put_axes rand).
Notation fill_cell := (fill_cell density density_min ppc_func rand).
Notation fill := (fill density density_min ppc_func rand).
Notation create := (create density density_min ppc_func rand).
Notation num_macro := (num_macro density density_min ppc_func).
Notation n := (asked dense ppc).

Notation populated := (populated dense ppc).
Notation weight := (weight density ppc).
Lemma num_from cs : (forall c, In c cs -> dense c = true -> (1 <= ppc c)%Z) -> forall m,
  fold_left (fun m c => if dense c then m + ppc c else m)%Z cs m = (m + Z.of_nat (list_sum (map n cs)))%Z.
Proof.
  induction cs as [|c cs IH]; intros H m; cbn [fold_left map list_sum]; [cbn; lia|]. rewrite IH by (intros; apply H; [right; assumption|assumption]).
  cbn [list_sum fold_right]. fold (list_sum (map n cs)). unfold asked at 2. specialize (H c (or_introl eq_refl)). destruct (dense c); [specialize (H eq_refl)|]; lia.
Qed.
Lemma by_cell_snoc R cs A c b : by_cell n R cs A -> length b = n c -> Forall (R c) b -> by_cell n R (cs ++ [c]) (A ++ b).
Proof.
  intros [bl [-> H]] H1 H2. exists (bl ++ [b]). split; [rewrite concat_app; cbn [concat]; rewrite app_nil_r; reflexivity|].
  apply Forall2_app; [exact H|]. constructor; [split; assumption|constructor].
Qed.
Lemma uniform_ok at_ k d g j c : (0 < d)%Q -> nth j c 0%Q = g -> Forall (in_cell j d c) (uniform rand at_ k d g).
Proof.
  intros Hd Hg. apply Forall_forall. intros x Hx. apply in_map_iff in Hx. destruct Hx as [i [<- _]]. unfold in_cell. rewrite Hg.
  destruct (Hrand (at_ + i)) as [H1 H2]. set (r := rand (at_ + i)) in *.
  assert (A : (0 <= d * r)%Q) by (apply Qmult_le_0_compat; lra).
  assert (B : (d * r < d)%Q). { assert (d * r < d * 1)%Q by (apply Qmult_lt_l; assumption). lra. }
  assert (C : (- d / 2 == - (d / 2))%Q) by field. rewrite C. split; [lra|]. assert (D : (d / 2 + d / 2 == d)%Q) by field. lra.
Qed.
Lemma write_tail lo vs A rem : length A = lo -> length vs <= rem ->
  write lo vs (A ++ repeat 0%Q rem) = Ok (A ++ vs ++ repeat 0%Q (rem - length vs)).
Proof.
  intros H1 H2. unfold write. rewrite app_length, repeat_length, H1. replace (lo + length vs <=? lo + rem) with true by lia. f_equal.
  rewrite firstn_app, H1, Nat.sub_diag, (firstn_all2 A) by lia. cbn [firstn]. rewrite app_nil_r. f_equal. f_equal.
  rewrite skipn_app, skipn_all2 by lia. cbn [app]. rewrite H1. replace (lo + length vs - lo) with (length vs) by lia.
  replace rem with (length vs + (rem - length vs)) at 1 by lia. rewrite repeat_app, skipn_app, repeat_length, Nat.sub_diag.
  rewrite skipn_all2 by (rewrite repeat_length; lia). reflexivity.
Qed.
Lemma write_all_tail lo k v A rem : length A = lo -> k <= rem ->
  write_all lo k v (A ++ repeat 0%Q rem) = A ++ repeat v k ++ repeat 0%Q (rem - k).
Proof.
  intros H1 H2. unfold write_all. rewrite app_length, repeat_length, H1. replace (min k (lo + rem - lo)) with k by lia.
  rewrite firstn_app, H1, Nat.sub_diag, (firstn_all2 A) by lia. cbn [firstn]. rewrite app_nil_r. f_equal. f_equal.
  rewrite skipn_app, skipn_all2 by lia. cbn [app]. rewrite H1. replace (lo + k - lo) with k by lia.
  replace rem with (k + (rem - k)) at 1 by lia. rewrite repeat_app, skipn_app, repeat_length, Nat.sub_diag.
  rewrite skipn_all2 by (rewrite repeat_length; lia). reflexivity.
Qed.

(** the arrays while filling: [lo] entries for the cells [cs], then zeros *)
Fixpoint partly (j : nat) (cs : list cell) (lo rem : nat) (ds : list Q) (arrays : list (list Q)) : Prop :=
  match ds, arrays with
  | [], [] => True
  | d :: ds', a :: arrays' =>
      (exists A, a = A ++ repeat 0%Q rem /\ length A = lo /\ by_cell n (in_cell j d) cs A) /\ partly (S j) cs lo rem ds' arrays'
  | _, _ => False
  end.
Lemma partly_skip cs c lo rem ds : n c = 0 -> forall j arrays, partly j cs lo rem ds arrays -> partly j (cs ++ [c]) lo rem ds arrays.
Proof.
  intro H0. induction ds as [|d ds IH]; intros j [|a arrays]; cbn [partly]; try tauto. intros [[A [H1 [H2 H3]]] H4]. split; [|apply IH, H4].
  exists A. split; [exact H1|]. split; [exact H2|]. rewrite <- (app_nil_r A). apply by_cell_snoc; [exact H3|cbn; lia|constructor].
Qed.
Lemma put_axes_ok cs c0 lo rem k : k = n c0 -> k <= rem -> forall ds j at_ c arrays,
  Forall (fun d => 0 < d)%Q ds -> skipn j c0 = c -> length c = length ds -> partly j cs lo rem ds arrays ->
  exists arrays' at', put_axes lo k at_ ds c arrays = Ok (arrays', at') /\ partly j (cs ++ [c0]) (lo + k) (rem - k) ds arrays'.
Proof.
  intros Hk Hrem. induction ds as [|d ds IH]; intros j at_ c arrays Hd Hc Hlen Hp.
  - destruct arrays; [|destruct Hp]. exists [], at_. split; [reflexivity|exact I].
  - destruct arrays as [|a arrays]; [destruct Hp|]. destruct c as [|g c]; [discriminate Hlen|]. destruct Hp as [[A [-> [HA HB]]] Hp].
    assert (Hg : nth j c0 0%Q = g).
    { rewrite <- (firstn_skipn j c0), Hc. assert (Hj : length (firstn j c0) = j).
      { apply firstn_length_le. assert (length (skipn j c0) = S (length c)) by (rewrite Hc; reflexivity). rewrite skipn_length in H. lia. }
      rewrite app_nth2 by lia. rewrite Hj, Nat.sub_diag. reflexivity. }
    assert (Hc' : skipn (S j) c0 = c).
    { clear - Hc. revert c0 Hc. induction j as [|j IH]; intros [|x c0] Hc; cbn [skipn] in *; try discriminate; [congruence|]. apply IH, Hc. }
    cbn [M_Fill.put_axes]. assert (Hu : length (uniform rand at_ k d g) = k) by (unfold uniform; rewrite map_length, seq_length; reflexivity).
    rewrite write_tail by (rewrite ?Hu; assumption). cbn [bind]. rewrite Hu.
    destruct (IH (S j) (at_ + k) c arrays (Forall_inv_tail Hd) Hc' ltac:(cbn in Hlen; lia) Hp) as [arrays' [at' [-> E]]]. cbn [bind].
    eexists _, at'. split; [reflexivity|]. cbn [partly]. split; [|exact E]. exists (A ++ uniform rand at_ k d g).
    split; [rewrite app_assoc; reflexivity|]. split; [rewrite app_length; lia|].
    apply by_cell_snoc; [exact HB|congruence|]. apply uniform_ok; [exact (Forall_inv Hd)|exact Hg].
Qed.
Lemma cells_length axes c : In c (cells axes) -> length c = length axes.
Proof.
  revert c; induction axes as [|a axes IH]; intros c H; cbn [cells] in H; [destruct H as [<-|[]]; reflexivity|].
  apply in_flat_map in H. destruct H as [x [_ H]]. apply in_map_iff in H. destruct H as [c' [<- H]]. cbn [length]. rewrite (IH c' H). reflexivity.
Qed.
Lemma fill_cells_ok ds : Forall (fun d => 0 < d)%Q ds -> forall cs2 cs1 pos W lo at_,
  (forall c, In c cs2 -> dense c = true -> (1 <= ppc c)%Z) -> (forall c, In c cs2 -> length c = length ds) ->
  partly 0 cs1 lo (list_sum (map n cs2)) ds pos -> length W = lo -> by_cell n (weight ds) cs1 W ->
  exists pos' w' i' at', fold_left (fun r c => bind r (fun st => fill_cell ds st c)) cs2 (Ok (pos, W ++ repeat 0%Q (list_sum (map n cs2)), lo, at_))
      = Ok (pos', w', i', at')
    /\ i' = lo + list_sum (map n cs2) /\ partly 0 (cs1 ++ cs2) i' 0 ds pos' /\ length w' = i' /\ by_cell n (weight ds) (cs1 ++ cs2) w'.
Proof.
  intro Hd. induction cs2 as [|c cs2 IH]; intros cs1 pos W lo at_ Hp Hl H1 H2 H3.
  - cbn [map list_sum fold_right repeat fold_left]. rewrite !app_nil_r. exists pos, W, lo, at_. split; [reflexivity|]. cbn in H1.
    split; [lia|]. split; [exact H1|]. split; assumption.
  - cbn [map list_sum fold_right] in *. fold (list_sum (map n cs2)) in *. cbn [fold_left bind]. unfold M_Fill.fill_cell at 2.
    assert (Hn : n c = if dense c then Z.to_nat (ppc c) else 0) by reflexivity.
    destruct (dense c) eqn:Ed.
    + pose proof (Hp c (or_introl eq_refl) Ed) as Hc. replace (ppc c <? 0)%Z with false by lia. rewrite <- Hn.
      destruct (put_axes_ok cs1 c lo (n c + list_sum (map n cs2)) (n c) eq_refl ltac:(lia) ds 0 at_ c pos Hd eq_refl (Hl c (or_introl eq_refl)) H1)
        as [pos' [at' [-> E]]]. cbn [bind]. replace (n c =? 0) with false by lia.
      rewrite write_all_tail by (assumption || lia). replace (n c + list_sum (map n cs2) - n c) with (list_sum (map n cs2)) in * by lia.
      rewrite app_assoc. set (v := (density c * volume ds / inject_Z (ppc c))%Q).
      destruct (IH (cs1 ++ [c]) pos' (W ++ repeat v (n c)) (lo + n c) at') as [p [w [i [a [F1 [F2 [F3 [F4 F5]]]]]]]].
      * intros; apply Hp; [right; assumption|assumption].
      * intros; apply Hl; right; assumption.
      * exact E.
      * rewrite app_length, repeat_length. lia.
      * apply by_cell_snoc; [exact H3|apply repeat_length|]. apply Forall_forall. intros x Hx. apply repeat_spec in Hx. subst x. reflexivity.
      * exists p, w, i, a. split; [exact F1|]. split; [lia|]. rewrite <- app_assoc in F3, F5. split; [exact F3|]. split; assumption.
    + rewrite Hn in *. cbn [Nat.add] in *.
      destruct (IH (cs1 ++ [c]) pos W lo at_) as [p [w [i [a [F1 [F2 [F3 [F4 F5]]]]]]]].
      * intros; apply Hp; [right; assumption|assumption].
      * intros; apply Hl; right; assumption.
      * apply partly_skip; assumption.
      * exact H2.
      * rewrite <- (app_nil_r W). apply by_cell_snoc; [exact H3|cbn; lia|constructor].
      * exists p, w, i, a. split; [exact F1|]. split; [exact F2|]. rewrite <- app_assoc in F3, F5. split; [exact F3|]. split; assumption.
Qed.
Lemma partly_zeros rem ds : forall j, partly j [] 0 rem ds (map (fun _ => repeat 0%Q rem) ds).
Proof.
  induction ds as [|d ds IH]; intro j; cbn [map partly]; [exact I|]. split; [|apply IH]. exists []. split; [reflexivity|]. split; [reflexivity|].
  exists []. split; [reflexivity|constructor].
Qed.
Lemma partly_nth cs lo ds : forall j arrays, partly j cs lo 0 ds arrays ->
  length arrays = length ds /\
  forall k d a, nth_error ds k = Some d -> nth_error arrays k = Some a -> length a = lo /\ by_cell n (in_cell (j + k) d) cs a.
Proof.
  induction ds as [|d ds IH]; intros j [|a arrays] H; cbn [partly] in H; try tauto.
  - split; [reflexivity|]. intros [|k] d a H1; discriminate H1.
  - destruct H as [[A [-> [H1 H2]]] H3]. cbn [repeat]. rewrite app_nil_r. destruct (IH (S j) arrays H3) as [E1 E2]. split; [cbn [length]; lia|].
    intros [|k] d' a' F1 F2; cbn [nth_error] in *.
    + assert (d' = d /\ a' = A) as [-> ->] by (split; congruence). rewrite Nat.add_0_r. split; assumption.
    + replace (j + S k) with (S j + k) by lia. apply E2; assumption.
Qed.
Lemma create_ok ds axes : Forall (fun d => 0 < d)%Q ds -> length axes = length ds -> populated axes ->
  exists pos w, create ds axes = Ok (pos, w)
    /\ num_macro axes = Z.of_nat (list_sum (map n (cells axes)))
    /\ length pos = length ds /\ length w = list_sum (map n (cells axes))
    /\ (forall k d a, nth_error ds k = Some d -> nth_error pos k = Some a ->
          length a = length w /\ by_cell n (in_cell k d) (cells axes) a)
    /\ by_cell n (weight ds) (cells axes) w.
Proof.
  intros Hd Hl Hp. unfold M_Fill.create, M_Fill.num_macro. rewrite (num_from _ Hp). cbn [Z.add]. set (m := list_sum (map n (cells axes))).
  replace (Z.of_nat m <? 0)%Z with false by lia. rewrite Nat2Z.id. unfold M_Fill.fill.
  destruct (fill_cells_ok ds Hd (cells axes) [] (map (fun _ => repeat 0%Q m) ds) [] 0 0 Hp) as [p [w [i [a [F1 [F2 [F3 [F4 F5]]]]]]]].
  - intros c Hc. rewrite (cells_length _ _ Hc). exact Hl.
  - apply partly_zeros.
  - reflexivity.
  - exists []. split; [reflexivity|constructor].
  - cbn [app] in F1. fold m in F1. rewrite F1. cbn [bind]. exists p, w. split; [reflexivity|]. split; [reflexivity|].
    cbn [app] in F3, F5. destruct (partly_nth _ _ _ _ _ F3) as [G1 G2]. split; [exact G1|]. split; [fold m in F2; lia|]. split; [|exact F5].
    intros k d x H1 H2. rewrite F4. exact (G2 k d x H1 H2).
Qed.
(** ** weights *)
Lemma total_app a b : (total (a ++ b) == total a + total b)%Q.
Proof. induction a as [|x a IH]; cbn [app total]; [ring|]. rewrite IH. ring. Qed.
Lemma total_const v l : Forall (fun x => x == v)%Q l -> (total l == inject_Z (Z.of_nat (length l)) * v)%Q.
Proof.
  induction 1 as [|x l H1 H2 IH]; [cbn; unfold inject_Z; ring|]. cbn [total length]. rewrite IH, H1, Nat2Z.inj_succ. unfold Z.succ. rewrite inject_Z_plus. unfold inject_Z at 3. ring.
Qed.
Lemma cell_total ds c b : (dense c = true -> (1 <= ppc c)%Z) -> length b = n c -> Forall (weight ds c) b ->
  (total b == real_particles density dense ds c)%Q.
Proof.
  intros H1 H2 H3. rewrite (total_const _ _ H3), H2. unfold real_particles, asked. destruct (dense c).
  - specialize (H1 eq_refl). rewrite Z2Nat.id by lia. field. change (~ inject_Z (ppc c) == inject_Z 0)%Q. rewrite inject_Z_injective. lia.
  - cbn. unfold inject_Z. ring.
Qed.
Lemma all_total ds cs w : (forall c, In c cs -> dense c = true -> (1 <= ppc c)%Z) -> by_cell n (weight ds) cs w ->
  (total w == total (map (real_particles density dense ds) cs))%Q.
Proof.
  intros Hp [bl [-> H]]. induction H as [|c b cs bl [H1 H2] H3 IH]; [reflexivity|]. cbn [concat map total]. rewrite total_app, IH.
  - rewrite (cell_total ds c b); [reflexivity| |exact H1|exact H2]. apply Hp. left; reflexivity.
  - intros; apply Hp; [right; assumption|assumption].
Qed.
End Fill.
