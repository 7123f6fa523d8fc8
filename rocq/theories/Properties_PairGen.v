(** C143: the pairing iterators reproduce the generators they replace. *)
From Verif Require Import Base M_Pairing S_Pairing P_Pairing M_PairGen.
From Coq Require Import QArith Permutation.
Local Open Scope nat_scope.

Lemma walk_hit ok : forall js ip j, find ok js = Some j -> walk ok js ip = Some j.
Proof. induction js as [|i js IH]; intros ip j E; [discriminate|]. cbn [find walk] in *. destruct (ok i); [congruence|apply IH; exact E]. Qed.
Lemma walk_scan ok lo hi j ip : (forall old, scan ok lo hi old = Some j) -> walk ok (range lo hi) ip = Some j.
Proof.
  intro E. apply walk_hit. unfold range. pose proof (E None) as E0. pose proof (E (Some (S j))) as E1. unfold scan in E0, E1.
  destruct (find ok (seq lo (hi - lo))); [exact E0|]. discriminate.
Qed.

Section Intra.
Variables (dead : list bool) (start stop : nat) (idx : list nat).
Hypothesis Hp : Permutation idx (seq start (stop - start)).
Let ok := fun j => negb (is_dead_at dead (nth j idx 0)).
Let nbuf := stop - start.
Let P := filter ok (seq 0 nbuf).
Let n := live_count dead start stop.
Hypothesis Hn : 2 <= n.
Lemma even_is : (n mod 2 =? 0) = negb (Nat.odd n).
Proof. pose proof (intra_even_odd dead start stop Hn) as X. fold n in X. rewrite <- X. unfold intra_even. replace (2 <=? n) with true by (symmetry; now apply Nat.leb_le). reflexivity. Qed.
Lemma self_loop_char m : forall k ip1 ip2, m + k = (n + 1) / 2 -> ip2 = (if k =? 0 then None else Some (nth (2 * k - 1) P 0)) ->
  self_pairs dead idx nbuf n ((n + 1) / 2) m k ip1 ip2 = map (intra_pair_k dead start stop idx) (seq k m).
Proof.
  induction m as [|m IH]; intros k ip1 ip2 Hk E2; [reflexivity|]. cbn [self_pairs seq map]. cbv zeta. fold ok. rewrite even_is, negb_involutive.
  assert (LP : length P = n) by (apply P_length; exact Hp). assert (H2k : 2 * k < n) by lia. assert (NP : intra_npairs n = (n + 1) / 2) by exact (intra_npairs_eq dead start stop Hn).
  assert (E1 : walk ok (range (after ip2) nbuf) ip1 = Some (nth (2 * k) P 0)).
  { apply walk_scan. intro old. rewrite E2. destruct (Nat.eqb_spec k 0) as [->|Hk0]; cbn [after].
    - apply scan_first. fold P. lia.
    - pose proof (scan_next ok nbuf (2 * k - 1) old) as X. fold P in X. replace (S (2 * k - 1)) with (2 * k) in X by lia. apply X. lia. }
  rewrite E1. cbn [after]. match goal with |- mkPair _ (py_get idx ?t) _ _ :: _ = _ => set (ip2' := t) end.
  assert (Eip : ip2' = Some (if S (2 * k) <? n then nth (S (2 * k)) P 0 else nth 0 P 0)).
  { unfold ip2'. destruct (Nat.odd n) eqn:O; cbn [negb].
    - apply Nat.odd_spec in O. destruct O as [h Hh]. destruct (Nat.ltb_spec k ((n + 1) / 2 - 1)) as [Hlt|Hge].
      + replace (S (2 * k) <? n) with true by (symmetry; apply Nat.ltb_lt; lia). apply walk_scan. intro old. apply scan_next. fold P. lia.
      + replace (S (2 * k) <? n) with false by (symmetry; apply Nat.ltb_ge; lia). apply walk_scan. intro old. apply scan_wrap. fold P. lia.
    - rewrite <- Nat.negb_even in O. apply negb_false_iff in O. apply Nat.even_spec in O. destruct O as [h Hh].
      replace (S (2 * k) <? n) with true by (symmetry; apply Nat.ltb_lt; lia). apply walk_scan. intro old. apply scan_next. fold P. lia. }
  rewrite Eip. f_equal.
  - unfold intra_pair_k, py_get. assert (XA : forall q, q < n -> nth (nth q P 0) idx 0 = nth q (map (fun j => nth j idx 0) P) 0).
    { intros q Hq. apply (A_nth dead start stop idx). fold ok nbuf P. lia. }
    fold ok nbuf P n. rewrite NP. f_equal.
    + apply XA. lia.
    + destruct (Nat.ltb_spec (S (2 * k)) n); apply XA; lia.
    + destruct (Nat.odd n), (k =? 0), (k =? (n + 1) / 2 - 1); reflexivity.
    + unfold intra_dt. replace (2 <=? n) with true by (symmetry; now apply Nat.leb_le). rewrite NP. reflexivity.
  - destruct m as [|m']; [reflexivity|]. apply IH; [lia|]. cbn [Nat.eqb]. replace (S (2 * k) <? n) with true by (symmetry; apply Nat.ltb_lt; lia). do 2 f_equal. lia.
Qed.
End Intra.

Section Inter.
Variables (deadA deadB : list bool) (startA stopA startB stopB : nat) (idx : list nat).
Hypothesis Hp : Permutation idx (seq startA (stopA - startA)).
Let okA := fun j => negb (is_dead_at deadA (nth j idx 0)).
Let okB := fun j => negb (is_dead_at deadB (startB + j)).
Let nbufA := stopA - startA.
Let nbufB := stopB - startB.
Let PA := filter okA (seq 0 nbufA).
Let PB := filter okB (seq 0 nbufB).
Let nA := live_count deadA startA stopA.
Let nB := live_count deadB startB stopB.
Hypothesis HB : 0 < nB.
Hypothesis HAB : nB <= nA.
Lemma cross_loop_char m : forall k ipA ipB, m + k = nA -> (k <> 0 -> ipA = Some (nth (k - 1) PA 0) /\ ipB = Some (nth ((k - 1) mod nB) PB 0)) -> (k = 0 -> ipA = None) ->
  cross_pairs deadA deadB idx startB nbufA nbufB nA nB m k ipA ipB = map (inter_pair_k deadA deadB startA stopA startB stopB idx) (seq k m).
Proof.
  induction m as [|m IH]; intros k ipA ipB Hk E2 E0; [reflexivity|]. cbn [cross_pairs seq map]. cbv zeta. fold okA okB.
  assert (LP : length PA = nA) by (apply P_length; exact Hp). pose proof (PB_length deadB startB stopB) as LPB. fold okB nbufB PB nB in LPB.
  assert (E1 : walk okA (range (after ipA) nbufA) ipA = Some (nth k PA 0)).
  { apply walk_scan. intro old. destruct (Nat.eq_dec k 0) as [->|Hk0].
    - rewrite (E0 eq_refl). apply scan_first. fold PA. lia.
    - destruct (E2 Hk0) as [-> _]. cbn [after]. pose proof (scan_next okA nbufA (k - 1) old) as X. fold PA in X. replace (S (k - 1)) with k in X by lia. apply X. lia. }
  rewrite E1. match goal with |- context [walk okB (range (after ?t mod nbufB) nbufB) ?t] => set (ipB0 := t) end.
  assert (EB : walk okB (range (after ipB0 mod nbufB) nbufB) ipB0 = Some (nth (k mod nB) PB 0)).
  { apply walk_scan. intro old. unfold ipB0. destruct (Nat.eqb_spec (k mod nB) 0) as [Hz|Hz].
    - rewrite Hz. cbn [after]. rewrite Nat.mod_0_l.
      + apply scan_first. fold PB. lia.
      + intro Hb. assert (X : PB = []) by (unfold PB; rewrite Hb; reflexivity). rewrite X in LPB. cbn in LPB. lia.
    - assert (Hk0 : k <> 0) by (intros ->; apply Hz; apply Nat.mod_0_l; lia). destruct (E2 Hk0) as [_ ->]. cbn [after].
      assert (M : k mod nB < nB) by (apply Nat.mod_upper_bound; lia).
      assert (M1 : (k - 1) mod nB = k mod nB - 1).
      { symmetry. apply (Nat.mod_unique (k - 1) nB (k / nB)); [lia|]. pose proof (Nat.div_mod k nB ltac:(lia)). lia. }
      rewrite M1. assert (S1 : S (k mod nB - 1) = k mod nB) by lia.
      pose proof (P_succ okB nbufB (k mod nB - 1)) as PS. fold PB in PS. rewrite S1 in PS. pose proof (P_pos_lt okB nbufB (k mod nB)) as PL. fold PB in PL.
      rewrite Nat.mod_small by lia. pose proof (scan_next okB nbufB (k mod nB - 1) old) as X. fold PB in X. rewrite S1 in X. apply X. lia. }
  rewrite EB. f_equal.
  - unfold inter_pair_k, inter_w, py_get. fold nA nB okA nbufA PA. f_equal.
    + apply (A_nth deadA startA stopA idx). fold okA nbufA PA. lia.
    + rewrite (LB_eq deadB startB stopB). fold okB nbufB PB. rewrite (nth_map _ _ _ 0); auto. rewrite LPB. apply Nat.mod_upper_bound; lia.
  - apply IH; [lia| |lia]. intros _. rewrite Nat.sub_succ, Nat.sub_0_r. auto.
Qed.
End Inter.

(** ** the same pairs, in the same order, with the same corrections of weight and time, for every shuffle *)
Theorem C143_same_species : forall dead start stop idx, Permutation idx (seq start (stop - start)) -> self_pairing dead start stop idx = intra_pairs dead start stop idx.
Proof.
  intros dead start stop idx Hp. unfold self_pairing. cbv zeta. destruct (Nat.ltb_spec (live_count dead start stop) 2) as [L|L].
  - unfold intra_pairs, intra_npairs. replace (2 <=? live_count dead start stop) with false by (symmetry; apply Nat.leb_gt; exact L). reflexivity.
  - rewrite (intra_pairs_eq dead start stop idx Hp L), (intra_npairs_eq dead start stop L). apply (self_loop_char dead start stop idx Hp L); [lia|reflexivity].
Qed.
Theorem C143_two_species : forall dead1 start1 stop1 dead2 start2 stop2 idx,
  let n1 := live_count dead1 start1 stop1 in let n2 := live_count dead2 start2 stop2 in
  Permutation idx (if n2 <=? n1 then seq start1 (stop1 - start1) else seq start2 (stop2 - start2)) ->
  pairing dead1 start1 stop1 dead2 start2 stop2 idx = inter_pairs dead1 start1 stop1 dead2 start2 stop2 idx.
Proof.
  intros dead1 start1 stop1 dead2 start2 stop2 idx n1 n2 Hp. unfold pairing, inter_pairs. fold n1 n2. cbv zeta.
  destruct (Nat.eqb_spec n1 0) as [|Z1]; [reflexivity|]. destruct (Nat.eqb_spec n2 0) as [|Z2]; [reflexivity|]. cbn [orb]. destruct (Nat.leb_spec n2 n1) as [L|L].
  - pose proof (inter_ab_eq dead1 dead2 start1 stop1 start2 stop2 idx Hp ltac:(fold n2; lia) ltac:(exact L)) as X. unfold inter_ab in X. fold n1 n2 in X. rewrite X.
    apply (cross_loop_char dead1 dead2 start1 stop1 start2 stop2 idx Hp); fold n1 n2; try lia; try reflexivity; intro Z; destruct (Z eq_refl).
  - f_equal. pose proof (inter_ab_eq dead2 dead1 start2 stop2 start1 stop1 idx Hp ltac:(fold n1; lia) ltac:(fold n1 n2; lia)) as X. unfold inter_ab in X. fold n1 n2 in X. rewrite X.
    apply (cross_loop_char dead2 dead1 start2 stop2 start1 stop1 idx Hp); fold n1 n2; try lia; try reflexivity; intro Z; destruct (Z eq_refl).
Qed.

(** three live particles of four slots; three against two *)
Example C143_case :
  map (fun p => (p_1 p, p_2 p)) (self_pairing [false; true; false; false] 0 4 [2; 1; 3; 0]) = [(2, 3); (0, 2)] /\
  map (fun p => (p_1 p, p_2 p)) (pairing [false; false] 0 2 [false; true; false; false] 0 4 [3; 1; 0; 2]) = [(0, 3); (1, 0); (0, 2)].
Proof. split; reflexivity. Qed.

Print Assumptions C143_same_species.
Print Assumptions C143_two_species.
Print Assumptions C143_case.
