(** Proofs about timer statistics. *)
From Verif Require Import Base M_Timer S_Timer.
From Coq Require Import String Ascii QArith Qround Qabs Lqa Permutation.
Local Open Scope list_scope.
Local Open Scope Z_scope.
Local Open Scope string_scope.

Lemma digit_ok d : 0 <= d < 10 -> digit_val (digit d) = Some d /\ is_digit (digit d) = true /\ is_num (digit d) = true /\ Ascii.eqb (digit d) "|" = false.
Proof. intro H. assert (d = 0 \/ d = 1 \/ d = 2 \/ d = 3 \/ d = 4 \/ d = 5 \/ d = 6 \/ d = 7 \/ d = 8 \/ d = 9) as C by lia. repeat destruct C as [->|C]; [..|subst d]; vm_compute; auto. Qed.
Lemma app_assoc_s a b c : (a ++ b) ++ c = a ++ (b ++ c).
Proof. induction a; cbn [append]; [reflexivity|]. now rewrite IHa. Qed.
Lemma app_nil_s a : a ++ "" = a.
Proof. induction a; cbn [append]; [reflexivity|]. now rewrite IHa. Qed.

Lemma dec_acc_app fuel n tail : dec_acc fuel n tail = dec_acc fuel n "" ++ tail.
Proof.
  revert n tail. induction fuel as [|f IH]; intros n tail; [reflexivity|]. cbn [dec_acc]. destruct (n <? 10)%Z; [reflexivity|].
  rewrite IH. rewrite (IH _ (String _ "")). rewrite app_assoc_s. reflexivity.
Qed.
Lemma dec_acc_chars (P : ascii -> Prop) fuel n tail : 0 <= n -> (forall d, 0 <= d < 10 -> P (digit d)) -> (forall c, In c (chars tail) -> P c) -> forall c, In c (chars (dec_acc fuel n tail)) -> P c.
Proof.
  intros Hn D. revert n tail Hn. induction fuel as [|f IH]; intros n tail Hn T c; cbn [dec_acc]; [apply T|].
  assert (forall c, In c (chars (String (digit (n mod 10)) tail)) -> P c) as T' by (cbn [chars]; intros c' [<-|I]; [apply D; lia|auto]).
  destruct (n <? 10)%Z; [apply T'|]. apply IH; [lia|exact T'].
Qed.
Lemma dec_acc_ne fuel n tail : dec_acc (S fuel) n tail <> "" .
Proof. revert n tail. induction fuel as [|f IH]; intros n tail; cbn [dec_acc]; [destruct (n <? 10)%Z; discriminate|]. destruct (n <? 10)%Z; [discriminate|]. apply (IH (n / 10)). Qed.

Lemma span_all f s tail : (forall c, In c (chars s) -> f c = true) -> span f (s ++ tail) = (s ++ fst (span f tail), snd (span f tail)).
Proof.
  induction s as [|c s IH]; intro H; cbn [append]; [destruct (span f tail); reflexivity|]. cbn [span]. rewrite (H c) by (left; reflexivity).
  rewrite IH by (intros c' I; apply H; right; exact I). reflexivity.
Qed.

(** digits *)
Lemma to_float_dec fuel n tail acc some : 0 <= n < 10 ^ Z.of_nat fuel -> (0 < fuel)%nat -> exists k, 0 <= k /\ to_float (dec_acc fuel n tail) acc None some = to_float tail (acc * 10 ^ k + n) None true.
Proof.
  revert n tail acc some. induction fuel as [|f IH]; intros n tail acc some H Hf; [lia|]. cbn [dec_acc]. destruct (n <? 10)%Z eqn:E.
  - exists 1. split; [lia|]. cbn [to_float]. assert (0 <= n mod 10 < 10) as M by lia. destruct (digit_ok _ M) as [-> _]. cbn [option_map]. f_equal. rewrite Z.mod_small by lia. lia.
  - assert (10 ^ Z.of_nat (S f) = 10 * 10 ^ Z.of_nat f) as P by (rewrite Nat2Z.inj_succ, Z.pow_succ_r by lia; reflexivity).
    assert (0 < f)%nat as F. { destruct f; [|lia]. cbn in H. lia. }
    destruct (IH (n / 10) (String (digit (n mod 10)) tail) acc some) as (k & K & R); [rewrite P in H; clear P IH; lia|exact F|].
    exists (k + 1). split; [lia|]. rewrite R. cbn [to_float]. assert (0 <= n mod 10 < 10) as M by lia. destruct (digit_ok _ M) as [-> _]. cbn [option_map]. f_equal.
    rewrite Z.pow_add_r by lia. change (10 ^ 1) with 10. pose proof (Z.div_mod n 10 ltac:(lia)) as D. clear - D. nia.
Qed.
Lemma log2_fuel n : 0 <= n -> 0 <= n < 10 ^ Z.of_nat (S (Z.to_nat (Z.log2 n))).
Proof.
  intro H. split; [exact H|]. pose proof (Z.log2_nonneg n) as L. assert (Z.of_nat (S (Z.to_nat (Z.log2 n))) = Z.succ (Z.log2 n)) as -> by lia.
  assert (n < 2 ^ Z.succ (Z.log2 n)) as A. { destruct (Z.eq_dec n 0) as [->|N]; [reflexivity|]. apply Z.log2_spec. lia. }
  eapply Z.lt_le_trans; [exact A|]. apply Z.pow_le_mono_l. lia.
Qed.
Lemma to_float_shown n : 0 <= n -> exists q, to_float (shown n "") 0 None false = Some q /\ (q == n # 10)%Q.
Proof.
  intro H. unfold shown, dec. assert (0 <= n / 10) as H0 by lia.
  destruct (to_float_dec (S (Z.to_nat (Z.log2 (n / 10)))) (n / 10) (String "." (String (digit (n mod 10)) "")) 0 false (log2_fuel _ H0) ltac:(lia)) as (k & _ & R).
  rewrite R. cbn [to_float]. assert (0 <= n mod 10 < 10) as M by lia. destruct (digit_ok _ M) as [E _]. rewrite E.
  change (digit_val ".") with (@None Z). cbn [option_map]. eexists. split; [reflexivity|].
  assert (10 * (0 * 10 ^ k + n / 10) + n mod 10 = n) as -> by (pose proof (Z.div_mod n 10 ltac:(lia)); lia). reflexivity.
Qed.

(** the pattern *)
Lemma has_prefix_app p s : has_prefix p (p ++ s) = Some s.
Proof. induction p as [|c p IH]; cbn [append has_prefix]; [reflexivity|]. rewrite Ascii.eqb_refl. exact IH. Qed.
Lemma has_prefix_some p s r : has_prefix p s = Some r -> s = p ++ r.
Proof.
  revert s. induction p as [|c p IH]; intros [|d s] H; cbn [has_prefix append] in *; try discriminate; try congruence.
  destruct (Ascii.eqb c d) eqn:E; [|discriminate]. apply Ascii.eqb_eq in E. subst d. f_equal. apply IH. exact H.
Qed.
Lemma match_number_shown n : 0 <= n -> match_number (shown n "ms") = Some (shown n "").
Proof.
  intro H. assert (shown n "ms" = shown n "" ++ "ms") as E.
  { unfold shown, dec. rewrite dec_acc_app. rewrite (dec_acc_app _ _ (String "." (String _ ""))). rewrite app_assoc_s. reflexivity. }
  unfold match_number. rewrite E, span_all.
  - cbn [span is_num]. change (is_num "m") with false. cbn [fst snd]. rewrite app_nil_s. destruct (shown n "" =? "") eqn:N.
    + apply String.eqb_eq in N. unfold shown, dec in N. exfalso. exact (dec_acc_ne _ _ _ N).
    + reflexivity.
  - intros c. unfold shown, dec. apply (dec_acc_chars (fun c => is_num c = true)); [lia|intros d D; apply digit_ok; exact D|]. cbn [chars]. intros c' [<-|[<-|[]]]; [reflexivity|]. apply digit_ok. lia.
Qed.
Lemma shown_head n tail : 0 <= n -> exists c t, shown n tail = String c t /\ is_digit c = true.
Proof.
  intro H. unfold shown, dec. generalize (String "." (String (digit (n mod 10)) tail)) as s. generalize (Z.to_nat (Z.log2 (n / 10))) as f. assert (0 <= n / 10) as H0 by lia. clear H. revert H0. generalize (n / 10) as m.
  intros m Hm f. revert m Hm. induction f as [|f IH]; intros m Hm s.
  - cbn [dec_acc]. destruct (m <? 10)%Z; eexists; eexists; (split; [reflexivity|apply digit_ok; lia]).
  - change (dec_acc (S (S f)) m s) with (if (m <? 10)%Z then String (digit (m mod 10)) s else dec_acc (S f) (m / 10) (String (digit (m mod 10)) s)).
    destruct (m <? 10)%Z; [eexists; eexists; split; [reflexivity|apply digit_ok; lia]|]. apply IH. lia.
Qed.
Lemma no_match s c t : s <> "" -> ~ (exists a b, s = a ++ " took " ++ b) -> is_digit c = true -> match_time (s ++ " took " ++ String c t) = None.
Proof.
  intros Hs N D. unfold match_time. destruct (has_prefix " took " (s ++ " took " ++ String c t)) as [r|] eqn:E; [|reflexivity].
  assert (s = " took" \/ exists b, s = " took " ++ b) as [->|[b ->]].
  - destruct s as [|c0 s]; [contradiction|]. clear N Hs D.
    do 5 (destruct s as [|? s]; [cbn [append has_prefix] in E; repeat match type of E with context [Ascii.eqb ?a ?b] => let H := fresh in destruct (Ascii.eqb a b) eqn:H; [|discriminate E]; apply Ascii.eqb_eq in H; subst end; try discriminate; auto|]).
    right. cbn [append has_prefix] in E. repeat match type of E with context [Ascii.eqb ?a ?b] => let H := fresh in destruct (Ascii.eqb a b) eqn:H; [|discriminate E]; apply Ascii.eqb_eq in H; subst end. exists s. reflexivity.
  - cbn in E. inversion E; subst r. reflexivity.
  - exfalso. apply N. exists "", b. reflexivity.
Qed.
Lemma match_category_plain s c t d : (forall x, In x (chars s) -> x <> "010"%char) -> ~ (exists a b, s = a ++ " took " ++ b) -> is_digit c = true -> match_number (String c t) = Some d -> match_category (s ++ " took " ++ String c t) = Some (s, d).
Proof.
  intros L N D M. induction s as [|x s IH].
  - cbn [append]. unfold match_category. unfold match_time. cbn [has_prefix]. repeat rewrite Ascii.eqb_refl. rewrite M. reflexivity.
  - assert (match_time (String x s ++ " took " ++ String c t) = None) as E by (apply no_match; [discriminate|exact N|exact D]).
    change (String x s ++ " took " ++ String c t) with (String x (s ++ " took " ++ String c t)) in E |- *. cbn [match_category]. rewrite E.
    destruct (Ascii.eqb x "010") eqn:X; [apply Ascii.eqb_eq in X; exfalso; apply (L x); [left; reflexivity|exact X]|].
    rewrite IH; [reflexivity|intros y I; apply L; right; exact I|]. intros (a & b & H). apply N. exists (String x a), b. rewrite H. reflexivity.
Qed.
Lemma match_here_message t n : 0 <= t_rank t -> (0 <= t_time t)%Q -> t_unit t = Ms -> t_name t = Some n -> plain n -> match_here (message t) = Some (n, shown (tenths (t_time t)) "").
Proof.
  intros R T U E (NE & CH & NT). unfold match_here, message. rewrite has_prefix_app. rewrite E, U. apply String.eqb_neq in NE. rewrite NE. cbn [suffix].
  unfold dec at 1. rewrite dec_acc_app. rewrite span_all.
  - change (" " ++ n ++ " took ") with (String " " (n ++ " took ")). cbn [append span]. change (is_digit " ") with false. cbn [fst snd]. rewrite app_nil_s.
    match goal with |- context [dec_acc ?f ?m "" =? ""] => destruct (dec_acc f m "" =? "") eqn:Q end; [apply String.eqb_eq in Q; exfalso; exact (dec_acc_ne _ _ _ Q)|].
    cbn [has_prefix]. rewrite Ascii.eqb_refl. rewrite app_assoc_s.
    assert (0 <= tenths (t_time t)) as P. { unfold tenths. apply (Qfloor_resp_le 0). lra. }
    pose proof (match_number_shown _ P) as M. destruct (shown_head _ "ms" P) as (c & tl & S0 & D). rewrite S0 in M |- *. apply match_category_plain; auto. intros x I. apply CH. exact I.
  - intros c. apply (dec_acc_chars (fun c => is_digit c = true)); [exact R|intros d D; apply digit_ok; exact D|intros ? []].
Qed.

Lemma nobar_last best s : (forall c, In c (chars s) -> c <> "|"%char) -> last_part best s = best.
Proof. induction s as [|c s IH]; intro H; cbn [last_part]; [reflexivity|]. destruct (Ascii.eqb c "|") eqn:E; [apply Ascii.eqb_eq in E; exfalso; apply (H c); [left; reflexivity|exact E]|]. apply IH. intros x I. apply H. right. exact I. Qed.
Lemma last_part_bar best a s : (forall c, In c (chars s) -> c <> "|"%char) -> last_part best (a ++ "|" ++ s) = s.
Proof.
  intro H. revert best. induction a as [|c a IH]; intro best; cbn [append last_part].
  - rewrite Ascii.eqb_refl. apply nobar_last. exact H.
  - destruct (Ascii.eqb c "|"); apply IH.
Qed.
Lemma chars_app a b : chars (a ++ b) = (chars a ++ chars b)%list.
Proof. induction a as [|c a IH]; cbn [append chars]; [reflexivity|]. now rewrite IH. Qed.
Lemma contains_app p a b : contains p (a ++ p ++ b) = true.
Proof.
  induction a as [|c a IH]; cbn [append].
  - destruct p as [|c p]; [destruct b; reflexivity|]. change (String c p ++ b) with (String c (p ++ b)). cbn [contains]. change (String c (p ++ b)) with (String c p ++ b). rewrite has_prefix_app. reflexivity.
  - cbn [contains]. rewrite IH. destruct (has_prefix p (String c (a ++ p ++ b))); reflexivity.
Qed.
Lemma digit_nobar d : 0 <= d < 10 -> digit d <> "|"%char.
Proof. intro D. destruct (digit_ok d D) as (_ & _ & _ & E). intro H. rewrite H in E. discriminate. Qed.
Lemma message_nobar t n : 0 <= t_rank t -> (0 <= t_time t)%Q -> t_name t = Some n -> plain n -> forall c, In c (chars (message t)) -> c <> "|"%char.
Proof.
  intros R T E (NE & CH & NT) c. unfold message. rewrite E. apply String.eqb_neq in NE. rewrite NE. rewrite chars_app, in_app_iff. intros [I|I].
  - cbn in I. repeat destruct I as [<-|I]; try discriminate. contradiction.
  - revert c I. unfold dec at 1. apply (dec_acc_chars (fun c => c <> "|"%char)); [exact R|exact digit_nobar|]. intros c. change (" " ++ n ++ " took ") with (String " " (n ++ " took ")). cbn [append chars In].
    rewrite chars_app, chars_app, !in_app_iff. assert (0 <= tenths (t_time t)) as P. { unfold tenths. apply (Qfloor_resp_le 0). lra. }
    intros [<-|[[I|I]|I]]; [discriminate|apply CH in I; tauto|cbn in I; repeat destruct I as [<-|I]; try discriminate; contradiction|].
    revert c I. unfold shown, dec. apply (dec_acc_chars (fun c => c <> "|"%char)); [lia|exact digit_nobar|]. cbn [chars]. intros c [<-|[<-|I]]; [discriminate|apply digit_nobar; lia|].
    destruct (t_unit t); cbn in I; repeat destruct I as [<-|I]; try discriminate; contradiction.
Qed.
Lemma line_found stamp t n : 0 <= t_rank t -> (0 <= t_time t)%Q -> t_unit t = Ms -> t_name t = Some n -> plain n ->
  contains "TIMER" (line stamp t) = true /\ search (last_part (line stamp t) (line stamp t)) = Some (n, shown (tenths (t_time t)) "").
Proof.
  intros R T U E P. assert (line stamp t = (stamp ++ " | TIMER    ") ++ "|" ++ (" " ++ message t)) as L by (unfold line; rewrite app_assoc_s; reflexivity). split.
  - rewrite L. assert ((stamp ++ " | TIMER    ") ++ "|" ++ (" " ++ message t) = (stamp ++ " | ") ++ "TIMER" ++ ("    | " ++ message t)) as -> by (rewrite !app_assoc_s; reflexivity). apply contains_app.
  - rewrite L at 2. rewrite last_part_bar.
    + change (" " ++ message t) with (String " " (message t)). cbn [search]. change (match_here (String " " (message t))) with (@None (string * string)).
      pose proof (match_here_message t n R T U E P) as M. destruct (message t); cbn [search]; rewrite M; reflexivity.
    + change (" " ++ message t) with (String " " (message t)). cbn [chars]. intros c [<-|I]; [discriminate|]. eapply message_nobar; eauto.
Qed.

(** the table *)
Lemma find_tally c x t c' : find (fun e => fst e =? c') (tally c x t) =
  if c =? c' then Some (match find (fun e => fst e =? c) t with Some (k, (s, n)) => (k, ((s + x)%Q, n + 1)%Z) | None => (c, (x, 1)) end) else find (fun e => fst e =? c') t.
Proof.
  induction t as [|[k [s n]] t IH]; cbn [tally find fst].
  - destruct (c =? c'); reflexivity.
  - destruct (k =? c) eqn:E.
    + apply String.eqb_eq in E. subst k. cbn [find fst]. destruct (c =? c'); reflexivity.
    + cbn [find fst]. destruct (k =? c') eqn:E'; [|exact IH]. apply String.eqb_eq in E'. subst k. rewrite String.eqb_sym, E. reflexivity.
Qed.
Lemma time_tally c x t c' : (time_of c' (tally c x t) == time_of c' t + (if c =? c' then x else 0))%Q.
Proof.
  unfold time_of. rewrite find_tally. destruct (c =? c') eqn:E; [|rewrite Qplus_0_r; reflexivity]. apply String.eqb_eq in E. subst c'.
  destruct (find (fun e => fst e =? c) t) as [[k [s n]]|]; [reflexivity|]. rewrite Qplus_0_l. reflexivity.
Qed.
Lemma count_tally c x t c' : count_of c' (tally c x t) = count_of c' t + (if c =? c' then 1 else 0).
Proof.
  unfold count_of. rewrite find_tally. destruct (c =? c') eqn:E; [|lia]. apply String.eqb_eq in E. subst c'.
  destruct (find (fun e => fst e =? c) t) as [[k [s n]]|]; lia.
Qed.

Definition shown_of (t : timing) : Q := tenths (t_time t) # 10.
Lemma parse_all stamp ts : Forall ordinary ts -> forall tab, exists tab', parse (map (line stamp) (filter is_logged ts)) tab = Some tab' /\
  forall c, (time_of c tab' == time_of c tab + sum (map shown_of (filter (named c) (filter is_logged ts))))%Q /\ count_of c tab' = count_of c tab + events c (filter is_logged ts).
Proof.
  induction 1 as [|t ts (R & T & U & n & E & P) _ IH]; intro tab; cbn [filter].
  - exists tab. split; [reflexivity|]. intro c. unfold events. cbn. split; [lra|lia].
  - destruct (is_logged t); [|apply IH]. cbn [map parse]. destruct (line_found stamp t n R T U E P) as [-> ->].
    assert (0 <= tenths (t_time t)) as Pt. { unfold tenths. apply (Qfloor_resp_le 0). lra. }
    destruct (to_float_shown _ Pt) as (q & -> & Eq). destruct (IH (tally n q tab)) as (tab' & -> & H). exists tab'. split; [reflexivity|]. intro c. destruct (H c) as [H1 H2].
    rewrite H1, H2, time_tally, count_tally. unfold events. cbn [filter]. assert (named c t = (n =? c)) as -> by (unfold named; rewrite E; reflexivity). fold (shown_of t) in Eq. destruct (n =? c); cbn [map List.length].
    + split; [|lia]. rewrite Eq. unfold sum. cbn [fold_right]. ring.
    + split; [ring|lia].
Qed.

(** rounding *)
Lemma shown_close t : (Qabs (shown_of t - t_time t) <= 1 # 20)%Q.
Proof.
  unfold shown_of, tenths. pose proof (Qfloor_le (10 * t_time t + (1 # 2))) as A. pose proof (Qlt_floor (10 * t_time t + (1 # 2))) as B.
  set (k := Qfloor (10 * t_time t + (1 # 2))) in *. assert ((k # 10) == inject_Z k * (1 # 10))%Q as -> by (unfold Qeq, inject_Z; cbn; lia).
  rewrite inject_Z_plus in B. change (inject_Z 1) with 1%Q in B. apply Qabs_case; intros; lra.
Qed.
Lemma error_bound c ts : Forall (fun t => (0 <= t_time t)%Q) ts -> (Qabs (sum (map shown_of (filter (named c) (filter is_logged ts))) - measured c ts) <= inject_Z (events c ts) * (1 # 10))%Q.
Proof.
  unfold measured, events. induction 1 as [|t ts Ht _ IH]; [vm_compute; discriminate|]. cbn [filter]. destruct (named c t) eqn:N.
  - cbn [map sum fold_right List.length]. fold (sum (map t_time (filter (named c) ts))). rewrite Nat2Z.inj_succ. unfold Z.succ. rewrite inject_Z_plus. change (inject_Z 1) with 1%Q.
    set (r := sum (map t_time (filter (named c) ts))) in *. destruct (is_logged t) eqn:L.
    + cbn [filter]. rewrite N. cbn [map]. change (sum (shown_of t :: map shown_of (filter (named c) (filter is_logged ts)))) with (shown_of t + sum (map shown_of (filter (named c) (filter is_logged ts))))%Q.
      set (s := sum (map shown_of (filter (named c) (filter is_logged ts)))) in *. pose proof (shown_close t) as C.
      apply Qabs_Qle_condition in IH. apply Qabs_Qle_condition in C. apply Qabs_Qle_condition. lra.
    + set (s := sum (map shown_of (filter (named c) (filter is_logged ts)))) in *. unfold is_logged in L. apply negb_false_iff, Qle_bool_iff in L.
      apply Qabs_Qle_condition in IH. apply Qabs_Qle_condition. lra.
  - destruct (is_logged t); [cbn [filter]; rewrite N|]; exact IH.
Qed.

(** percentages *)
Lemma sum_pct (t : table) (T : Q) : ~ (T == 0)%Q -> (sum (map (fun e => fst (snd e) / T * 100) t) == total t / T * 100)%Q.
Proof.
  intro H. induction t as [|e t IH]; [unfold sum, total; cbn [map fold_right]; field; exact H|].
  change (fst (snd e) / T * 100 + sum (map (fun e => fst (snd e) / T * 100) t) == (fst (snd e) + total t) / T * 100)%Q. rewrite IH. field. exact H.
Qed.
Lemma rows_pct t : (0 < total t)%Q -> (sum (map (fun r => fst (snd r)) (rows t)) == 100)%Q.
Proof.
  intro H. unfold rows. rewrite map_map. cbn [fst snd]. assert (Qle_bool (total t) 0 = false) as ->. { destruct (Qle_bool (total t) 0) eqn:E; [|reflexivity]. apply Qle_bool_iff in E. lra. }
  cbn [negb]. rewrite sum_pct by lra. field. lra.
Qed.
Lemma parse_counts lines : forall t t', Forall (fun e => 1 <= snd (snd e)) t -> parse lines t = Some t' -> Forall (fun e => 1 <= snd (snd e)) t'.
Proof.
  assert (forall c x t, Forall (fun e : string * (Q * Z) => 1 <= snd (snd e)) t -> Forall (fun e => 1 <= snd (snd e)) (tally c x t)) as K.
  { intros c x t. induction 1 as [|[k [s n]] t H F IH]; cbn [tally]; [repeat constructor; cbn; lia|]. destruct (k =? c); constructor; cbn [fst snd] in *; auto; lia. }
  induction lines as [|l ls IH]; intros t t' H E; cbn [parse] in E; [congruence|]. destruct (contains "TIMER" l); [|eauto].
  destruct (search (last_part l l)) as [[c d]|]; [|eauto]. destruct (to_float d 0 None false); [|discriminate]. eapply IH; [|exact E]. apply K. exact H.
Qed.
Lemma parse_keys lines : forall t t', NoDup (map fst t) -> parse lines t = Some t' -> NoDup (map fst t').
Proof.
  assert (forall c x t k, In k (map fst (tally c x t)) -> k = c \/ In k (map fst t)) as A.
  { intros c x t k. induction t as [|[k' [s n]] t IH]; cbn [tally map fst In]; [intuition|]. destruct (k' =? c); cbn [map fst In]; intuition. }
  assert (forall c x t, NoDup (map fst t) -> NoDup (map fst (tally c x t))) as K.
  { intros c x t. induction t as [|[k [s n]] t IH]; intro N; cbn [tally map fst] in *; [repeat constructor; intros []|]. inversion N; subst. destruct (k =? c) eqn:E; cbn [map fst]; constructor; auto.
    intro I. apply A in I as [->|I]; [rewrite String.eqb_refl in E; discriminate|contradiction]. }
  induction lines as [|l ls IH]; intros t t' H E; cbn [parse] in E; [congruence|]. destruct (contains "TIMER" l); [|eauto].
  destruct (search (last_part l l)) as [[c d]|]; [|eauto]. destruct (to_float d 0 None false); [|discriminate]. eapply IH; [|exact E]. apply K. exact H.
Qed.
Lemma row_of lines t c p a : parse lines [] = Some t -> In (c, (p, a)) (rows t) -> (a * inject_Z (count_of c t) == time_of c t)%Q /\ ((0 < total t)%Q -> (p * total t == 100 * time_of c t)%Q).
Proof.
  intros E I. pose proof (parse_counts _ _ _ (Forall_nil _) E) as N. assert (NoDup (map fst t)) as D by (eapply parse_keys; [|exact E]; constructor).
  unfold rows in I. apply in_map_iff in I as ([k [x n]] & H & I). cbn [fst snd] in H. inversion H; subst; clear H.
  assert (find (fun e => fst e =? c) t = Some (c, (x, n))) as F.
  { clear - D I. induction t as [|[k v] t IH]; [contradiction|]. cbn [find fst map] in *. inversion D; subst. destruct I as [H|I].
    - inversion H; subst. rewrite String.eqb_refl. reflexivity.
    - destruct (k =? c) eqn:Q; [apply String.eqb_eq in Q; subst; exfalso; apply H1; apply (in_map fst) in I; exact I|auto]. }
  unfold time_of, count_of. rewrite F. rewrite Forall_forall in N. specialize (N _ I). cbn [snd] in N. assert (0 <? n = true)%Z as -> by lia. split.
  - field. intro Z0. unfold Qeq, inject_Z in Z0. cbn in Z0. lia.
  - intro P. assert (Qle_bool (total t) 0 = false) as ->. { destruct (Qle_bool (total t) 0) eqn:Q; [|reflexivity]. apply Qle_bool_iff in Q. lra. }
    cbn [negb]. field. lra.
Qed.
Lemma log_fold f stamp tr runs : forall w ts0, w_cfg w = mkCfg (Some f) tr true -> w_files w f = Some (map (line stamp) (filter is_logged ts0)) ->
  let w' := fold_left (fun w ts => run_timers stamp ts w) runs w in w_cfg w' = mkCfg (Some f) tr true /\ w_files w' f = Some (map (line stamp) (filter is_logged (ts0 ++ List.concat runs)%list)).
Proof.
  induction runs as [|ts runs IH]; intros w0 ts0 E F; cbn [fold_left List.concat]; [rewrite app_nil_r; auto|]. rewrite app_assoc. apply IH.
  - unfold run_timers. rewrite E. exact E || reflexivity.
  - unfold run_timers. rewrite E. cbn [c_file c_timer w_files]. unfold upd_file. rewrite String.eqb_refl, F, filter_app, map_app. reflexivity.
Qed.
Lemma log_content f stamp w runs : w_cfg (log_of f stamp w runs) = mkCfg (Some f) true true /\ w_files (log_of f stamp w runs) f = Some (map (line stamp) (filter is_logged (List.concat runs))).
Proof.
  apply (log_fold f stamp true runs _ []); unfold construct; cbn [c_file c_timer c_truncate w_cfg w_files]; [reflexivity|]. unfold upd_file. rewrite String.eqb_refl. reflexivity.
Qed.
Lemma log_appended f stamp w runs runs2 : w_files (appended_to f stamp (log_of f stamp w runs) runs2) f = Some (map (line stamp) (filter is_logged (List.concat (runs ++ runs2)%list))).
Proof.
  rewrite concat_app. apply (log_fold f stamp false runs2); unfold construct; cbn [c_file c_timer c_truncate w_cfg w_files]; [reflexivity|]. unfold upd_file. rewrite String.eqb_refl. destruct (log_content f stamp w runs) as [_ ->]. reflexivity.
Qed.
