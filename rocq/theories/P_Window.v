(** Proofs for C38, C65, C66. *)
From Verif Require Import Base M_Window S_Window.
From Coq Require Import QArith Lqa.
Local Open Scope nat_scope.
Local Open Scope list_scope.

Section Window.
Context {F P : Type}.
Variables (zero : F) (npx : nat) (plx lx dt start : Q) (velocity : Q -> Q) (inject : bool) (stop : option Q)
          (has_density : nat -> bool) (fill : nat -> Q -> nat * nat -> P).
Hypothesis npx_pos : 0 < npx.
Hypothesis plx_pos : (0 < plx)%Q.
Hypothesis lx_eq : (lx == inject_Z (Z.of_nat npx) * plx)%Q.
Notation call := (call F P zero npx plx lx dt start velocity inject stop has_density fill).
Notation calls := (calls F P zero npx plx lx dt start velocity inject stop has_density fill).
Notation right_one := (right_one F P npx lx).
Notation left_one := (left_one F P npx lx).
Notation renew := (renew F P zero inject stop has_density fill).
Notation injecting := (injecting inject stop).
Notation injected t := (fun s => injecting t && has_density s = true).
Notation patch := (patch F P).

Lemma Forall2_map {A B} (R : A -> B -> Prop) (f : A -> B) l : (forall a, R a (f a)) -> Forall2 R l (map f l).
Proof. intro H. induction l as [|a l IH]; cbn [map]; constructor; auto. Qed.
Lemma renew_right t p : one_call npx lx zero (injected t) fill 1 p (renew t (right_one p)).
Proof.
  unfold one_call, recycled, M_Window.right_one, M_Window.renew, reset_one, fill_one.
  destruct (Nat.eqb_spec (ipx p) 0) as [E|E]; cbn [Z.eqb Pos.eqb andb orb].
  - destruct (injecting t); cbn [idx row x0 fields psi parts ipx andb].
    + split; [reflexivity|]. split; [reflexivity|]. split; [reflexivity|]. split; [unfold inject_Z; lra|]. split; [reflexivity|]. split; [reflexivity|].
      intros s ->. reflexivity.
    + split; [reflexivity|]. split; [reflexivity|]. split; [reflexivity|]. split; [unfold inject_Z; lra|]. split; [reflexivity|]. split; [reflexivity|].
      intros s H; discriminate H.
  - cbn [idx row x0 fields psi parts ipx]. split; [reflexivity|]. split; [reflexivity|]. split; [reflexivity|]. split; [reflexivity|].
    split; [reflexivity|]. split; [reflexivity|]. lia.
Qed.
Lemma renew_left t p : one_call npx lx zero (injected t) fill (-1) p (renew t (left_one p)).
Proof.
  unfold one_call, recycled, M_Window.left_one, M_Window.renew, reset_one, fill_one.
  destruct (Nat.eqb_spec (ipx p) (npx - 1)) as [E|E]; cbn [Z.eqb Pos.eqb andb orb].
  - destruct (injecting t); cbn [idx row x0 fields psi parts ipx andb].
    + split; [reflexivity|]. split; [reflexivity|]. split; [reflexivity|]. split; [unfold inject_Z; lra|]. split; [reflexivity|]. split; [reflexivity|].
      intros s ->. reflexivity.
    + split; [reflexivity|]. split; [reflexivity|]. split; [reflexivity|]. split; [unfold inject_Z; lra|]. split; [reflexivity|]. split; [reflexivity|].
      intros s H; discriminate H.
  - cbn [idx row x0 fields psi parts ipx]. split; [reflexivity|]. split; [reflexivity|]. split; [reflexivity|]. split; [reflexivity|].
    split; [reflexivity|]. split; [reflexivity|]. lia.
Qed.
Lemma stay (t : Q) p p' : idx p' = idx p -> row p' = row p -> x0 p' = x0 p -> fields p' = fields p -> psi p' = psi p ->
  parts p' = parts p -> ipx p' = ipx p -> one_call npx lx zero (injected t) fill 0 p p'.
Proof.
  intros H1 H2 H3 H4 H5 H6 H7. unfold one_call, recycled. cbn [Z.eqb andb orb].
  split; [exact H1|]. split; [exact H2|]. split; [exact H3|]. split; [exact H4|]. split; [exact H5|].
  split; [intro s; rewrite H6; reflexivity|]. lia.
Qed.
Lemma one_call_pml t d p p' : one_call npx lx zero (injected t) fill d (clear_pmlx F P p) p' ->
  one_call npx lx zero (injected t) fill d p p'.
Proof. intro H; exact H. Qed.

Lemma injecting_iff t : injecting t = true <-> injection_on inject stop t.
Proof.
  unfold M_Window.injecting, injection_on. destruct inject; [|split; [discriminate|intros [H _]; discriminate]].
  cbn [andb]. destruct stop as [s|]; [|split; [intro; split; [reflexivity|discriminate]|reflexivity]].
  unfold qltb. split.
  - intro H. split; [reflexivity|]. intros s' [= <-]. apply Qnot_le_lt. intro K. apply Qle_bool_iff in K. rewrite K in H. discriminate.
  - intros [_ H]. specialize (H s eq_refl). destruct (Qle_bool s t) eqn:E; [|reflexivity]. apply Qle_bool_iff in E. lra.
Qed.
Lemma injected_on t d ps ps' : Forall2 (one_call npx lx zero (injected t) fill d) ps ps' ->
  Forall2 (one_call npx lx zero (fun s => injection_on inject stop t /\ has_density s = true) fill d) ps ps'.
Proof.
  induction 1 as [|p p' l l' H _ IH]; constructor; [|exact IH]. destruct H as [H1 [H2 H3]]. split; [exact H1|]. split; [exact H2|].
  destruct (recycled npx d p); [|exact H3]. destruct H3 as [K1 [K2 [K3 [K4 K5]]]].
  split; [exact K1|]. split; [exact K2|]. split; [exact K3|]. split; [exact K4|]. intros s [J1 J2]. apply K5.
  apply injecting_iff in J1. rewrite J1, J2. reflexivity.
Qed.
Lemma not_injected t s : ~ (injection_on inject stop t /\ has_density s = true) -> injecting t && has_density s = false.
Proof.
  intro H. destruct (injecting t && has_density s) eqn:E; [|reflexivity]. exfalso. apply H. apply andb_prop in E. destruct E as [E1 E2].
  split; [apply injecting_iff; exact E1|exact E2].
Qed.

(** which way a call moves the window *)
Definition pend (w : win) : Q := match pts w with Some x => x | None => plx end.
Definition direction (t : Q) (w : win) : Z :=
  if qltb t start then 0
  else if Qle_bool plx (pend w + velocity t * dt) then 1
  else if Qle_bool (pend w + velocity t * dt) (- plx) then -1 else 0.
Lemma call_patches t w ps : Forall2 (one_call npx lx zero (injected t) fill (direction t w)) ps (snd (call t w ps)).
Proof.
  unfold direction, M_Window.call. fold (pend w). destruct (qltb t start).
  { cbn [snd]. rewrite <- (map_id ps) at 2. apply Forall2_map. intro p. apply stay; reflexivity. }
  destruct (Qle_bool plx (pend w + velocity t * dt)); cbn [snd].
  { destruct (M_Window.num w =? 0); [rewrite map_map|]; apply Forall2_map; intro p; [apply one_call_pml|]; apply renew_right. }
  destruct (Qle_bool (pend w + velocity t * dt) (- plx)); cbn [snd].
  { destruct (M_Window.num w =? 0); [rewrite map_map|]; apply Forall2_map; intro p; [apply one_call_pml|]; apply renew_left. }
  destruct (M_Window.num w =? 0); [|rewrite <- (map_id ps) at 2]; apply Forall2_map; intro p; apply stay; reflexivity.
Qed.
Definition amount (t : Q) : Q := if Qle_bool start t then (velocity t * dt)%Q else 0%Q.
Lemma call_pend t w ps : (pend (fst (call t w ps)) == pend w + amount t - inject_Z (direction t w) * plx)%Q.
Proof.
  unfold direction, amount, M_Window.call. fold (pend w). unfold qltb. destruct (Qle_bool start t); cbn [negb].
  2:{ cbn [fst]. unfold pend at 1; cbn [pts]. unfold inject_Z. lra. }
  destruct (Qle_bool plx (pend w + velocity t * dt)); cbn [fst]; [unfold pend at 1; cbn [pts]; unfold inject_Z; lra|].
  destruct (Qle_bool (pend w + velocity t * dt) (- plx)); cbn [fst]; unfold pend at 1; cbn [pts]; unfold inject_Z; lra.
Qed.

(** the arrangement *)
Variable rows : list (nat * nat).
Definition coord (p : patch) : nat * (nat * nat) := (ipx p, row p).
(** coordinate of a patch after a move *)
Definition turn (d : Z) (a : nat) : nat := Z.to_nat ((Z.of_nat a - d) mod Z.of_nat npx).
Lemma turn_range d a : turn d a < npx.
Proof. unfold turn. pose proof (Z.mod_pos_bound (Z.of_nat a - d) (Z.of_nat npx)). lia. Qed.
Lemma turn_inv d a : a < npx -> turn (- d) (turn d a) = a.
Proof.
  intro H. unfold turn. rewrite Z2Nat.id by (apply Z.mod_pos_bound; lia).
  rewrite <- Zminus_mod_idemp_l, Z.mod_mod by lia. rewrite Zminus_mod_idemp_l.
  replace (Z.of_nat a - d - - d)%Z with (Z.of_nat a) by lia. rewrite Z.mod_small by lia. lia.
Qed.
Lemma turn_cases d a : (d = 1 \/ d = 0 \/ d = -1)%Z -> a < npx ->
  turn d a = if ((d =? 1)%Z && (a =? 0)) then npx - 1 else if ((d =? -1)%Z && (a =? npx - 1)) then 0 else Z.to_nat (Z.of_nat a - d).
Proof.
  intros Hd Ha. unfold turn. destruct Hd as [->|[->| ->]]; cbn [Z.eqb Pos.eqb andb].
  - destruct (Nat.eqb_spec a 0) as [->|H].
    + replace (Z.of_nat 0 - 1)%Z with (Z.of_nat npx - 1 + (-1) * Z.of_nat npx)%Z by lia. rewrite Z_mod_plus_full, Z.mod_small by lia. lia.
    + rewrite Z.mod_small by lia. reflexivity.
  - rewrite Z.mod_small by lia. reflexivity.
  - destruct (Nat.eqb_spec a (npx - 1)) as [->|H].
    + replace (Z.of_nat (npx - 1) - -1)%Z with (0 + 1 * Z.of_nat npx)%Z by lia. rewrite Z_mod_plus_full, Z.mod_small by lia. reflexivity.
    + rewrite Z.mod_small by lia. reflexivity.
Qed.
Lemma one_call_ipx t d p p' : (d = 1 \/ d = 0 \/ d = -1)%Z -> ipx p < npx -> one_call npx lx zero (injected t) fill d p p' ->
  ipx p' = turn d (ipx p) /\ row p' = row p.
Proof.
  intros Hd Hp [_ [Hr H]]. split; [|exact Hr]. rewrite turn_cases by assumption. unfold recycled in H.
  destruct Hd as [->|[->| ->]]; cbn [Z.eqb Pos.eqb andb orb] in *.
  - destruct (Nat.eqb_spec (ipx p) 0); cbn [orb] in H; [tauto|]. destruct H as [_ [_ [_ [_ H]]]]. lia.
  - destruct H as [_ [_ [_ [_ H]]]]. lia.
  - destruct (Nat.eqb_spec (ipx p) (npx - 1)); [tauto|]. destruct H as [_ [_ [_ [_ H]]]]. lia.
Qed.
Lemma one_call_x0 t d k p p' : (d = 1 \/ d = 0 \/ d = -1)%Z -> ipx p < npx -> one_call npx lx zero (injected t) fill d p p' ->
  (x0 p == (inject_Z k + inject_Z (Z.of_nat (ipx p))) * plx)%Q ->
  (x0 p' == (inject_Z (k + d) + inject_Z (Z.of_nat (ipx p'))) * plx)%Q.
Proof.
  intros Hd Hp H Hx. destruct (one_call_ipx t d p p' Hd Hp H) as [Hi _]. rewrite turn_cases in Hi by assumption.
  destruct H as [_ [_ H]]. unfold recycled in H. rewrite Hi. clear Hi. rewrite <- inject_Z_plus.
  destruct Hd as [->|[->| ->]]; cbn [Z.eqb Pos.eqb andb orb] in *.
  - destruct (Nat.eqb_spec (ipx p) 0) as [E|E]; cbn [orb] in H.
    + destruct H as [_ [H _]]. rewrite H, Hx, lx_eq, E. rewrite <- inject_Z_plus.
      replace (k + 1 + Z.of_nat (npx - 1))%Z with (k + Z.of_nat 0 + 1 * Z.of_nat npx)%Z by lia.
      rewrite (inject_Z_plus (k + Z.of_nat 0)), inject_Z_mult. ring.
    + destruct H as [H _]. rewrite H, Hx, <- inject_Z_plus.
      replace (k + 1 + Z.of_nat (Z.to_nat (Z.of_nat (ipx p) - 1)))%Z with (k + Z.of_nat (ipx p))%Z by lia. reflexivity.
  - destruct H as [H _]. rewrite H, Hx, <- inject_Z_plus.
    replace (k + 0 + Z.of_nat (Z.to_nat (Z.of_nat (ipx p) - 0)))%Z with (k + Z.of_nat (ipx p))%Z by lia. reflexivity.
  - destruct (Nat.eqb_spec (ipx p) (npx - 1)) as [E|E].
    + destruct H as [_ [H _]]. rewrite H, Hx, lx_eq, E. rewrite <- inject_Z_plus.
      replace (k + -1 + Z.of_nat 0)%Z with (k + Z.of_nat (npx - 1) + (-1) * Z.of_nat npx)%Z by lia.
      rewrite (inject_Z_plus (k + Z.of_nat (npx - 1))), inject_Z_mult. ring.
    + destruct H as [H _]. rewrite H, Hx, <- inject_Z_plus.
      replace (k + -1 + Z.of_nat (Z.to_nat (Z.of_nat (ipx p) - -1)))%Z with (k + Z.of_nat (ipx p))%Z by lia. reflexivity.
Qed.
Lemma direction_cases t w : (direction t w = 1 \/ direction t w = 0 \/ direction t w = -1)%Z.
Proof. unfold direction. destruct (qltb t start); [tauto|]. destruct (Qle_bool plx _); [tauto|]. destruct (Qle_bool _ (- plx)); tauto. Qed.
Lemma Forall2_in_r {A B} (R : A -> B -> Prop) l l' b : Forall2 R l l' -> In b l' -> exists a, In a l /\ R a b.
Proof.
  intro H. induction H as [|x y l l' Hxy H IH]; intros []; [subst; exists x; split; [left; reflexivity|exact Hxy]|].
  destruct (IH H0) as [a [A1 A2]]. exists a. split; [right; exact A1|exact A2].
Qed.
Lemma coords_turn t d ps ps' : (d = 1 \/ d = 0 \/ d = -1)%Z -> (forall p, In p ps -> ipx p < npx) ->
  Forall2 (one_call npx lx zero (injected t) fill d) ps ps' ->
  map (fun p => (ipx p, row p)) ps' = map (fun ar => (turn d (fst ar), snd ar)) (map (fun p => (ipx p, row p)) ps).
Proof.
  intros Hd Hr H. induction H as [|p p' ps ps' H1 H2 IH]; [reflexivity|]. cbn [map].
  destruct (one_call_ipx t d p p' Hd (Hr p (or_introl eq_refl)) H1) as [-> ->].
  rewrite IH by (intros x Hx; apply Hr; right; exact Hx). reflexivity.
Qed.
Lemma nodup_map_on {A B} (f : A -> B) (Q : A -> Prop) l : (forall a b, Q a -> Q b -> f a = f b -> a = b) ->
  (forall a, In a l -> Q a) -> NoDup l -> NoDup (map f l).
Proof.
  intros Hf HQ H. induction H as [|a l Ha H IH]; cbn [map]; constructor.
  - intro Hin. apply in_map_iff in Hin. destruct Hin as [b [E Hb]]. apply Ha.
    rewrite <- (Hf b a (HQ b (or_intror Hb)) (HQ a (or_introl eq_refl)) E). exact Hb.
  - apply IH. intros b Hb. apply HQ. right; exact Hb.
Qed.
Lemma arranged_call t w ps k : arranged npx rows plx k ps ->
  arranged npx rows plx (k + direction t w) (snd (call t w ps)).
Proof.
  intros [H1 [H2 H3]]. pose proof (direction_cases t w) as Hd. pose proof (call_patches t w ps) as HF.
  set (d := direction t w) in *. set (ps' := snd (call t w ps)) in *.
  assert (Hr : forall p, In p ps -> ipx p < npx) by (intros p Hp; apply (H1 p Hp)).
  pose proof (coords_turn t d ps ps' Hd Hr HF) as HC. split; [|split].
  - intros p' Hp'. destruct (Forall2_in_r _ _ _ _ HF Hp') as [p [Hp Hc]]. destruct (H1 p Hp) as [A [B C]].
    destruct (one_call_ipx t d p p' Hd A Hc) as [E1 E2]. rewrite E2. split; [rewrite E1; apply turn_range|]. split; [exact B|].
    exact (one_call_x0 t d k p p' Hd A Hc C).
  - rewrite HC. apply (nodup_map_on _ (fun ar => fst ar < npx)); [| |exact H2].
    + intros [a r] [a' r'] Ha Ha' E. cbn [fst snd] in *. assert (E1 : turn d a = turn d a') by congruence.
      rewrite <- (turn_inv d a Ha), E1, turn_inv by exact Ha'. congruence.
    + intros ar Har. apply in_map_iff in Har. destruct Har as [p [<- Hp]]. cbn [fst]. exact (Hr p Hp).
  - intros a r Ha Hrow. rewrite HC. apply in_map_iff. exists (turn (- d) a, r). cbn [fst snd]. split.
    + f_equal. replace d with (- - d)%Z at 1 by lia. apply turn_inv. exact Ha.
    + apply H3; [apply turn_range|exact Hrow].
Qed.
Lemma arranged_calls times : forall w ps k, arranged npx rows plx k ps ->
  exists k', arranged npx rows plx k' (snd (calls times w ps))
    /\ (pend (fst (calls times w ps)) == pend w + travelled start dt velocity times - inject_Z (k' - k) * plx)%Q
    /\ map idx (snd (calls times w ps)) = map idx ps.
Proof.
  induction times as [|t times IH]; intros w ps k H; cbn [M_Window.calls travelled].
  - exists k. split; [exact H|]. split; [|reflexivity]. cbn [fst]. rewrite Z.sub_diag. unfold inject_Z. lra.
  - pose proof (arranged_call t w ps k H) as H'. pose proof (call_pend t w ps) as Ht. pose proof (call_patches t w ps) as HF.
    destruct (call t w ps) as [w1 ps1]. cbn [fst snd] in *.
    destruct (IH w1 ps1 _ H') as [k' [A [B C]]]. exists k'. split; [exact A|]. split.
    + rewrite B, Ht. unfold amount. replace (k' - k)%Z with ((k' - (k + direction t w)) + direction t w)%Z by lia.
      rewrite (inject_Z_plus (k' - (k + direction t w))). ring.
    + rewrite C. clear - HF. induction HF as [|p p' ps ps' [E _] HF IH]; [reflexivity|]. cbn [map]. rewrite E, IH. reflexivity.
Qed.
(** ** following the velocity *)
Lemma qle_true a b : Qle_bool a b = true -> (a <= b)%Q.
Proof. apply Qle_bool_iff. Qed.
Lemma qle_false a b : Qle_bool a b = false -> (b < a)%Q.
Proof. intro H. apply Qnot_le_lt. intro H'. apply Qle_bool_iff in H'. congruence. Qed.
Lemma call_bounds t w ps : (0 <= pend w)%Q -> (pend w <= plx)%Q -> (0 <= amount t)%Q -> (amount t < plx)%Q ->
  (0 <= pend (fst (call t w ps)))%Q /\ (pend (fst (call t w ps)) <= plx)%Q
  /\ (Qle_bool start t = true -> (pend (fst (call t w ps)) < plx)%Q)
  /\ ((pend w < plx)%Q -> (pend (fst (call t w ps)) < plx)%Q).
Proof.
  intros H1 H2 H3 H4. pose proof (call_pend t w ps) as E. unfold amount, direction, qltb in *.
  destruct (Qle_bool start t); cbn [negb] in *.
  2:{ unfold inject_Z in E. split; [lra|]. split; [lra|]. split; [discriminate|]. intros; lra. }
  destruct (Qle_bool plx (pend w + velocity t * dt)) eqn:E1.
  - apply qle_true in E1. unfold inject_Z in E. split; [lra|]. split; [lra|]. split; intros; lra.
  - apply qle_false in E1. destruct (Qle_bool (pend w + velocity t * dt) (- plx)) eqn:E2.
    + apply qle_true in E2. lra.
    + unfold inject_Z in E. split; [lra|]. split; [lra|]. split; intros; lra.
Qed.
Lemma calls_bounds times : (forall t, In t times -> (0 <= amount t)%Q /\ (amount t < plx)%Q) -> forall w ps,
  (0 <= pend w)%Q -> (pend w <= plx)%Q -> (pend w < plx)%Q \/ (exists t, In t times /\ Qle_bool start t = true) ->
  (0 <= pend (fst (calls times w ps)))%Q /\ (pend (fst (calls times w ps)) < plx)%Q.
Proof.
  induction times as [|t times IH]; intros Ha w ps H1 H2 H3; cbn [M_Window.calls].
  - cbn [fst]. split; [exact H1|]. destruct H3 as [H|[t [[] _]]]. exact H.
  - destruct (Ha t (or_introl eq_refl)) as [A1 A2]. destruct (call_bounds t w ps H1 H2 A1 A2) as [B1 [B2 [B3 B4]]].
    destruct (call t w ps) as [w1 ps1]. cbn [fst] in *. apply (IH (fun x Hx => Ha x (or_intror Hx)) w1 ps1 B1 B2).
    destruct H3 as [H|[t' [[<-|Hin] Ht]]]; [left; exact (B4 H)|left; exact (B3 Ht)|right; exists t'; split; assumption].
Qed.
Lemma follows times ps : (forall t, In t times -> (start <= t)%Q -> (0 <= velocity t * dt)%Q /\ (velocity t * dt < plx)%Q) ->
  (exists t, In t times /\ (start <= t)%Q) -> arranged npx rows plx 0 ps ->
  exists k, arranged npx rows plx k (snd (calls times fresh_window ps))
    /\ ((inject_Z k - 1) * plx <= travelled start dt velocity times)%Q
    /\ (travelled start dt velocity times < inject_Z k * plx)%Q.
Proof.
  intros Hv [t [Ht1 Ht2]] H. destruct (arranged_calls times fresh_window ps 0 H) as [k [A [B _]]]. exists k. split; [exact A|].
  destruct (calls_bounds times) with (w := fresh_window) (ps := ps) as [C1 C2].
  - intros x Hx. unfold amount. destruct (Qle_bool start x) eqn:E; [|split; lra]. apply Hv; [exact Hx|]. apply qle_true, E.
  - unfold pend; cbn [fresh_window pts]. lra.
  - unfold pend; cbn [fresh_window pts]. lra.
  - right. exists t. split; [exact Ht1|]. apply Qle_bool_iff, Ht2.
  - rewrite B in C1, C2. unfold pend in C1, C2. cbn [fresh_window pts] in C1, C2. rewrite Z.sub_0_r in C1, C2. split; lra.
Qed.
(** ** what is left over *)
Lemma renew_leftover t pn s : injecting t && has_density s = false -> parts (renew t pn) s = parts (fst pn) s.
Proof.
  intro H. destruct pn as [p new]. unfold M_Window.renew, reset_one, fill_one. destruct new; [|reflexivity]. cbn [parts fst].
  destruct (injecting t); cbn [parts]; [|reflexivity]. cbn [andb] in H. rewrite H. reflexivity.
Qed.
Lemma call_leftover t w ps s : injecting t && has_density s = false ->
  Forall2 (fun p p' => parts p' s = parts p s) ps (snd (call t w ps)).
Proof.
  intro H. unfold M_Window.call. fold (pend w). destruct (qltb t start).
  { cbn [snd]. rewrite <- (map_id ps) at 2. apply Forall2_map. reflexivity. }
  assert (R : forall p, parts (fst (right_one p)) s = parts p s) by (intro p; unfold M_Window.right_one; destruct (ipx p =? 0); reflexivity).
  assert (L : forall p, parts (fst (left_one p)) s = parts p s) by (intro p; unfold M_Window.left_one; destruct (ipx p =? npx - 1); reflexivity).
  destruct (Qle_bool plx (pend w + velocity t * dt)); cbn [snd].
  { destruct (M_Window.num w =? 0); [rewrite map_map|]; apply Forall2_map; intro p; rewrite renew_leftover by exact H; rewrite R; reflexivity. }
  destruct (Qle_bool (pend w + velocity t * dt) (- plx)); cbn [snd].
  { destruct (M_Window.num w =? 0); [rewrite map_map|]; apply Forall2_map; intro p; rewrite renew_leftover by exact H; rewrite L; reflexivity. }
  destruct (M_Window.num w =? 0); [|rewrite <- (map_id ps) at 2]; apply Forall2_map; reflexivity.
Qed.
End Window.
(** ** demonstrations: two columns, one row, patch length 1 *)
Definition demo_patches : list (patch nat nat) :=
  [mkPatch 0 (0, 0) 0 0%Q 5 5 true (fun _ => 10); mkPatch 1 (0, 0) 1 1%Q 6 6 true (fun _ => 11)].
Definition demo_calls (v : Q) (dens : nat -> bool) (times : list Q) :=
  calls nat nat 0 2 1%Q 2%Q (1#2)%Q 0%Q (fun _ => v) true None dens (fun _ _ _ => 77) times fresh_window demo_patches.
Definition demo_rows : list (nat * nat) := [(0, 0)].
Lemma demo_arranged k p0 p1 : (ipx p0 = 0 /\ ipx p1 = 1 \/ ipx p0 = 1 /\ ipx p1 = 0) -> row p0 = (0, 0) -> row p1 = (0, 0) ->
  Qeq_bool (x0 p0) (inject_Z k + inject_Z (Z.of_nat (ipx p0))) = true ->
  Qeq_bool (x0 p1) (inject_Z k + inject_Z (Z.of_nat (ipx p1))) = true ->
  @arranged nat nat 2 demo_rows 1 k [p0; p1].
Proof.
  intros H1 H2 H3 H4 H5. apply Qeq_bool_eq in H4, H5. split; [|split].
  - intros p [<-|[<-|[]]]; (split; [lia|]; split; [rewrite ?H2, ?H3; left; reflexivity|]); lra.
  - cbn [map]. rewrite H2, H3. constructor; [|constructor; [intros []|constructor]]. intros [E|[]]. assert (ipx p1 = ipx p0) by congruence. lia.
  - intros a r Ha [<-|[]]. cbn [map]. rewrite H2, H3. destruct H1 as [[-> ->]|[-> ->]]; destruct a as [|[|a]]; cbn; try lia; tauto.
Qed.
