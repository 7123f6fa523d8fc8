(** C144: insertion of particles into dead slots. *)
From Verif Require Import Base M_Insert.
From Coq Require Import Permutation.
Local Open Scope nat_scope.
Local Open Scope list_scope.

Section S.
Context {P : Type}.
Local Notation slot := (bool * P)%type.
(** the live particles of an array, and the number of dead slots from a position on *)
Definition alive (l : list slot) : list P := map snd (filter (fun s => negb (fst s)) l).
Definition free_from (i : nat) (l : list slot) : nat := length (filter fst (skipn i l)).

Lemma find_app {A} (f : A -> bool) l1 l2 : find f (l1 ++ l2) = match find f l1 with Some a => Some a | None => find f l2 end.
Proof. induction l1 as [|a l1 IH]; [reflexivity|]. cbn [app find]. destruct (f a); [reflexivity|exact IH]. Qed.
Lemma find_existsb {A} (f : A -> bool) l : existsb f l = false -> find f l = None.
Proof. induction l as [|a l IH]; [reflexivity|]. cbn [existsb find]. destruct (f a); [discriminate|exact IH]. Qed.
Lemma loop_is (l : list slot) : forall fuel i, length l - i < fuel -> search_loop fuel l i = first_dead l i (length l).
Proof.
  induction fuel as [|fuel IH]; intros i F; [lia|]. cbn [search_loop]. destruct (Nat.leb_spec (length l) i) as [L|L].
  - unfold first_dead. replace (length l - i) with 0 by lia. reflexivity.
  - destruct (Nat.leb_spec (i + 8) (length l)) as [B|B].
    + assert (first_dead l i (length l) = match first_dead l i (i + 8) with Some j => Some j | None => first_dead l (i + 8) (length l) end) as X.
      { unfold first_dead. rewrite <- find_app. f_equal. replace (i + 8 - i) with 8 by lia. replace (length l - i) with (8 + (length l - (i + 8))) by lia. apply seq_app. }
      rewrite X. rewrite IH by lia. destruct (existsb (dead_at l) (seq i 8)) eqn:E; [reflexivity|]. apply find_existsb in E. unfold first_dead at 2. replace (i + 8 - i) with 8 by lia. rewrite E. reflexivity.
    + rewrite IH by lia. destruct (first_dead l i (length l)); [reflexivity|]. unfold first_dead. replace (length l - (i + 8)) with 0 by lia. reflexivity.
Qed.
Lemma search_is (l : list slot) i : search_dead l i = first_dead l i (length l).
Proof. apply loop_is. lia. Qed.
Lemma find_seq (f : nat -> bool) : forall n i, match find f (seq i n) with Some j => i <= j < i + n /\ f j = true /\ forall k, i <= k < j -> f k = false | None => forall k, i <= k < i + n -> f k = false end.
Proof.
  induction n as [|n IH]; intro i; [cbn; intros; lia|]. cbn [seq find]. destruct (f i) eqn:E; [split; [lia|]; split; [exact E|intros; lia]|].
  specialize (IH (S i)). destruct (find f (seq (S i) n)) as [j|].
  - destruct IH as (A & B & C). split; [lia|]. split; [exact B|]. intros k K. destruct (Nat.eq_dec k i) as [->|N]; [exact E|apply C; lia].
  - intros k K. destruct (Nat.eq_dec k i) as [->|N]; [exact E|apply IH; lia].
Qed.

(** ** the search finds the first dead slot at or after the start, if there is one *)
Theorem C144_first : forall (l : list slot) i,
  match search_dead l i with
  | Some j => i <= j < length l /\ dead_at l j = true /\ forall k, i <= k < j -> dead_at l k = false
  | None => forall k, i <= k < length l -> dead_at l k = false
  end.
Proof.
  intros l i. rewrite search_is. unfold first_dead. pose proof (find_seq (dead_at l) (length l - i) i) as X. destruct (find _ _) as [j|].
  - destruct X as (A & B & C). split; [lia|]. split; assumption.
  - intros k K. apply X. lia.
Qed.

Lemma dead_in (l : list slot) k s : nth_error l k = Some s -> dead_at l k = fst s.
Proof. intro E. unfold dead_at. rewrite E. reflexivity. Qed.
Lemma none_free : forall (l : list slot) i, (forall k, i <= k < length l -> dead_at l k = false) -> filter fst (skipn i l) = [].
Proof.
  induction l as [|s l IH]; intros i H; [destruct i; reflexivity|]. destruct i as [|i].
  - cbn [skipn filter]. pose proof (H 0 ltac:(cbn [length]; lia)) as H0. cbn in H0. rewrite H0. apply (IH 0). intros k K. apply (H (S k)). cbn [length]. lia.
  - cbn [skipn]. apply IH. intros k K. apply (H (S k)). cbn [length]. lia.
Qed.
Lemma split_at : forall (l : list slot) j, dead_at l j = true -> exists l1 q l2, l = l1 ++ (true, q) :: l2 /\ length l1 = j.
Proof.
  induction l as [|s l IH]; intros j H; [destruct j; discriminate|]. destruct j as [|j].
  - cbn in H. destruct s as [d q]. cbn in H. subst d. exists [], q, l. split; reflexivity.
  - destruct (IH j H) as (l1 & q & l2 & -> & <-). exists (s :: l1), q, l2. split; reflexivity.
Qed.
Lemma set_is (l1 : list slot) s s' l2 : set_slot (l1 ++ s :: l2) (length l1) s' = l1 ++ s' :: l2.
Proof. induction l1 as [|a l1 IH]; [reflexivity|]. cbn [app length set_slot]. rewrite IH. reflexivity. Qed.
Lemma dead_app (l1 : list slot) l2 k : k < length l1 -> dead_at (l1 ++ l2) k = dead_at l1 k.
Proof. intro H. unfold dead_at. rewrite nth_error_app1 by exact H. reflexivity. Qed.
Lemma insert_is (l : list slot) i p : match insert_at l i p with
  | (Some j, l') => exists l1 q l2, l = l1 ++ (true, q) :: l2 /\ l' = l1 ++ (false, p) :: l2 /\ length l1 = j /\ i <= j /\ filter fst (skipn i l1) = []
  | (None, l') => l' = l /\ filter fst (skipn i l) = [] end.
Proof.
  unfold insert_at. pose proof (C144_first l i) as X. destruct (search_dead l i) as [j|].
  - destruct X as (A & B & C). destruct (split_at l j B) as (l1 & q & l2 & E & L). exists l1, q, l2. split; [exact E|]. split; [rewrite E, <- L; apply set_is|]. split; [exact L|]. split; [lia|].
    apply none_free. intros k K. assert (k < j) as Kj by (rewrite <- L; exact (proj2 K)). pose proof (C k (conj (proj1 K) Kj)) as Ck. rewrite E, dead_app in Ck by exact (proj2 K). exact Ck.
  - split; [reflexivity|]. apply none_free. exact X.
Qed.

(** ** inserting particles one after another fills dead slots only: the live particles afterwards are those of before and the
    inserted ones, as many as there are dead slots from the start on; no live slot is touched and the array keeps its length *)
Theorem C144_kept : forall ps (l : list slot) i, Permutation (alive (insert_all l i ps)) (alive l ++ firstn (free_from i l) ps).
Proof.
  induction ps as [|p ps IH]; intros l i; [rewrite firstn_nil, app_nil_r; reflexivity|]. cbn [insert_all]. pose proof (insert_is l i p) as X. destruct (insert_at l i p) as [[j|] l'].
  - destruct X as (l1 & q & l2 & -> & -> & <- & Hi & F). rewrite IH.
    assert (free_from (length l1) (l1 ++ (false, p) :: l2) = length (filter fst l2)) as E1 by (unfold free_from; rewrite skipn_app, skipn_all, Nat.sub_diag; reflexivity).
    assert (free_from i (l1 ++ (true, q) :: l2) = S (length (filter fst l2))) as E2.
    { unfold free_from. rewrite skipn_app. replace (i - length l1) with 0 by lia. rewrite filter_app, F. reflexivity. }
    rewrite E1, E2. unfold alive. cbn [firstn]. rewrite !filter_app. cbn [filter fst negb]. rewrite !map_app. cbn [map snd]. rewrite <- !app_assoc. apply Permutation_app_head. cbn [app]. apply Permutation_middle.
  - destruct X as [-> F]. unfold free_from. rewrite F. cbn [length firstn]. rewrite app_nil_r. reflexivity.
Qed.
Theorem C144_untouched : forall ps (l : list slot) i, length (insert_all l i ps) = length l /\ forall k s, nth_error l k = Some s -> fst s = false \/ k < i -> nth_error (insert_all l i ps) k = Some s.
Proof.
  induction ps as [|p ps IH]; intros l i; [split; [reflexivity|auto]|]. cbn [insert_all]. pose proof (insert_is l i p) as X. destruct (insert_at l i p) as [[j|] l'].
  - destruct X as (l1 & q & l2 & -> & -> & <- & Hi & F). destruct (IH (l1 ++ (false, p) :: l2) (length l1)) as [L U]. split; [rewrite L, !app_length; reflexivity|]. intros k s E D.
    assert (nth_error (l1 ++ (false, p) :: l2) k = Some s) as E'.
    { destruct (Nat.lt_ge_cases k (length l1)) as [K|K]; [rewrite nth_error_app1 in E |- * by exact K; exact E|]. rewrite nth_error_app2 in E |- * by exact K.
      destruct (k - length l1) as [|m] eqn:M; [|exact E]. cbn in E. injection E as <-. destruct D as [D|D]; [discriminate|lia]. }
    apply (U k s E'). destruct D as [D|D]; [left; exact D|right; lia].
  - destruct X as [-> _]. split; [reflexivity|auto].
Qed.
End S.

(** ten slots, dead ones in both blocks; three particles for two dead slots *)
Example C144_case : let a := (false, 0) in insert_all [a; a; a; (true, 7); a; a; a; a; a; (true, 8)] 0 [1; 2; 3] = [a; a; a; (false, 1); a; a; a; a; a; (false, 2)].
Proof. reflexivity. Qed.

Print Assumptions C144_first.
Print Assumptions C144_kept.
Print Assumptions C144_untouched.
Print Assumptions C144_case.
