(** Proofs about the auto-reloading runner. *)
From Verif Require Import Base M_Reload S_Reload.
From Coq Require Import String.
Local Open Scope list_scope.
Local Open Scope nat_scope.

(** ** The namespace *)
Lemma lookup_bind y x v n : lookup y (bind x v n) = if (y =? x)%string then Some v else lookup y n.
Proof.
  unfold bind. cbn [lookup]. destruct (String.eqb_spec y x) as [->|Hn]; [reflexivity|].
  induction n as [|[z w] t IH]; [reflexivity|]. cbn [filter fst lookup].
  destruct (String.eqb_spec x z) as [->|Hz]; cbn [negb].
  - destruct (String.eqb_spec y z); [congruence|exact IH].
  - cbn [lookup]. destruct (String.eqb_spec y z); [reflexivity|exact IH].
Qed.

Definition shift (k : nat) (v : value) : value := match v with VSim o => VSim (k + o) | _ => v end.
Definition uniq (n : namespace) : Prop := forall y v, In (y, v) n -> lookup y n = Some v.
Lemma bind_uniq x v n : uniq n -> uniq (bind x v n).
Proof.
  intros U y w [E|Hin].
  - injection E as <- <-. rewrite lookup_bind, String.eqb_refl. reflexivity.
  - apply filter_In in Hin as [Hin Hf]. cbn [fst] in Hf. rewrite lookup_bind.
    destruct (String.eqb_spec y x) as [->|Hn]; [|exact (U y w Hin)].
    rewrite String.eqb_refl in Hf. discriminate.
Qed.
Lemma lookup_In x v n : lookup x n = Some v -> In (x, v) n.
Proof.
  induction n as [|[y w] t IH]; cbn [lookup]; [discriminate|].
  destruct (String.eqb_spec x y) as [->|Hn]; [intros [= ->]; now left|right; auto].
Qed.

Lemma pick_only x o n : (forall y o', In (y, VSim o') n -> y = x /\ o' = o) ->
  forall acc, (acc = None \/ acc = Some (x, o)) -> In (x, VSim o) n \/ acc = Some (x, o) ->
  fold_left pick n acc = Some (x, o).
Proof.
  induction n as [|e t IH]; intros Hall acc Ha Hin; cbn [fold_left].
  - destruct Hin as [[]|H]; exact H.
  - assert (Hp : pick acc e = Some (x, o) \/ pick acc e = acc).
    { unfold pick. destruct e as [y [p|o'|c]]; cbn [snd fst]; [now right| |now right].
      destruct (Hall y o' (or_introl eq_refl)) as [-> ->].
      destruct acc as [[z zo]|]; [|now left]. destruct (earlier x z); [now left|now right]. }
    apply IH; [intros y o' H; exact (Hall y o' (or_intror H))| |].
    + destruct Hp as [->| ->]; [now right|exact Ha].
    + destruct Hin as [[->|Hin]|Hin]; [|now left|right].
      * right. cbn [pick snd fst]. destruct Ha as [->| ->]; [reflexivity|].
        destruct (earlier x x); reflexivity.
      * subst acc. destruct Hp as [H|H]; exact H.
Qed.

Lemma first_sim_only x o n : uniq n -> lookup x n = Some (VSim o) ->
  (forall y o', lookup y n = Some (VSim o') -> y = x) -> first_sim n = Some o.
Proof.
  intros U Hx Hall. unfold first_sim.
  rewrite (pick_only x o n); [reflexivity| |now left|left; now apply lookup_In].
  intros y o' Hin. apply U in Hin. pose proof (Hall y o' Hin) as ->. split; [reflexivity|congruence].
Qed.

(** ** Executing a script over an older namespace *)
Record over (x : string) (h0 : list obj) (i1 i2 : interp) : Prop := {
  ov_look : forall y v, lookup y (ns i1) = Some v -> lookup y (ns i2) = Some (shift (List.length h0) v);
  ov_heap : heap i2 = h0 ++ heap i1;
  ov_sims : forall y o, lookup y (ns i2) = Some (VSim o) -> y = x;
  ov_uniq : uniq (ns i2);
  ov_zero : Forall (fun ob => o_itime ob = 0) (heap i1) }.

Lemma species_over x h0 i1 i2 : over x h0 i1 i2 ->
  forall xs ps, species_named (ns i1) xs = Some ps -> species_named (ns i2) xs = Some ps.
Proof.
  intros O. induction xs as [|y t IH]; intros ps; cbn [species_named]; [auto|].
  destruct (lookup y (ns i1)) as [[p|o|c]|] eqn:E; try discriminate.
  apply (ov_look _ _ _ _ O) in E. rewrite E. cbn [shift].
  destruct (species_named (ns i1) t) as [l|]; [|discriminate]. rewrite (IH l eq_refl). auto.
Qed.

Lemma Forall_upd {A} (P : A -> Prop) i v l : Forall P l -> P v -> Forall P (upd i v l).
Proof.
  intros F Hv. revert i. induction F as [|a l Ha F IH]; intros [|i]; cbn [upd]; auto.
Qed.
Lemma upd_app_right {A} (v : A) h : forall i l, upd (List.length h + i) v (h ++ l) = h ++ upd i v l.
Proof. induction h as [|a h IH]; intros i l; [reflexivity|]. cbn [List.length Nat.add app upd]. now rewrite IH. Qed.

Lemma exec1_over x h0 i1 i2 c i1' : over x h0 i1 i2 -> (forall y n r, c = MkSim y n r -> y = x) ->
  exec1 c i1 = (i1', true) -> exists i2', exec1 c i2 = (i2', true) /\ over x h0 i1' i2'.
Proof.
  intros O Hc. pose proof O as [OL OH OS OU OZ].
  destruct c as [y p|y n r|y xs|cb|]; cbn [exec1]; intro E.
  - injection E as <-. eexists. split; [reflexivity|]. constructor; cbn [ns heap]; auto using bind_uniq.
    + intros z v. rewrite !lookup_bind. destruct (z =? y)%string; [intros [= <-]; reflexivity|apply OL].
    + intros z o. rewrite lookup_bind. destruct (z =? y)%string; [discriminate|apply OS].
  - injection E as <-. eexists. split; [reflexivity|]. constructor; cbn [ns heap]; auto using bind_uniq.
    + intros z v. rewrite !lookup_bind. destruct (z =? y)%string; [|apply OL].
      intros [= <-]. cbn [shift]. now rewrite OH, app_length.
    + rewrite OH. now rewrite app_assoc.
    + intros z o. rewrite lookup_bind. destruct (String.eqb_spec z y) as [->|]; [|apply OS].
      intros _. exact (Hc y n r eq_refl).
    + apply Forall_app. split; [exact OZ|]. now repeat constructor.
  - destruct (lookup y (ns i1)) as [[p|o|cc]|] eqn:Ly; try discriminate.
    destruct (species_named (ns i1) xs) as [ps|] eqn:Ls; [|discriminate].
    destruct (nth_error (heap i1) o) as [ob|] eqn:Lo; [|discriminate]. injection E as <-.
    rewrite (OL _ _ Ly). cbn [shift]. rewrite (species_over _ _ _ _ O _ _ Ls).
    assert (No : nth_error (heap i2) (List.length h0 + o) = Some ob).
    { rewrite OH, nth_error_app2 by lia. replace (List.length h0 + o - List.length h0) with o by lia. exact Lo. }
    rewrite No. eexists. split; [reflexivity|]. constructor; cbn [ns heap]; auto.
    + rewrite OH. apply upd_app_right.
    + apply Forall_upd; [exact OZ|]. cbn [set_species o_itime].
      rewrite Forall_forall in OZ. apply OZ. now apply nth_error_In in Lo.
  - injection E as <-. eexists. split; [reflexivity|]. constructor; cbn [ns heap]; auto using bind_uniq.
    + intros z v. rewrite !lookup_bind. destruct (z =? "callbacks")%string; [intros [= <-]; reflexivity|apply OL].
    + intros z o. rewrite lookup_bind. destruct (z =? "callbacks")%string; [discriminate|apply OS].
  - discriminate.
Qed.

Lemma exec_over x h0 s : forall i1 i2 i1', over x h0 i1 i2 -> (forall y n r, In (MkSim y n r) s -> y = x) ->
  exec s i1 = (i1', true) -> exists i2', exec s i2 = (i2', true) /\ over x h0 i1' i2'.
Proof.
  induction s as [|c t IH]; intros i1 i2 i1' O Hs; cbn [exec].
  - intros [= <-]. eauto.
  - destruct (exec1 c i1) as [j1 [|]] eqn:E1; [|discriminate]. intro E.
    destruct (exec1_over x h0 i1 i2 c j1 O) as (j2 & E2 & O2); auto.
    { intros y n r ->. apply (Hs y n r). now left. }
    rewrite E2. apply (IH j1 j2 i1' O2); [intros y n r H; apply (Hs y n r); now right|exact E].
Qed.

Lemma callbacks_set s : forall i i', exec s i = (i', true) ->
  ((exists c, In (SetCallbacks c) s) \/ lookup "callbacks" (ns i) <> None) -> lookup "callbacks" (ns i') <> None.
Proof.
  induction s as [|c t IH]; intros i i'; cbn [exec].
  - intros [= <-] [[c []]|H]; exact H.
  - destruct (exec1 c i) as [j [|]] eqn:E1; [|discriminate]. intros E H. apply (IH j i' E).
    destruct H as [[cb [->|Hin]]|H]; [right| |right].
    + cbn [exec1] in E1. injection E1 as <-. cbn [ns]. now rewrite lookup_bind.
    + left. eauto.
    + destruct c as [y p|y n r|y xs|cb|]; cbn [exec1] in E1.
      * injection E1 as <-. cbn [ns]. rewrite lookup_bind. now destruct (_ =? _)%string.
      * injection E1 as <-. cbn [ns]. rewrite lookup_bind. now destruct (_ =? _)%string.
      * destruct (lookup y (ns i)) as [[]|]; try discriminate.
        destruct (species_named (ns i) xs); [|discriminate]. destruct (nth_error (heap i) o); [|discriminate].
        injection E1 as <-. exact H.
      * injection E1 as <-. cbn [ns]. now rewrite lookup_bind.
      * discriminate.
Qed.

(** what the runner would start now *)
Definition ready (x : string) (i : interp) (p : plan) (o : nat) (ob : obj) : Prop :=
  uniq (ns i) /\ (forall y o', lookup y (ns i) = Some (VSim o') -> y = x) /\
  first_sim (ns i) = Some o /\ nth_error (heap i) o = Some ob /\
  o_steps ob = p_steps p /\ o_raises ob = p_raises p /\ o_species ob = p_species p /\ p_species p <> [] /\
  callbacks_of (ns i) = p_callbacks p.

Lemma load_ready x s i : explicit x s -> uniq (ns i) -> (forall y o, lookup y (ns i) = Some (VSim o) -> y = x) ->
  exists i' p o ob, exec s i = (i', true) /\ runs_alone x s p /\ ready x i' p o ob /\ o_itime ob = 0.
Proof.
  intros ((p & RA) & Hadd & Hsim & Hcb) U S.
  destruct RA as (i1 & o & ob & E & Lx & Hall & No & Ep).
  pose proof (Hadd i1 o ob E Lx No) as Hsp.
  assert (O : over x (heap i) fresh_interp i).
  { constructor; cbn; auto; [discriminate|now rewrite app_nil_r]. }
  destruct (exec_over x (heap i) s _ _ _ O Hsim E) as (i2 & E2 & [OL OH OS OU OZ]).
  exists i2, p, (List.length (heap i) + o), ob. split; [exact E2|]. split; [exists i1, o, ob; auto|].
  assert (Esp : match o_species ob with [] => registry i1 | l => l end = o_species ob) by (destruct (o_species ob); congruence).
  rewrite Esp in Ep. clear Esp.
  pose proof (OL _ _ Lx) as Lx2. cbn [shift] in Lx2.
  split; [|].
  - unfold ready. split; [exact OU|]. split; [exact OS|].
    split; [exact (first_sim_only x _ _ OU Lx2 OS)|]. split.
    { rewrite OH, nth_error_app2 by lia. replace (List.length (heap i) + o - List.length (heap i)) with o by lia. exact No. }
    subst p. cbn [p_steps p_raises p_species p_callbacks] in *. repeat split; auto.
    pose proof (callbacks_set s _ _ E (or_introl Hcb)) as Hc.
    unfold callbacks_of. destruct (lookup "callbacks" (ns i1)) as [v|] eqn:Lc; [|congruence].
    rewrite (OL _ _ Lc). now destruct v.
  - rewrite Forall_forall in OZ. apply OZ. now apply nth_error_In in No.
Qed.

Lemma ready_upd x i p o ob ob' : ready x i p o ob -> o_steps ob' = o_steps ob -> o_raises ob' = o_raises ob ->
  o_species ob' = o_species ob -> ready x (mkInterp (ns i) (registry i) (upd o ob' (heap i))) p o ob'.
Proof.
  intros (U & S & F & N & A & B & C & D & G) h1 h2 h3. unfold ready. cbn [ns heap].
  repeat split; auto; try congruence.
  assert (o < List.length (heap i)) by (apply nth_error_Some; congruence).
  rewrite (nth_error_nth' _ ob') by now rewrite upd_length. now rewrite nth_upd_eq.
Qed.

(** ** The invariant of the runner *)
Section Runner.
Variable x : string.
Variable op : options.
Variable Q : script -> Prop.
Hypothesis HQ : forall s, Q s -> explicit x s.
Definition good (e : event) : Prop :=
  match e with Start p k => k = 0 /\ exists s, Q s /\ runs_alone x s p | _ => True end.
Definition at_pc (st : state) (p : plan) (o : nat) (ob : obj) : Prop :=
  match at_ st with
  | Stepping o' => o' = o /\ o_itime ob < o_steps ob /\ modified st = false /\ finished st = false /\
      exists l, log st = l ++ Start p 0 :: map Step (seq 0 (o_itime ob))
  | Launch => modified st = false /\ (finished st = false -> o_itime ob = 0)
  | Top | End => modified st = false -> finished st = false -> o_itime ob = 0
  | Exited => finished st = true /\ modified st = false /\ exit_on_finish op = true
  | _ => True
  end.
Definition linv (st : state) (s : script) (m : nat) (p : plan) (o : nat) (ob : obj) : Prop :=
  Q s /\ runs_alone x s p /\ ready x (int st) p o ob /\
  last st <= mtime st /\ m <= mtime st /\ (m = mtime st -> s = disk st) /\ (modified st = false -> last st <= m) /\
  (finished st = true -> exists l, log st = l ++ whole_run p) /\ at_pc st p o ob.
Definition inv (st : state) : Prop :=
  Q (disk st) /\ Forall (good) (log st) /\
  match at_ st with
  | Begin => int st = fresh_interp
  | Import => int st = fresh_interp /\ modified st = false /\ finished st = false /\ last st <= mtime st
  | Crashed | Aborted => (exit_on_error op = true \/ several_processes op = true) /\
      exists s p k, Q s /\ runs_alone x s p /\ p_raises p = Some k
  | _ => exists s m p o ob, linv st s m p o ob
  end.

Lemma uniq_nil : uniq []. Proof. intros y v []. Qed.

Lemma inv_save st s m : inv st -> newer Q s (mtime st) m -> inv (save s m st).
Proof.
  intros (E & F & H) [Es Hm]. unfold inv, save; cbn [disk log at_]. split; [exact Es|]. split; [exact F|].
  destruct (at_ st) eqn:P; auto; cbn [int modified finished last mtime].
  - destruct H as (a & b & c & d). repeat split; auto; lia.
  - destruct H as (s0 & m0 & p & o & ob & H). exists s0, m0, p, o, ob.
    destruct H as (h1 & h2 & h3 & h4 & h5 & h6 & h7 & h8 & h9).
    unfold linv, at_pc in *; cbn [int modified finished last mtime disk log at_] in *; rewrite P in *.
    repeat (split; auto); lia.
  - destruct H as (s0 & m0 & p & o & ob & H). exists s0, m0, p, o, ob.
    destruct H as (h1 & h2 & h3 & h4 & h5 & h6 & h7 & h8 & h9).
    unfold linv, at_pc in *; cbn [int modified finished last mtime disk log at_] in *; rewrite P in *.
    repeat (split; auto); lia.
  - destruct H as (s0 & m0 & p & o' & ob & H). exists s0, m0, p, o', ob.
    destruct H as (h1 & h2 & h3 & h4 & h5 & h6 & h7 & h8 & h9).
    unfold linv, at_pc in *; cbn [int modified finished last mtime disk log at_] in *; rewrite P in *.
    repeat (split; auto); lia.
  - destruct H as (s0 & m0 & p & o & ob & H). exists s0, m0, p, o, ob.
    destruct H as (h1 & h2 & h3 & h4 & h5 & h6 & h7 & h8 & h9).
    unfold linv, at_pc in *; cbn [int modified finished last mtime disk log at_] in *; rewrite P in *.
    repeat (split; auto); lia.
  - destruct H as (s0 & m0 & p & o & ob & H). exists s0, m0, p, o, ob.
    destruct H as (h1 & h2 & h3 & h4 & h5 & h6 & h7 & h8 & h9).
    unfold linv, at_pc in *; cbn [int modified finished last mtime disk log at_] in *; rewrite P in *.
    repeat (split; auto); lia.
Qed.

Lemma whole_of_steps p l k : S k = p_steps p ->
  ((l ++ Start p 0 :: map Step (seq 0 k)) ++ [Step k]) ++ [Finished] = l ++ whole_run p.
Proof.
  intro H. unfold whole_run. rewrite <- H, seq_S, map_app. cbn [map Nat.add].
  rewrite <- !app_assoc. reflexivity.
Qed.
Lemma more_steps p l k : (l ++ Start p 0 :: map Step (seq 0 k)) ++ [Step k] = l ++ Start p 0 :: map Step (seq 0 (S k)).
Proof. rewrite seq_S, map_app. cbn [map Nat.add]. now rewrite <- app_assoc. Qed.

Ltac unst := unfold on_exception, on_finish, goto, say, set_int, set_flags in *; cbn [at_ disk mtime last modified finished int log fst snd] in *.

Lemma launch_event st s m p o ob : linv st s m p o ob -> o_itime ob = 0 -> 
  set_species ob (match o_species ob with [] => registry (int st) | l => l end) = ob /\
  mkPlan (o_steps ob) (o_raises ob) (match o_species ob with [] => registry (int st) | l => l end) (callbacks_of (ns (int st))) = p.
Proof.
  intros (_ & _ & (_ & _ & _ & _ & a & b & c & d & e) & _) Hz.
  destruct (o_species ob) as [|h t] eqn:Es; [congruence|]. split.
  - unfold set_species. rewrite <- Es. now destruct ob.
  - destruct p; cbn in *. congruence.
Qed.
Lemma upd_same {A} (l : list A) : forall i a, nth_error l i = Some a -> upd i a l = l.
Proof. induction l as [|h t IH]; intros [|i] a; cbn; try congruence. intro H. now rewrite (IH i a H). Qed.

Lemma inv_act st : inv st -> inv (act op st).
Proof.
  intros (E & F & H). unfold act. destruct (at_ st) eqn:P.
  - (* Begin *) unfold inv; unst. repeat (split; auto).
  - (* Import *) destruct H as (Hi & Hm & Hf & Hl).
    destruct (load_ready x (disk st) (int st) (HQ _ E)) as (i' & p & o & ob & Ex & RA & R & Hz).
    { rewrite Hi. exact uniq_nil. } { rewrite Hi. cbn. discriminate. }
    rewrite Ex. unfold inv; unst. split; [exact E|]. split; [exact F|].
    exists (disk st), (mtime st), p, o, ob. unfold linv, at_pc; unst. repeat (split; auto). intros; congruence.
  - (* Top *) destruct H as (s & m & p & o & ob & L).
    destruct L as (Es & RA & R & h1 & h2 & h3 & h4 & h5 & h6). unfold at_pc in h6; rewrite P in h6.
    destruct (modified st) eqn:M.
    + destruct R as (U & S0 & _).
      destruct (load_ready x (disk st) (int st) (HQ _ E) U S0) as (i' & p' & o' & ob' & Ex & RA' & R' & Hz).
      rewrite Ex. unfold inv; unst. split; [exact E|]. split; [exact F|].
      exists (disk st), (mtime st), p', o', ob'. unfold linv, at_pc; unst. repeat (split; auto). discriminate.
    + unfold inv; unst. split; [exact E|]. split; [exact F|].
      exists s, m, p, o, ob. unfold linv, at_pc; unst. rewrite M. repeat (split; auto).
  - (* Launch *) destruct H as (s & m & p & o & ob & L). pose proof L as L0.
    destruct L as (Es & RA & R & h1 & h2 & h3 & h4 & h5 & h6). unfold at_pc in h6; rewrite P in h6. destruct h6 as [M Hz].
    destruct (finished st) eqn:Fi.
    + unfold inv; unst. split; [exact E|]. split; [exact F|].
      exists s, m, p, o, ob. unfold linv, at_pc; unst. rewrite Fi, M. repeat (split; auto); try discriminate.
    + specialize (Hz eq_refl). destruct (launch_event _ _ _ _ _ _ L0 Hz) as [Hob Hp].
      pose proof R as (_ & _ & Fs & No & Hst & _). rewrite Fs, No. cbv zeta. rewrite Hob, Hp, (upd_same _ _ _ No), Hz.
      assert (Gd : Forall (good) (log st ++ [Start p 0])).
      { apply Forall_app. split; [exact F|]. repeat constructor. eauto. }
      replace (mkInterp (ns (int st)) (registry (int st)) (heap (int st))) with (int st) by now destruct (int st).
      destruct (Nat.ltb_spec 0 (o_steps ob)) as [Hpos|Hnil].
      * unfold inv; unst. split; [exact E|]. split; [exact Gd|].
        exists s, m, p, o, ob. unfold linv, at_pc; unst. rewrite Fi, Hz. repeat (split; auto); try discriminate.
        exists (log st). reflexivity.
      * assert (Hw : (log st ++ [Start p 0]) ++ [Finished] = log st ++ whole_run p).
        { unfold whole_run. replace (p_steps p) with 0 by lia. cbn. now rewrite <- app_assoc. }
        unfold inv; unst.
        assert (Gf : Forall (good) ((log st ++ [Start p 0]) ++ [Finished])).
        { apply Forall_app. split; [exact Gd|]. now repeat constructor. }
        destruct (exit_on_finish op) eqn:Eo; unst; (split; [exact E|]; split; [exact Gf|]);
        exists s, m, p, o, ob; unfold linv, at_pc; unst; rewrite Hw; repeat (split; eauto); try discriminate.
  - (* Stepping *) destruct H as (s & m & p & o' & ob & L). pose proof L as L0.
    destruct L as (Es & RA & R & h1 & h2 & h3 & h4 & h5 & h6). unfold at_pc in h6; rewrite P in h6.
    destruct h6 as (-> & Hlt & M & Fi & l & Hl).
    pose proof R as (U0 & S0 & Fs & No & Hst & _). rewrite No.
    destruct (match o_raises ob with Some k => k =? o_itime ob | None => false end) eqn:Er.
    + assert (Gf : Forall (good) (log st ++ [Failed])).
      { apply Forall_app. split; [exact F|]. now repeat constructor. }
      assert (Hk : exists s p k, Q s /\ runs_alone x s p /\ p_raises p = Some k).
      { destruct (o_raises ob) as [k|] eqn:Ek; [|discriminate]. exists s, p, k. repeat (split; auto).
        destruct R as (_ & _ & _ & _ & _ & Hr & _). congruence. }
      unfold inv; unst. cbn [andb]. destruct (several_processes op); [now unst; auto|]. destruct (exit_on_error op); [now unst; auto|].
      unst. split; [exact E|]. split; [exact Gf|]. exists s, m, p, o', ob. unfold linv, at_pc; unst.
      rewrite Fi. repeat (split; auto); try discriminate.
    + cbv zeta. set (ob1 := set_itime ob (S (o_itime ob))).
      assert (R1 := ready_upd x (int st) p o' ob ob1 R eq_refl eq_refl eq_refl).
      assert (Gs : Forall (good) (log st ++ [Step (o_itime ob)])).
      { apply Forall_app. split; [exact F|]. now repeat constructor. }
      destruct (Nat.ltb_spec (last st) (mtime st)) as [Hmod|Hno].
      * unfold check. unst. destruct (Nat.ltb_spec (last st) (mtime st)); [|lia]. unfold inv; unst.
        split; [exact E|]. split. { apply Forall_app. split; [exact Gs|]. now repeat constructor. }
        exists s, m, p, o', ob1. unfold linv, at_pc; unst. rewrite Fi.
        split; [exact Es|]. split; [exact RA|]. split; [exact R1|]. repeat (split; auto); try discriminate.
      * destruct (Nat.ltb_spec (S (o_itime ob)) (o_steps ob)) as [Hgo|Hend].
        -- unfold inv; unst. split; [exact E|]. split; [exact Gs|].
           exists s, m, p, o', ob1. unfold linv, at_pc; unst.
           split; [exact Es|]. split; [exact RA|]. split; [exact R1|]. rewrite Fi, M.
           repeat (split; auto); try discriminate. exists l. rewrite Hl. apply more_steps.
        -- assert (Hw : (log st ++ [Step (o_itime ob)]) ++ [Finished] = l ++ whole_run p).
           { rewrite Hl. apply whole_of_steps. lia. }
           assert (Gf : Forall (good) ((log st ++ [Step (o_itime ob)]) ++ [Finished])).
           { apply Forall_app. split; [exact Gs|]. now repeat constructor. }
           unfold inv; unst. 
           destruct (exit_on_finish op) eqn:Eo; unst; (split; [exact E|]; split; [exact Gf|]);
           exists s, m, p, o', ob1; unfold linv, at_pc; unst; (split; [exact Es|]; split; [exact RA|]; split; [exact R1|]);
           rewrite Hw; repeat (split; eauto); try discriminate.
  - (* End *) destruct H as (s & m & p & o & ob & L).
    destruct L as (Es & RA & R & h1 & h2 & h3 & h4 & h5 & h6). unfold at_pc in h6; rewrite P in h6.
    unfold check. destruct (Nat.ltb_spec (last st) (mtime st)) as [Hmod|Hno].
    + unfold inv; unst. split; [exact E|]. split; [exact F|].
      exists s, m, p, o, ob. unfold linv, at_pc; unst. repeat (split; auto); discriminate.
    + unfold inv; unst. split; [exact E|]. split; [exact F|].
      exists s, m, p, o, ob. unfold linv, at_pc; unst. repeat (split; auto).
  - unfold inv. rewrite P. auto.
  - unfold inv. rewrite P. auto.
  - unfold inv. rewrite P. auto.
Qed.

Lemma reach_inv st : reach op (newer Q) st -> inv st.
Proof.
  induction 1 as [s m H|st H IH|st s m H IH Hs].
  - destruct H as [H _]. unfold inv, init; cbn. repeat (split; auto).
  - now apply inv_act.
  - now apply inv_save.
Qed.

(** ** Nothing is missed *)
Definition settled (st : state) : Prop := finished st = true /\ modified st = false /\ mtime st <= last st.
Lemma settled_run st : inv st -> settled st -> at_ st <> Crashed -> at_ st <> Aborted -> at_ st <> Begin ->
  exists l p, log st = l ++ whole_run p /\ runs_alone x (disk st) p.
Proof.
  intros (E & F & H) (Hf & Hm & Hl) n1 n2 n3.
  assert (L : exists s m p o ob, linv st s m p o ob).
  { destruct (at_ st); auto; try congruence. destruct H as (_ & _ & Hf' & _). congruence. }
  destruct L as (s & m & p & o & ob & Es & RA & R & h1 & h2 & h3 & h4 & h5 & h6).
  destruct (h5 Hf) as [l Hlog]. exists l, p. split; [exact Hlog|].
  rewrite <- h3; [exact RA|]. specialize (h4 Hm). lia.
Qed.

Lemma acts_add a b st : acts op (a + b) st = acts op b (acts op a st).
Proof. revert st. induction a as [|a IH]; intro st; [reflexivity|]. cbn [Nat.add acts]. apply IH. Qed.
(** after a save the running step is completed, nothing more, and the new script is started from the beginning *)
Lemma reacts st o : inv st -> at_ st = Stepping o -> last st < mtime st ->
  log (act op st) = log st ++ [Failed] \/
  exists k p rest, log (acts op 4 st) = log st ++ Step k :: Stopped :: Start p 0 :: rest /\ runs_alone x (disk st) p /\
    (rest = [] \/ rest = [Finished]).
Proof.
  intros I P Hmod. pose proof I as (E & _ & H). rewrite P in H. destruct H as (s & m & p & o' & ob & L).
  destruct L as (Es & RA & R & h1 & h2 & h3 & h4 & h5 & h6). unfold at_pc in h6; rewrite P in h6.
  destruct h6 as (-> & Hlt & M & Fi & _).
  pose proof R as (U0 & S0 & Fs & No & _).
  destruct (match o_raises ob with Some k => k =? o_itime ob | None => false end) eqn:Er.
  - left. unfold act. rewrite P, No, Er. unst. destruct (true && several_processes op); [reflexivity|].
    destruct (exit_on_error op); reflexivity.
  - right. 
    set (i1 := mkInterp (ns (int st)) (registry (int st)) (upd o' (set_itime ob (S (o_itime ob))) (heap (int st)))).
    destruct (load_ready x (disk st) i1 (HQ _ E)) as (i2 & p2 & o2 & ob2 & Ex & RA2 & R2 & Hz); auto.
    assert (A1 : act op st = mkState End (disk st) (mtime st) (mtime st) true (finished st) i1
                               ((log st ++ [Step (o_itime ob)]) ++ [Stopped])).
    { unfold act. rewrite P, No, Er. cbv zeta. destruct (Nat.ltb_spec (last st) (mtime st)); [|lia].
      unfold check. unst. destruct (Nat.ltb_spec (last st) (mtime st)); [|lia]. reflexivity. }
    assert (A3 : acts op 3 st = mkState Launch (disk st) (mtime st) (mtime st) false false i2
                               ((log st ++ [Step (o_itime ob)]) ++ [Stopped])).
    { cbn [acts]. rewrite A1. unfold act at 2. cbn [at_]. unfold check. cbn [last mtime].
      rewrite Nat.ltb_irrefl. unst. unfold act. cbn [at_ modified disk int]. rewrite Ex. reflexivity. }
    exists (o_itime ob), p2.
    change 4 with (3 + 1). rewrite acts_add, A3. cbn [acts]. unfold act. cbn [at_ finished int].
    pose proof R2 as (_ & _ & Fs2 & No2 & Hst & _). rewrite Fs2, No2. cbv zeta.
    assert (L2 : linv (mkState Launch (disk st) (mtime st) (mtime st) false false i2 [])
                   (disk st) (mtime st) p2 o2 ob2).
    { unfold linv, at_pc; cbn [at_ disk mtime last modified finished int log]. repeat (split; auto). discriminate. }
    destruct (launch_event _ _ _ _ _ _ L2 Hz) as [_ Hp]. cbn [int] in Hp. rewrite Hp, Hz.
    destruct (0 <? o_steps ob2).
    + exists []. unst. rewrite <- !app_assoc. repeat (split; auto).
    + exists [Finished]. unst. destruct (exit_on_finish op); unst; rewrite <- !app_assoc; repeat (split; auto).
Qed.

Hypothesis Hcalm : forall s p, Q s -> runs_alone x s p -> p_raises p = None.
Hypothesis Hstay : exit_on_finish op = false.

Lemma inv_acts n st : inv st -> inv (acts op n st).
Proof. revert st. induction n as [|n IH]; intros st H; [exact H|]. cbn [acts]. now apply IH, inv_act. Qed.
Lemma act_file st : disk (act op st) = disk st /\ mtime (act op st) = mtime st.
Proof.
  unfold act. destruct (at_ st); unst; auto.
  - destruct (exec (disk st) (int st)) as [i [|]]; auto.
  - destruct (modified st); auto.
  - destruct (finished st); [auto|]. destruct (first_sim (ns (int st))) as [o|].
    + destruct (nth_error (heap (int st)) o); cbv zeta.
      * destruct (o_itime o0 <? o_steps o0); unst; [auto|]. destruct (exit_on_finish op); auto.
      * destruct (false && several_processes op); [auto|]. destruct (exit_on_error op); auto.
    + destruct (false && several_processes op); [auto|]. destruct (exit_on_error op); auto.
  - destruct (nth_error (heap (int st)) o) as [ob|]; [|auto].
    destruct (match o_raises ob with Some k => k =? o_itime ob | None => false end).
    + unst. destruct (true && several_processes op); [auto|]. destruct (exit_on_error op); auto.
    + cbv zeta. destruct (last st <? mtime st) eqn:El; unfold check; unst; rewrite ?El; unst; auto.
      destruct (S (o_itime ob) <? o_steps ob); [auto|]. unst. destruct (exit_on_finish op); auto.
  - unfold check. destruct (last st <? mtime st); auto.
Qed.
Lemma acts_file n st : disk (acts op n st) = disk st /\ mtime (acts op n st) = mtime st.
Proof.
  revert st. induction n as [|n IH]; intro st; [auto|]. cbn [acts]. destruct (IH (act op st)) as [-> ->]. apply act_file.
Qed.
Definition live (st : state) : Prop := at_ st <> Crashed /\ at_ st <> Aborted /\ at_ st <> Begin /\ at_ st <> Import /\ at_ st <> Exited.
(** what is still to be shown for a state *)
Definition will_settle (st : state) : Prop := exists n, settled (acts op n st) /\ live (acts op n st).
Lemma later k st : will_settle (acts op k st) -> will_settle st.
Proof. intros [n H]. exists (k + n). now rewrite acts_add. Qed.

Lemma calm_ob st s m p o ob : linv st s m p o ob -> o_raises ob = None.
Proof.
  intros (Es & RA & (_ & _ & _ & _ & _ & Hr & _) & _). rewrite Hr. exact (Hcalm s p Es RA).
Qed.

Lemma stepping_settles k : forall st o s m p ob, inv st -> at_ st = Stepping o -> linv st s m p o ob ->
  o_steps ob - o_itime ob <= k -> mtime st <= last st -> will_settle st.
Proof.
  induction k as [|k IH]; intros st o s m p ob I P L Hk Hq.
  - destruct L as (_ & _ & _ & _ & _ & _ & _ & _ & h). unfold at_pc in h. rewrite P in h. lia.
  - pose proof (calm_ob _ _ _ _ _ _ L) as Hr. pose proof (inv_act st I) as I1.
    pose proof L as L0.
    destruct L as (Es & RA & (_ & _ & Fs & No & _) & h1 & h2 & h3 & h4 & h5 & h6).
    unfold at_pc in h6. rewrite P in h6. destruct h6 as (_ & Hlt & M & Fi & l & Hl).
    assert (A : act op st = let st1 := say (Step (o_itime ob))
                         (set_int (mkInterp (ns (int st)) (registry (int st))
                                     (upd o (set_itime ob (S (o_itime ob))) (heap (int st)))) st) in
        if S (o_itime ob) <? o_steps ob then goto (Stepping o) st1 else on_finish op st1).
    { unfold act. rewrite P, No, Hr. destruct (Nat.ltb_spec (last st) (mtime st)); [lia|reflexivity]. }
    cbv zeta in A. destruct (Nat.ltb_spec (S (o_itime ob)) (o_steps ob)) as [Hgo|Hend].
    + apply (later 1). cbn [acts]. 
      assert (P1 : at_ (act op st) = Stepping o) by (rewrite A; reflexivity).
      pose proof I1 as (_ & _ & H1). rewrite P1 in H1. destruct H1 as (s1 & m1 & p1 & o1 & ob1 & L1).
      pose proof L1 as (_ & _ & (_ & _ & _ & No1 & _) & _ & _ & _ & _ & _ & h6). unfold at_pc in h6. rewrite P1 in h6.
      destruct h6 as (-> & _).
      apply (IH (act op st) o1 s1 m1 p1 ob1 I1 P1 L1).
      * rewrite A in No1. unst. cbn [heap] in No1.
        rewrite (nth_error_nth' _ ob) in No1 by (rewrite upd_length; apply nth_error_Some; congruence).
        rewrite nth_upd_eq in No1 by (apply nth_error_Some; congruence). injection No1 as <-.
        cbn [set_itime o_steps o_itime]. lia.
      * rewrite A. unst. exact Hq.
    + exists 1. cbn [acts]. rewrite A. unfold settled, live; unst. rewrite Hstay. unst. rewrite M.
      repeat split; auto; discriminate.
Qed.

Lemma launch_settles st : inv st -> at_ st = Launch -> mtime st <= last st -> will_settle st.
Proof.
  intros I P Hq. pose proof (inv_act st I) as I1. pose proof I as (_ & _ & H). rewrite P in H.
  destruct H as (s & m & p & o & ob & L). pose proof L as L0.
  destruct L as (Es & RA & (_ & _ & Fs & No & _) & h1 & h2 & h3 & h4 & h5 & h6).
  unfold at_pc in h6. rewrite P in h6. destruct h6 as (M & Hz).
  destruct (finished st) eqn:Fi.
  - exists 0. cbn [acts]. unfold settled, live. rewrite P, Fi, M. repeat split; auto; discriminate.
  - apply (later 1). cbn [acts]. unfold act in I1 |- *. rewrite P, Fi, Fs, No in I1 |- *. cbv zeta in I1 |- *.
    destruct (o_itime ob <? o_steps ob) eqn:Elt.
    + pose proof I1 as (_ & _ & H1). unst. destruct H1 as (s1 & m1 & p1 & o1 & ob1 & L1).
      pose proof L1 as (_ & _ & _ & _ & _ & _ & _ & _ & h6). unfold at_pc in h6. unst. destruct h6 as (-> & _).
      refine (stepping_settles _ _ _ s1 m1 p1 ob1 I1 eq_refl L1 (le_n _) _). unst. exact Hq.
    + exists 0. cbn [acts]. unfold settled, live. unst. rewrite Hstay. unst. rewrite M. repeat split; auto; discriminate.
Qed.

Lemma top_settles st : inv st -> at_ st = Top -> mtime st <= last st -> will_settle st.
Proof.
  intros I P Hq. apply (later 1). cbn [acts]. apply launch_settles; [now apply inv_act| |];
  unfold act; rewrite P; destruct (modified st); unst; auto.
Qed.
Lemma end_settles st : inv st -> at_ st = End -> will_settle st.
Proof.
  intros I P. apply (later 1). cbn [acts]. apply top_settles; [now apply inv_act| |];
  unfold act, check; rewrite P; destruct (Nat.ltb_spec (last st) (mtime st)); unst; auto.
Qed.
Lemma all_stepping st o : inv st -> at_ st = Stepping o -> will_settle st.
Proof.
  intros I P. pose proof I as (_ & _ & H). rewrite P in H. destruct H as (s & m & p & o' & ob & L).
  pose proof L as (_ & _ & (_ & _ & _ & No & _) & _ & _ & _ & _ & _ & h6). unfold at_pc in h6. rewrite P in h6.
  destruct h6 as (-> & _).
  destruct (le_lt_dec (mtime st) (last st)) as [Hq|Hmod].
  - exact (stepping_settles _ st o' s m p ob I P L (le_n _) Hq).
  - apply (later 1). cbn [acts]. apply end_settles; [now apply inv_act|].
    unfold act. rewrite P, No, (calm_ob _ _ _ _ _ _ L). cbv zeta.
    destruct (Nat.ltb_spec (last st) (mtime st)); [|lia]. unfold check. unst.
    destruct (Nat.ltb_spec (last st) (mtime st)); [|lia]. reflexivity.
Qed.
Lemma all_launch st : inv st -> at_ st = Launch -> will_settle st.
Proof.
  intros I P. pose proof (inv_act st I) as I1. pose proof I as (_ & _ & H). rewrite P in H.
  destruct H as (s & m & p & o & ob & Es & RA & (_ & _ & Fs & No & _) & _).
  apply (later 1). cbn [acts]. unfold act in I1 |- *. rewrite P, Fs, No in I1 |- *. cbv zeta in I1 |- *.
  destruct (finished st); [now apply end_settles|].
  destruct (o_itime ob <? o_steps ob); [now apply (all_stepping _ o)|].
  apply end_settles; [exact I1|]. unst. now rewrite Hstay.
Qed.
Lemma all_top st : inv st -> at_ st = Top -> will_settle st.
Proof.
  intros I P. apply (later 1). cbn [acts]. apply all_launch; [now apply inv_act|].
  unfold act. rewrite P. destruct (modified st); reflexivity.
Qed.
Lemma all_import st : inv st -> at_ st = Import -> will_settle st.
Proof.
  intros I P. apply (later 1). cbn [acts]. apply all_top; [now apply inv_act|].
  pose proof I as (E & _ & H). rewrite P in H. destruct H as (Hi & _).
  destruct (load_ready x (disk st) (int st) (HQ _ E)) as (i' & p & o & ob & Ex & _).
  { rewrite Hi. exact uniq_nil. } { rewrite Hi. cbn. discriminate. }
  unfold act. rewrite P, Ex. reflexivity.
Qed.
Lemma always_settles st : inv st -> will_settle st.
Proof.
  intro I. destruct (at_ st) eqn:P.
  - apply (later 1). cbn [acts]. apply all_import; [now apply inv_act|]. unfold act. now rewrite P.
  - now apply all_import.
  - now apply all_top.
  - now apply all_launch.
  - now apply (all_stepping st o).
  - now apply end_settles.
  - destruct I as (_ & _ & H). rewrite P in H. destruct H as (s & m & p & o & ob & _ & _ & _ & _ & _ & _ & _ & _ & h).
    unfold at_pc in h. rewrite P in h. destruct h as (_ & _ & h). congruence.
  - destruct I as (_ & _ & H). rewrite P in H. destruct H as (_ & s & p & k & Es & RA & Hk). rewrite (Hcalm s p Es RA) in Hk. discriminate.
  - destruct I as (_ & _ & H). rewrite P in H. destruct H as (_ & s & p & k & Es & RA & Hk). rewrite (Hcalm s p Es RA) in Hk. discriminate.
Qed.
End Runner.
