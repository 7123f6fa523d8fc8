From Verif Require Import Base M_Debye S_Debye.
From Coq Require Import QArith Lqa.
Local Open Scope nat_scope.

Lemma add_false_inv cs : forall st st', c_inv st = c_inv st' ->
  c_inv (fold_left (add_species false) cs st) = c_inv (fold_left (add_species false) cs st').
Proof.
  induction cs as [|c cs IH]; intros st st' H; [auto|]. cbn [fold_left]. apply IH.
  unfold add_species. rewrite H. destruct (Qlt_le_dec 0 (snd c)); auto.
Qed.
Lemma accumulate_inv c cs st st' : c_inv (accumulate (c :: cs) st) = c_inv (accumulate (c :: cs) st').
Proof. cbn [accumulate]. apply add_false_inv. unfold add_species. destruct (Qlt_le_dec 0 (snd c)); auto. Qed.

Lemma add_dens cs b : forall st, (c_dens (fold_left (add_species b) cs st) == c_dens st + qtot cs)%Q.
Proof.
  induction cs as [|c cs IH]; intro st; cbn [fold_left qtot fold_right]; [ring|].
  rewrite IH. fold (qtot cs). unfold add_species. destruct (Qlt_le_dec 0 (snd c)); cbn [c_dens]; ring.
Qed.
Lemma accumulate_dens cs st : (c_dens (accumulate cs st) == c_dens st + qtot cs)%Q.
Proof.
  destruct cs as [|c cs]; cbn [accumulate]; [cbn; ring|]. rewrite add_dens. cbn [qtot fold_right]. fold (qtot cs).
  unfold add_species. destruct (Qlt_le_dec 0 (snd c)); cbn [c_dens]; ring.
Qed.

Lemma constrain_dens g st : c_dens (constrain g st) = c_dens st.
Proof.
  unfold constrain. destruct (c_inv st) as [q|]; auto.
  destruct (Qlt_le_dec 0 q); auto. destruct (Qlt_le_dec (g (c_dens st)) q); auto.
Qed.
Lemma step_dens g cs st : (c_dens (debye_step g cs st) == c_dens st + qtot cs)%Q.
Proof. unfold debye_step. rewrite constrain_dens. apply accumulate_dens. Qed.

Lemma dens_grows g cs k : (c_dens (repeat_steps k (debye_step g cs) debye_init) == inject_Z (Z.of_nat k) * qtot cs)%Q.
Proof.
  induction k as [|k IH]; [cbn; ring|]. cbn [repeat_steps]. rewrite step_dens, IH.
  rewrite Nat2Z.inj_succ, <- Z.add_1_r, inject_Z_plus. ring.
Qed.

(** inside the un-constrained regime the result only depends on the current particles *)
Lemma unconstrained g c cs st q :
  (forall x y, (x <= y)%Q -> (g x <= g y)%Q) -> (0 <= c_dens st)%Q ->
  c_inv (accumulate (c :: cs) debye_init) = Fin q -> (q <= g (qtot (c :: cs)))%Q ->
  c_inv (debye_step g (c :: cs) st) = Fin q.
Proof.
  intros Hg Hd Hq Hle. unfold debye_step, constrain.
  rewrite (accumulate_inv c cs st debye_init), Hq.
  destruct (Qlt_le_dec 0 q); [|now rewrite (accumulate_inv c cs st debye_init)].
  destruct (Qlt_le_dec (g (c_dens (accumulate (c :: cs) st))) q) as [Hlt|_]; [|now rewrite (accumulate_inv c cs st debye_init)].
  exfalso.
  assert (X : (qtot (c :: cs) <= c_dens (accumulate (c :: cs) st))%Q) by (rewrite accumulate_dens; lra).
  apply Hg in X. lra.
Qed.

Lemma cold_step g n st : (0 < n)%Q -> exists d, (d == c_dens st + n)%Q /\
  debye_step g [(Inf, n)] st = mkCell (Fin (g d)) d.
Proof.
  intro Hn. exists (c_dens st + n)%Q. split; [reflexivity|].
  unfold debye_step, accumulate. cbn [fold_left]. unfold add_species. cbn [snd fst].
  destruct (Qlt_le_dec 0 n) as [_|H]; [|lra]. reflexivity.
Qed.
Lemma debye_history_witness (g : Q -> Q) :
  (forall x y, (x == y)%Q -> (g x == g y)%Q) -> (forall x y, (0 < x)%Q -> (x < y)%Q -> (g x < g y)%Q) ->
  exists cs, forall k, exists v1 v2,
    c_inv (repeat_steps (S k) (debye_step g cs) debye_init) = Fin v1 /\
    c_inv (repeat_steps (S (S k)) (debye_step g cs) debye_init) = Fin v2 /\ (v1 < v2)%Q.
Proof.
  intros Hext Hg. exists [(Inf, 1%Q)]. intro k.
  set (cs := [(Inf, 1%Q)]). cbn [repeat_steps]. set (s := repeat_steps k (debye_step g cs) debye_init).
  assert (H1 : (0 < 1)%Q) by reflexivity.
  assert (Hd : (c_dens s == inject_Z (Z.of_nat k))%Q).
  { unfold s. rewrite dens_grows. cbn. ring. }
  assert (H0 : (0 <= inject_Z (Z.of_nat k))%Q).
  { change 0%Q with (inject_Z 0). rewrite <- Zle_Qle. lia. }
  destruct (cold_step g 1 s H1) as (d1 & E1 & S1). unfold cs. rewrite S1. cbn [c_inv].
  destruct (cold_step g 1 (mkCell (Fin (g d1)) d1) H1) as (d2 & E2 & S2). rewrite S2. cbn [c_inv].
  exists (g d1), (g d2). split; auto. split; auto. cbn [c_dens] in E2. apply Hg; lra.
Qed.
