(** C141: the columns of a particle output.  C142: any list of columns. *)
From Coq Require Import String.
From Verif Require Import Base M_Columns.
Local Open Scope string_scope.
Local Open Scope list_scope.

Lemma mem_in a l : mem a l = true <-> In a l.
Proof.
  unfold mem. rewrite existsb_exists. split; [intros (b & I & E); apply String.eqb_eq in E; subst; exact I|intro I; exists a; split; [exact I|apply String.eqb_refl]].
Qed.
Lemma mem_not a l : mem a l = false <-> ~ In a l.
Proof. rewrite <- mem_in. destruct (mem a l); split; congruence. Qed.
Lemma remove1_in a l b : In b (remove1 a l) -> In b l.
Proof. induction l as [|c l IH]; [exact id|]. cbn [remove1]. destruct (a =? c)%string; [intro I; right; exact I|]. intros [I|I]; [left; exact I|right; exact (IH I)]. Qed.
Lemma remove1_other a l b : b <> a -> In b l -> In b (remove1 a l).
Proof.
  intro N. induction l as [|c l IH]; [exact id|]. cbn [remove1]. destruct (a =? c)%string eqn:E; intros [I|I].
  - apply String.eqb_eq in E. congruence.
  - exact I.
  - left. exact I.
  - right. exact (IH I).
Qed.
Lemma remove1_nodup a l : NoDup l -> NoDup (remove1 a l) /\ ~ In a (remove1 a l).
Proof.
  induction l as [|c l IH]; intro N; [split; [constructor|intros []]|]. inversion N as [|? ? N1 N2]. subst. cbn [remove1]. destruct (a =? c)%string eqn:E.
  - apply String.eqb_eq in E. subst. split; assumption.
  - destruct (IH N2) as [A B]. split.
    + constructor; [|exact A]. intro I. exact (N1 (remove1_in a l c I)).
    + intros [I|I]; [|exact (B I)]. subst. rewrite String.eqb_refl in E. discriminate.
Qed.
Lemma without_id_spec l : NoDup l -> NoDup (without_id l ++ ["id"]) /\ forall b, In b (without_id l) <-> In b l /\ b <> "id".
Proof.
  intro N. destruct (remove1_nodup "id" l N) as [A B]. unfold without_id. destruct (mem "id" l) eqn:M.
  - split.
    + clear -A B. induction (remove1 "id" l) as [|c r IH]; cbn [app]; [repeat constructor; intros []|]. inversion A as [|? ? A1 A2]. subst. constructor; [|apply IH; [exact A2|intro I; apply B; right; exact I]].
      intro I. apply in_app_or in I. destruct I as [I|[I|[]]]; [exact (A1 I)|]. apply B. left. symmetry. exact I.
    + intro b. split; [intro I; split; [exact (remove1_in _ _ _ I)|intros ->; exact (B I)]|intros [I D]; exact (remove1_other "id" l b D I)].
  - apply mem_not in M. split.
    + clear -N M. induction l as [|c r IH]; cbn [app]; [repeat constructor; intros []|]. inversion N as [|? ? A1 A2]. subst. constructor; [|apply IH; [exact A2|intro I; apply M; right; exact I]].
      intro I. apply in_app_or in I. destruct I as [I|[I|[]]]; [exact (A1 I)|]. apply M. left. symmetry. exact I.
    + intro b. split; [intro I; split; [exact I|intros ->; exact (M I)]|intros [I _]; exact I].
Qed.
Lemma create_spec : forall names file, NoDup file -> (NoDup (file ++ names) -> create names file = Done (file ++ names)) /\ (~ NoDup (file ++ names) -> create names file = Raised ValueError).
Proof.
  induction names as [|a names IH]; intros file F; cbn [create].
  - rewrite app_nil_r. split; [reflexivity|intro H; destruct (H F)].
  - destruct (mem a file) eqn:M.
    + apply mem_in in M. split; [|reflexivity]. intro N. destruct (NoDup_remove_2 _ _ _ N). apply in_or_app. left. exact M.
    + apply mem_not in M. assert (NoDup (file ++ [a])) as F' by (apply (Permutation.Permutation_NoDup (l := a :: file)); [apply Permutation.Permutation_cons_append|constructor; assumption]).
      destruct (IH (file ++ [a]) F') as [A B]. rewrite <- app_assoc in A, B. split; assumption.
Qed.
Lemma fill_spec has names : (forall a, In a names -> In a has) -> fill has names = Done (names ++ ["id"]).
Proof.
  induction names as [|a names IH]; intro H; [reflexivity|]. cbn [fill app]. replace (mem a has) with true by (symmetry; apply mem_in; apply H; left; reflexivity).
  rewrite IH by (intros b I; apply H; right; exact I). reflexivity.
Qed.
Lemma output_spec names pa has (cb := Some names) : NoDup (names ++ ["id"]) -> (forall a, In a names -> In a has) -> output cb pa has = (Some names, pa, Done (names ++ ["id"])).
Proof. intros N H. unfold output, cb. rewrite (proj1 (create_spec (names ++ ["id"]) [] (NoDup_nil _)) N), (fill_spec has names H). reflexivity. Qed.

(** ** each name asked for and the identifiers give one filled dataset, whether "id" is in the list or not, at every output; other
    callbacks given the same list object write the same datasets *)
Definition asked (attrs : list string) (file : list string) : Prop := NoDup file /\ forall a, In a file <-> In a attrs \/ a = "id".
Lemma asked_without l : NoDup l -> asked l (without_id l ++ ["id"]).
Proof.
  intro N. destruct (without_id_spec l N) as [A B]. split; [exact A|]. intro a. rewrite in_app_iff. cbn [In]. rewrite B.
  destruct (string_dec a "id"); split; intros; intuition congruence.
Qed.
Theorem C141_datasets : forall attrs pa has cb after, NoDup attrs -> (forall a, In a attrs -> a <> "id" -> In a has) -> construct (Some attrs) = (cb, after) ->
  exists cb' file, output cb pa has = (cb', pa, Done file) /\ asked attrs file /\ cb' = cb.
Proof.
  intros attrs pa has cb after N H E. injection E as <- <-. destruct (without_id_spec attrs N) as [A B]. exists (Some (without_id attrs)), (without_id attrs ++ ["id"]).
  split; [|split; [apply asked_without; exact N|reflexivity]]. apply output_spec; [exact A|]. intros a I. apply B in I. apply H; apply I.
Qed.
Theorem C141_shared : forall attrs cb after, NoDup attrs -> construct (Some attrs) = (cb, after) -> construct after = (cb, after).
Proof.
  intros attrs cb after N E. injection E as <- <-. unfold construct. cbn [option_map]. destruct (without_id_spec attrs N) as [_ B]. unfold without_id at 1 3.
  replace (mem "id" (without_id attrs)) with false; [reflexivity|]. symmetry. apply mem_not. intro I. apply B in I. destruct I as [_ I]. exact (I eq_refl).
Qed.
(** without a list, every attribute of the particles is stored; the particles keep their attributes, which never include "id" *)
Theorem C141_all : forall pa, NoDup pa -> ~ In "id" pa -> output (fst (construct None)) pa pa = (Some pa, pa, Done (pa ++ ["id"])) /\ output (Some pa) pa pa = (Some pa, pa, Done (pa ++ ["id"])) /\ asked pa (pa ++ ["id"]).
Proof.
  intros pa N H. pose proof (asked_without pa N) as A. destruct (without_id_spec pa N) as [B _]. replace (without_id pa) with pa in A, B by (unfold without_id; rewrite (proj2 (mem_not _ _) H); reflexivity).
  pose proof (output_spec pa pa pa B (fun a I => I)) as O. split; [|split; [exact O|exact A]]. unfold construct, output in *. cbn [fst option_map].
  replace (without_id pa) with pa by (unfold without_id; rewrite (proj2 (mem_not _ _) H); reflexivity). injection O as O. rewrite O. reflexivity.
Qed.

(** ** C142: a list in which a name is repeated makes every output fail, and the caller's list loses "id" *)
Theorem C142_repeated_refuted : forall attrs pa has, ~ NoDup attrs -> snd (output (fst (construct (Some attrs))) pa has) = Raised ValueError.
Proof.
  intros attrs pa has H. unfold construct, output. cbn [fst snd option_map]. rewrite (proj2 (create_spec (without_id attrs ++ ["id"]) [] (NoDup_nil _))); [reflexivity|]. cbn [app]. intro N. apply H. clear H.
  assert (forall l, NoDup (l ++ ["id"]) -> NoDup l /\ ~ In "id" l) as S1.
  { intros l X. split; [|intro I; apply (NoDup_remove_2 l [] "id" X); rewrite app_nil_r; exact I]. pose proof (NoDup_remove_1 l [] "id" X) as Y. rewrite app_nil_r in Y. exact Y. }
  destruct (S1 _ N) as [A B]. unfold without_id in A, B. destruct (mem "id" attrs) eqn:M; [|exact A]. clear N S1 M.
  induction attrs as [|c l IH]; [constructor|]. cbn [remove1] in A, B. destruct ("id" =? c)%string eqn:E.
  - apply String.eqb_eq in E. subst c. constructor; assumption.
  - inversion A as [|? ? A1 A2]. subst. constructor.
    + intro I. apply A1. apply remove1_other; [|exact I]. intros ->. discriminate.
    + apply IH; [exact A2|]. intro I. apply B. right. exact I.
Qed.
Theorem C142_argument_refuted : forall attrs after, In "id" attrs -> snd (construct (Some attrs)) = Some after -> length after < length attrs.
Proof.
  intros attrs after I E. injection E as <-. unfold without_id. rewrite (proj2 (mem_in _ _) I). induction attrs as [|c l IH]; [destruct I|]. cbn [remove1 length]. destruct ("id" =? c)%string eqn:E; [lia|].
  destruct I as [I|I]; [subst c; discriminate|]. specialize (IH I). cbn [length]. lia.
Qed.

Example C141_case : construct (Some ["x"; "id"; "w"]) = (Some ["x"; "w"], Some ["x"; "w"]) /\ output (Some ["x"; "w"]) ["x"; "w"; "_id"] ["x"; "w"; "_id"] = (Some ["x"; "w"], ["x"; "w"; "_id"], Done ["x"; "w"; "id"]) /\
  snd (output (fst (construct (Some ["id"; "x"; "id"]))) ["x"] ["x"]) = Raised ValueError /\ snd (output (Some ["v"]) ["x"] ["x"]) = Raised AttributeError.
Proof. repeat split. Qed.

Print Assumptions C141_datasets.
Print Assumptions C141_shared.
Print Assumptions C141_all.
Print Assumptions C141_case.
Print Assumptions C142_repeated_refuted.
Print Assumptions C142_argument_refuted.
