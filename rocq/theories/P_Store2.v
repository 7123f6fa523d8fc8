(** The identifier bookkeeping of the whole-simulation model is the one of the particle objects. *)
From Coq Require Import QArith String.
From Verif Require Import Base M_RunLoop M_Store S_Store P_StoreIds P_Store.
Local Open Scope list_scope.
Local Open Scope Z_scope.

Lemma find_map_fst (l : list (string * list value)) (g : string * list value -> list value) :
  find (fun a : string * list value => (fst a =? "_id")%string) (map (fun a => (fst a, g a)) l) =
  option_map (fun a => (fst a, g a)) (find (fun a : string * list value => (fst a =? "_id")%string) l).
Proof. induction l as [|a l IH]; auto. cbn [map find fst]. destruct (fst a =? "_id")%string; auto. Qed.
Lemma combine_app {A B} (l l' : list A) (m m' : list B) : List.length l = List.length m -> combine (l ++ l') (m ++ m') = combine l m ++ combine l' m'.
Proof. revert m; induction l as [|a l IH]; intros [|b m] H; cbn in *; try lia; auto. f_equal. apply IH. lia. Qed.
Lemma combine_repeat {A B} (f : nat -> A) (b : B) n s : combine (map f (seq s n)) (repeat b n) = map (fun i => (f i, b)) (seq s n).
Proof. revert s; induction n as [|n IH]; intro s; auto. cbn. f_equal. apply IH. Qed.

Lemma view_extend s n s' : well_formed s -> has_ids s -> 0 < n -> extend n s = Some s' ->
  [view s'] = exec (OExtend 0 (Z.to_nat n)) [view s] /\ has_ids s'.
Proof.
  intros W [a Ha] Hn H. pose proof W as (WA & WD & WE).
  assert (En : enough_ids (view s) (Z.to_nat n) = true).
  { assert (X : s_created s + n <= 2 ^ 32) by (apply (proj1 (extend_defined s n Hn)); eauto). unfold enough_ids. cbn [view ps_created]. lia. }
  destruct (extend_form s n s' W Hn H) as (ids & G & ->).
  pose proof (find_some _ _ Ha) as [Ia Ea].
  cbn [exec get nth]. unfold get. cbn [nth]. rewrite En. cbn [upd]. split.
  - f_equal. unfold view at 1, set_slots. cbn [s_rank s_ipatch s_created s_dead view ps_rank ps_ipatch ps_created ps_slots].
    rewrite Z2Nat.id by lia. f_equal. unfold ids_of. cbn [s_attrs].
    rewrite (find_map_fst (s_attrs s) (fun a => snd a ++ new_values (Z.to_nat n) ids (fst a))), Ha. cbn [option_map snd].
    rewrite map_app, combine_app by (rewrite map_length, WA; auto). f_equal.
    unfold new_values. rewrite Ea. rewrite map_map. cbn [id_of]. rewrite map_id.
    unfold generate_ids in G. destruct (_ <=? _); [|discriminate]. inversion G.
    unfold fresh. rewrite combine_repeat. reflexivity.
  - unfold has_ids. cbn [s_attrs]. rewrite (find_map_fst (s_attrs s) (fun a => snd a ++ new_values (Z.to_nat n) ids (fst a))), Ha. cbn. eauto.
Qed.
Lemma view_initialize s n s' : has_ids s -> initialize n s = Some s' ->
  [view s'] = exec (OInit 0 n) [view s] /\ has_ids s' /\ well_formed s'.
Proof.
  intros [a Ha] H. unfold initialize in H. destruct (generate_ids _ _ _ _) as [ids|] eqn:G; [|discriminate].
  assert (GL := generate_length _ _ _ _ _ G). unfold generate_ids in G. destruct (_ <=? _) eqn:E; [|discriminate].
  inversion H; subst s'; clear H. pose proof (find_some _ _ Ha) as [Ia Ea].
  unfold init_attr. repeat split.
  - cbn [exec]. unfold get. cbn [nth]. unfold enough_ids. cbn [view ps_created]. rewrite E. cbn [upd]. f_equal.
    unfold view at 1, set_slots. cbn [s_rank s_ipatch s_created s_dead view ps_rank ps_ipatch ps_created ps_slots]. f_equal.
    unfold ids_of. cbn [s_attrs]. rewrite find_map_fst, Ha. cbn [option_map fst snd]. rewrite Ea, map_map. cbn [id_of]. rewrite map_id.
    inversion G. unfold fresh. rewrite combine_repeat. reflexivity.
  - unfold has_ids. cbn [s_attrs]. rewrite find_map_fst, Ha. cbn. eauto.
  - cbn [s_attrs s_npart]. intros b Hb. apply in_map_iff in Hb. destruct Hb as (c & <- & Hc). cbn [snd].
    destruct (fst c =? "_id")%string; [now rewrite map_length|]. destruct (fst c =? "inv_gamma")%string; apply repeat_length.
  - cbn [s_dead s_npart]. apply repeat_length.
  - cbn [s_event s_npart]. destruct (s_event s); auto. apply repeat_length.
Qed.
