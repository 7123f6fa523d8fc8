From Verif Require Import Base M_Pushers S_Pushers.

Lemma init_nth l : forall i k sw j s, Forall supported l -> nth_error l j = Some s ->
  nth_error (init_from i sw k l) j = Some (mkPusher (i + j) (kind_of s) (sw (k + j))).
Proof.
  induction l as [|a l IH]; intros i k sw j s Hs Hj; [destruct j; discriminate|].
  pose proof (Forall_inv Hs) as Ha. pose proof (Forall_inv_tail Hs) as Hl. red in Ha. cbn [init_from].
  destruct j as [|j].
  - cbn [nth_error] in Hj. assert (a = s) as -> by congruence. rewrite !Nat.add_0_r.
    destruct (kind_of s); [reflexivity|reflexivity|contradiction].
  - cbn [nth_error] in Hj. specialize (IH (S i) (S k) sw j s Hl Hj).
    replace (i + S j) with (S i + j) by lia. replace (k + S j) with (S k + j) by lia.
    destruct (kind_of a); [exact IH|exact IH|contradiction].
Qed.
Lemma init_length l : forall i k sw, length (init_from i sw k l) = countb (fun s => match kind_of s with BorisTBMT => false | _ => true end) l.
Proof.
  induction l as [|a l IH]; intros i k sw; [reflexivity|]. cbn [init_from]. rewrite countb_cons.
  destruct (kind_of a); cbn [length]; rewrite IH; lia.
Qed.

Lemma body_ok cb l i s : Forall supported l -> nth_error l i = Some s ->
  exists ks, species_body cb l (init_pushers (fun _ => true) l) i s = Some ks /\ flat_map parts ks = needs i s.
Proof.
  intros Hs Hi. unfold species_body, needs, unified, init_pushers.
  rewrite (init_nth l 0 0 (fun _ => true) i s Hs Hi). rewrite Hi. cbn [Nat.add ispec_of class_of enabled].
  assert (supported s) as Hk by (rewrite Forall_forall in Hs; apply Hs; eapply nth_error_In; eauto). red in Hk.
  destruct s as [k o r m]. cbn [kind_of on radiates makes_pairs] in *.
  destruct o; [|exists []; split; reflexivity]. cbn [negb].
  destruct k; [| |contradiction]; destruct r, m, cb; cbn [negb andb orb]; eexists; split; reflexivity.
Qed.

Lemma loop_ok cb l : Forall supported l -> forall rest i,
  (forall j s, nth_error rest j = Some s -> nth_error l (i + j) = Some s) ->
  exists ks, loop_from i cb l (init_pushers (fun _ => true) l) rest = (ks, false) /\ flat_map parts ks = needs_from i rest.
Proof.
  intros Hs. induction rest as [|s rest IH]; intros i Hr.
  - exists []. split; reflexivity.
  - destruct (body_ok cb l i s Hs) as (ks & E & F). { rewrite <- (Nat.add_0_r i). now apply Hr. }
    destruct (IH (S i)) as (ks' & E' & F').
    { intros j s' Hj. replace (S i + j) with (i + S j) by lia. now apply Hr. }
    cbn [loop_from needs_from]. rewrite E, E'. exists (ks ++ ks'). split; [reflexivity|].
    rewrite flat_map_app, F, F'. reflexivity.
Qed.

(** a species without a pusher: the list is too short and the last enabled species runs past its end *)
Lemma loop_raises sw cb l : forall rest i,
  (exists j s, nth_error rest j = Some s /\ on s = true /\ length (init_pushers sw l) <= i + j) ->
  snd (loop_from i cb l (init_pushers sw l) rest) = true.
Proof.
  induction rest as [|a rest IH]; intros i (j & s & Hj & Ho & Hl); [destruct j; discriminate|].
  cbn [loop_from]. destruct j as [|j].
  - cbn [nth_error] in Hj. assert (a = s) as -> by congruence. unfold species_body. rewrite Ho. cbn [negb].
    rewrite (proj2 (nth_error_None _ _)) by lia. reflexivity.
  - destruct (species_body cb l (init_pushers sw l) i a) as [ks|]; [|reflexivity].
    assert (snd (loop_from (S i) cb l (init_pushers sw l) rest) = true) as H.
    { apply IH. exists j, s. cbn [nth_error] in Hj. repeat split; auto; lia. }
    destruct (loop_from (S i) cb l (init_pushers sw l) rest). exact H.
Qed.
