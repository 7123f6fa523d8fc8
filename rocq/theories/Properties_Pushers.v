(** Properties of the species loop. *)
From Verif Require Import Base M_Pushers S_Pushers P_Pushers.

(** ** C96: in a step every enabled species is moved, pushed and deposited by its own kernels, once *)
Theorem C96_each_species_once : forall cb l,
  Forall supported l ->
  exists ks, species_loop (fun _ => true) cb l = (ks, false) /\ flat_map parts ks = all_needs l.
Proof. intros cb l Hs. apply (loop_ok cb l Hs l 0). intros j s Hj. exact Hj. Qed.

(** ** C97: the third documented pusher and disabled pushers *)
Theorem C97_tbmt_raises_refuted : forall sw cb l s,
  (exists a, In a l /\ kind_of a = BorisTBMT) -> on s = true ->
  snd (species_loop sw cb (l ++ [s])) = true.
Proof.
  intros sw cb l s (a & Ha & Hk) Ho. apply (loop_raises sw cb). exists (length l), s.
  rewrite nth_error_app2, Nat.sub_diag by lia. split; [reflexivity|]. split; [exact Ho|]. cbn [Nat.add].
  unfold init_pushers. rewrite init_length, countb_app.
  assert (countb (fun s => match kind_of s with BorisTBMT => false | _ => true end) l < length l).
  { clear -Ha Hk. induction l as [|b l IH]; [destruct Ha|]. rewrite countb_cons. cbn [length].
    pose proof (countb_le (fun s => match kind_of s with BorisTBMT => false | _ => true end) l).
    destruct Ha as [->|Ha]; [rewrite Hk; lia|]. specialize (IH Ha). destruct (kind_of b); lia. }
  pose proof (countb_le (fun s => match kind_of s with BorisTBMT => false | _ => true end) [s]). cbn [length] in *. lia.
Qed.
(** in the turn of the first such species the particles of the next one are moved, and moved again in no other turn *)
Theorem C97_tbmt_moves_next_refuted : forall cb s1 s2,
  kind_of s1 = BorisTBMT -> kind_of s2 = Boris -> on s1 = true -> on s2 = true ->
  flat_map moves (fst (species_loop (fun _ => true) cb [s1; s2])) = [1; 1].
Proof.
  intros cb [k1 o1 r1 m1] [k2 o2 r2 m2] H1 H2 H3 H4. cbn [kind_of on] in *. subst.
  destruct r1, m1, cb; reflexivity.
Qed.
(** a disabled pusher: without stage callbacks nothing is deposited, with one the species is deposited without having moved *)
Theorem C97_disabled_refuted : forall s,
  kind_of s = Boris -> on s = true -> radiates s = false -> makes_pairs s = false ->
  flat_map deposits (fst (species_loop (fun _ => false) false [s])) = [] /\
  flat_map deposits (fst (species_loop (fun _ => false) true [s])) = [0] /\
  flat_map moves (fst (species_loop (fun _ => false) true [s])) = [].
Proof. intros [k o r m] H1 H2 H3 H4. cbn [kind_of on radiates makes_pairs] in *. subst. repeat split; reflexivity. Qed.

(** an electron species that radiates, its photons, a disabled species and protons *)
Example ex_C96 :
  species_loop (fun _ => true) false
    [mkSpec Boris true true false; mkSpec PhotonP true false false; mkSpec Boris false false false; mkSpec Boris true false false]
  = ([HalfMove 0; Interpolate 0; Events 0; Momentum 0; HalfMove 0; Deposit 0;
      HalfMove 1; Interpolate 1; HalfMove 1; Deposit 1; Fused 3], false).
Proof. reflexivity. Qed.

Print Assumptions C96_each_species_once.
Print Assumptions C97_tbmt_raises_refuted.
Print Assumptions C97_tbmt_moves_next_refuted.
Print Assumptions C97_disabled_refuted.
