(** Proofs for C129 and C130: names of output files. *)
From Verif Require Import Base M_Checkpoint M_Files S_Files P_Checkpoint.
Local Open Scope list_scope.
Local Open Scope Z_scope.

Lemma head_split (L L' : list Z) c c' a b : Forall isdigit L -> Forall isdigit L' -> ~ isdigit c -> ~ isdigit c' -> L ++ c :: a = L' ++ c' :: b -> L = L' /\ c = c' /\ a = b.
Proof.
  revert L'. induction L as [|x L IH]; intros [|x' L'] H H' N N' E; cbn [app] in E.
  - injection E as E1 E2. auto.
  - injection E as E1 E2. inversion H'; subst. contradiction.
  - injection E as E1 E2. inversion H; subst. contradiction.
  - injection E as E1 E2. inversion H; inversion H'; subst. destruct (IH L') as (-> & -> & ->); auto.
Qed.
Lemma tail_split (s s' : list Z) c c' D D' : Forall isdigit D -> Forall isdigit D' -> ~ isdigit c -> ~ isdigit c' -> s ++ c :: D = s' ++ c' :: D' -> s = s' /\ c = c' /\ D = D'.
Proof.
  intros H H' N N' E. apply (f_equal (@rev Z)) in E. rewrite !rev_app_distr in E. cbn [rev] in E. rewrite <- !app_assoc in E. cbn [app] in E.
  apply head_split in E; [|now apply Forall_rev|now apply Forall_rev|exact N|exact N'].
  destruct E as (E1 & -> & E2). apply (f_equal (@rev Z)) in E1, E2. rewrite !rev_involutive in E1, E2. auto.
Qed.
Lemma end_split (a b e : list Z) : a ++ e = b ++ e -> a = b.
Proof. intro H. apply app_inv_tail in H. exact H. Qed.
Lemma all_digits (s : list Z) c D D' : Forall isdigit D' -> ~ isdigit c -> s ++ c :: D = D' -> False.
Proof. intros H N <-. apply Forall_app in H. destruct H as [_ H]. inversion H; subst. contradiction. Qed.

Lemma stamp_digits t : 0 <= t -> Forall isdigit (pad6 (dec t)).
Proof. intro H. apply digits_pad, dec_ok, H. Qed.
Lemma stamp_inj a b : 0 <= a -> 0 <= b -> pad6 (dec a) = pad6 (dec b) -> a = b.
Proof. intros Ha Hb E. apply ckpt_name_inj; [exact Ha|exact Hb|]. unfold ckpt_name. rewrite E. reflexivity. Qed.
Lemma underscore : ~ isdigit 95.
Proof. unfold isdigit. lia. Qed.

Lemma particles_as_density s t : filename (OParticles s t) = filename (ODensity (s ++ suffix) t).
Proof. cbn [filename]. rewrite <- app_assoc. reflexivity. Qed.
Lemma density_split s t : filename (ODensity s t) = (s ++ 95 :: pad6 (dec t)) ++ dot_h5.
Proof. cbn [filename]. rewrite <- app_assoc. reflexivity. Qed.
Lemma density_inj s t s' t' : 0 <= t -> 0 <= t' -> filename (ODensity s t) = filename (ODensity s' t') -> s = s' /\ t = t'.
Proof.
  intros Ht Ht' E. rewrite !density_split in E. apply end_split in E. apply tail_split in E; try apply stamp_digits; try assumption; try apply underscore.
  destruct E as (-> & _ & E). split; [reflexivity|]. apply stamp_inj; assumption.
Qed.
Lemma fields_density t s t' : 0 <= t -> 0 <= t' -> filename (OFields t) = filename (ODensity s t') -> False.
Proof. intros Ht Ht' E. rewrite density_split in E. cbn [filename] in E. apply end_split in E. symmetry in E. exact (all_digits _ _ _ _ (stamp_digits t Ht) underscore E). Qed.
Lemma plot_split t : filename (OPlot t) = fields_ ++ pad6 (dec t) ++ dot_png.
Proof. reflexivity. Qed.
(** last characters: 5 for ".h5", g for ".png", a digit for a checkpoint; the character before tells ".h5" from a checkpoint *)
Lemma last_app (a : list Z) x d : last (a ++ [x]) d = x.
Proof. induction a as [|y a IH]; [reflexivity|]. cbn [app last]. destruct (a ++ [x]) eqn:E; [destruct a; discriminate|]. rewrite <- E in *. exact IH. Qed.
Lemma before_h5 a : nth 1 (rev (a ++ dot_h5)) 0 = 104.
Proof. unfold dot_h5. rewrite rev_app_distr. reflexivity. Qed.
Lemma before_png a : nth 1 (rev (a ++ dot_png)) 0 = 110.
Proof. unfold dot_png. rewrite rev_app_distr. reflexivity. Qed.
Lemma before_ckpt t : 0 <= t -> nth 1 (rev (ckpt_name t)) 0 < 100.
Proof.
  intro H. unfold ckpt_name. rewrite rev_app_distr. pose proof (stamp_digits t H) as D. apply Forall_rev in D.
  assert (6 <= length (rev (pad6 (dec t))))%nat as L by (rewrite rev_length; unfold pad6; rewrite app_length, repeat_length; lia).
  set (l := rev (pad6 (dec t))) in *. clearbody l. rewrite app_nth1 by lia. rewrite Forall_forall in D. specialize (D _ (nth_In l 0 (n := 1) ltac:(lia))). unfold isdigit in D. lia.
Qed.
Definition mark (o : output) : Z := match o with OFields _ | ODensity _ _ | OParticles _ _ => 104 | OPlot _ => 110 | OCheckpoint _ => 0 end.
Lemma mark_ok o : 0 <= step_of o -> nth 1 (rev (filename o)) 0 = mark o \/ (mark o = 0 /\ nth 1 (rev (filename o)) 0 < 100).
Proof.
  intro H. destruct o as [t|s t|s t|t|t].
  - left. cbn [filename]. apply before_h5.
  - left. rewrite density_split. apply before_h5.
  - left. rewrite particles_as_density, density_split. apply before_h5.
  - left. cbn [filename]. rewrite app_assoc. apply before_png.
  - right. split; [reflexivity|]. apply before_ckpt, H.
Qed.
Lemma same_mark o o' : 0 <= step_of o -> 0 <= step_of o' -> filename o = filename o' -> mark o = mark o'.
Proof.
  intros H H' E. pose proof (mark_ok o H) as M. pose proof (mark_ok o' H') as M'. rewrite E in M. destruct o, o'; cbn [mark] in *; lia.
Qed.

Theorem names o o' : 0 <= step_of o -> 0 <= step_of o' -> filename o = filename o' ->
  o = o' \/ exists s t, (o = ODensity (s ++ suffix) t /\ o' = OParticles s t) \/ (o = OParticles s t /\ o' = ODensity (s ++ suffix) t).
Proof.
  intros H H' E. pose proof (same_mark o o' H H' E) as M. destruct o as [t|s t|s t|t|t], o' as [t'|s' t'|s' t'|t'|t']; cbn [mark step_of] in *; try discriminate M.
  - left. cbn [filename] in E. apply end_split in E. f_equal. apply stamp_inj; assumption.
  - exfalso. exact (fields_density t s' t' H H' E).
  - exfalso. rewrite particles_as_density in E. exact (fields_density t _ t' H H' E).
  - exfalso. symmetry in E. exact (fields_density t' s t H' H E).
  - left. apply density_inj in E; [|assumption|assumption]. destruct E as [-> ->]. reflexivity.
  - right. rewrite particles_as_density in E. apply density_inj in E; [|assumption|assumption]. destruct E as [-> ->]. exists s', t'. left. auto.
  - exfalso. symmetry in E. rewrite particles_as_density in E. exact (fields_density t' _ t H' H E).
  - right. rewrite particles_as_density in E. apply density_inj in E; [|assumption|assumption]. destruct E as [<- ->]. exists s, t'. right. auto.
  - left. rewrite !particles_as_density in E. apply density_inj in E; [|assumption|assumption]. destruct E as [E ->]. apply app_inv_tail in E. rewrite E. reflexivity.
  - left. cbn [filename] in E. apply app_inv_head in E. apply end_split in E. f_equal. apply stamp_inj; assumption.
  - left. cbn [filename] in E. f_equal. apply ckpt_name_inj; assumption.
Qed.

(** ** reading back *)
Lemma str_eqb_iff a b : str_eqb a b = true <-> a = b.
Proof.
  revert b. induction a as [|x a IH]; intros [|y b]; cbn [str_eqb]; split; intro H; try discriminate; try reflexivity.
  - apply andb_true_iff in H. destruct H as [H1 H2]. apply Z.eqb_eq in H1. apply IH in H2. subst. reflexivity.
  - injection H as -> ->. rewrite Z.eqb_refl. apply IH. reflexivity.
Qed.
Lemma read_write {A} (d : folder A) w : read_file A (write_file A d w) (filename (fst w)) = Some (snd w).
Proof. unfold read_file, write_file. cbn [find fst]. rewrite (proj2 (str_eqb_iff _ _) eq_refl). reflexivity. Qed.
Lemma read_other {A} (d : folder A) w n : filename (fst w) <> n -> read_file A (write_file A d w) n = read_file A d n.
Proof.
  intro H. unfold read_file, write_file. cbn [find fst]. destruct (str_eqb (filename (fst w)) n) eqn:E; [apply str_eqb_iff in E; contradiction|].
  f_equal. induction d as [|e d IH]; [reflexivity|]. cbn [filter find]. destruct (str_eqb (fst e) (filename (fst w))) eqn:E1; cbn [negb].
  - rewrite IH. destruct (str_eqb (fst e) n) eqn:E2; [|reflexivity]. apply str_eqb_iff in E1, E2. congruence.
  - cbn [find]. rewrite IH. reflexivity.
Qed.
Lemma still_there {A} ws : forall (d : folder A) n v, read_file A d n = Some v -> (forall w, In w ws -> filename (fst w) <> n) -> read_file A (save_all A d ws) n = Some v.
Proof.
  unfold save_all. induction ws as [|w ws IH]; intros d n v R H; [exact R|]. cbn [fold_left]. apply IH.
  - rewrite read_other; [exact R|]. apply H. left. reflexivity.
  - intros w' I. apply H. right. exact I.
Qed.
Lemma all_kept {A} ws : forall (d : folder A), NoDup (map (fun w => filename (fst w)) ws) -> forall w, In w ws -> read_file A (save_all A d ws) (filename (fst w)) = Some (snd w).
Proof.
  induction ws as [|w0 ws IH]; intros d N w I; [contradiction|]. cbn [map] in N. inversion N as [|? ? N1 N2]; subst. unfold save_all. cbn [fold_left]. destruct I as [->|I].
  - apply still_there; [apply read_write|]. intros w' I E. apply N1. apply in_map_iff. exists w'. auto.
  - apply IH; assumption.
Qed.
