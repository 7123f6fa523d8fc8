(** The load of a patch against its particles (C131). *)
From Verif Require Import Base M_Layout S_Layout M_PartSync S_PartSync P_PartSync P_PartSync2 P_PartSync3 Properties_PartSync M_Weight P_Weight.
From Coq Require Import QArith Permutation.
Local Open Scope list_scope.
Local Open Scope nat_scope.

Section Generic.
Variables R Geo : Type.
Variable nb : nat.
Variable opp : nat -> nat.
Variable classify : Geo -> R -> option nat.
Variable shift : Geo -> R -> R.
Variable outside : Geo -> R -> bool.
Variable clear : R -> R.
Variable clear_dead : bool.
Variable geo : nat -> Geo.
Variable nbr : nat -> nat -> option nat.
Variable fresh : nat -> nat -> R.
Local Notation exchange := (exchange R Geo nb opp classify shift outside clear clear_dead geo nbr fresh).
Local Notation index_events st := (all_writes R Geo nb opp classify geo nbr (extend_all R nb opp nbr fresh (outgoing R Geo nb classify geo st) st)).
Local Notation arrivals := (arrivals nb opp classify geo nbr).
Local Notation recorded := (recorded R Geo nb opp classify geo nbr).
(** the particles of patch q that are outside it when the exchange starts, and the arrivals that do not land inside *)
Local Notation gone st q := (filter (outside (geo q)) (alive (nth q st []))).
Local Notation missed st q := (filter (outside (geo q)) (map (shift (geo q)) (arrivals st q))).

Lemma filter_both {A} (p : A -> bool) l : length l = length (filter (fun a => negb (p a)) l) + length (filter p l).
Proof. induction l as [|a l IH]; auto. cbn. destruct (p a); cbn; lia. Qed.
Lemma stayed_is st q : sides_ok nb classify outside -> stayed classify (geo q) (nth q st []) = filter (fun r => negb (outside (geo q) r)) (alive (nth q st [])).
Proof.
  intros [_ Sd]. unfold stayed. apply filter_ext. intro r. destruct (Sd (geo q) r) as [D1 D2].
  destruct (classify (geo q) r); destruct (outside (geo q) r); auto; exfalso; try (specialize (D1 eq_refl); discriminate); specialize (D2 eq_refl); discriminate.
Qed.

(** what the exchange leaves behind as the number of particles is their number plus those that left, for every schedule *)
Theorem C131_recorded_partial : forall st es sched st' q, sides_ok nb classify outside -> nbr_symmetric (length st) nb opp nbr ->
  Permutation es (index_events st) -> exchange st es sched = Some st' -> q < length st ->
  recorded st q = length (alive (nth q st' [])) + length (gone st q) + length (missed st q).
Proof.
  intros st es sched st' q Sd Sy P E Hq.
  destruct (C04_exchange R Geo nb opp classify shift outside clear clear_dead geo nbr fresh st es sched st' Sd Sy P E) as [_ X].
  destruct (X q Hq) as [Pm _]. apply Permutation_length in Pm. rewrite app_length, (stayed_is st q Sd) in Pm.
  rewrite (recorded_is R Geo nb opp classify outside geo nbr fresh st q Sd Sy Hq).
  pose proof (filter_both (outside (geo q)) (alive (nth q st []))) as F1.
  pose proof (filter_both (outside (geo q)) (map (shift (geo q)) (arrivals st q))) as F2. rewrite map_length in F2. lia.
Qed.
(** never too small, and exact where nobody leaves and every arrival lands inside *)
Theorem C131_never_less : forall st es sched st' q, sides_ok nb classify outside -> nbr_symmetric (length st) nb opp nbr ->
  Permutation es (index_events st) -> exchange st es sched = Some st' -> q < length st ->
  length (alive (nth q st' [])) <= recorded st q /\
  (recorded st q = length (alive (nth q st' [])) <->
   (forall r, In r (alive (nth q st [])) -> outside (geo q) r = false) /\ (forall r, In r (arrivals st q) -> outside (geo q) (shift (geo q) r) = false)).
Proof.
  intros st es sched st' q Sd Sy P E Hq. rewrite (C131_recorded_partial st es sched st' q Sd Sy P E Hq).
  assert (Z : forall A (p : A -> bool) l, length (filter p l) = 0 <-> (forall a, In a l -> p a = false)).
  { intros A p l. induction l as [|a l IH]; cbn; [split; auto; intros _ b []|]. destruct (p a) eqn:Ea; cbn.
    - split; [discriminate|]. intro H. specialize (H a (or_introl eq_refl)). congruence.
    - rewrite IH. split; [intros H b [->|Hb]; auto|intros H b Hb; apply H; auto]. }
  split; [lia|]. split.
  - intro H. split; [apply Z; lia|]. intros r Hr. refine (proj1 (Z _ _ (map (shift (geo q)) (arrivals st q))) _ _ (in_map _ _ _ Hr)). lia.
  - intros [H1 H2]. apply Z in H1. assert (length (missed st q) = 0); [|lia]. apply Z. intros a Ha. apply in_map_iff in Ha. destruct Ha as (r & <- & Hr). auto.
Qed.
(** over the patches of a run every particle that crosses from one patch to another is counted twice *)
Theorem C131_twice : forall st, sides_ok nb classify outside -> nbr_symmetric (length st) nb opp nbr ->
  sumn (map (recorded st) (seq 0 (length st))) =
  sumn (map (fun q => length (alive (nth q st []))) (seq 0 (length st))) + length (flat_map (leavers classify geo nbr st) (seq 0 (length st))).
Proof.
  intros st Sd Sy. rewrite <- (Permutation_length (C04_arrive_once R Geo nb opp classify outside geo nbr st Sd Sy)).
  assert (G : forall l, (forall q, In q l -> q < length st) -> sumn (map (recorded st) l) =
    sumn (map (fun q => length (alive (nth q st []))) l) + length (flat_map (arrivals st) l)).
  { induction l as [|q l IH]; intro Hl; auto. cbn [map flat_map]. rewrite !sumn_cons, app_length, IH by (intros; apply Hl; right; auto).
    rewrite (recorded_is R Geo nb opp classify outside geo nbr fresh st q Sd Sy (Hl q (or_introl eq_refl))). lia. }
  apply G. intros q Hq. apply in_seq in Hq. lia.
Qed.
(** the sum over the species, which the load balancer receives *)
Theorem C131_all_species : forall sts sts' q, sides_ok nb classify outside ->
  Forall2 (fun st st' => nbr_symmetric (length st) nb opp nbr /\ q < length st /\ exists es sched, Permutation es (index_events st) /\ exchange st es sched = Some st') sts sts' ->
  recorded_all R Geo nb opp classify geo nbr sts q =
  sumn (map (fun st' => length (alive (nth q st' []))) sts') + sumn (map (fun st => length (gone st q) + length (missed st q)) sts).
Proof.
  intros sts sts' q Sd F. unfold recorded_all. induction F as [|st st' sts sts' (Sy & Hq & es & sched & P & E) _ IH]; [reflexivity|]. cbn [map]. rewrite !sumn_cons, IH.
  rewrite (C131_recorded_partial st es sched st' q Sd Sy P E Hq). lia.
Qed.
End Generic.

(** the load made of the recorded counts is never below the load made of the flags, and equal to it if the counts are right *)
Theorem C131_load : forall R cells counts (patch : list (list (slot R))),
  Forall2 (fun c l => length (alive l) <= c) counts patch -> (true_load R cells patch <= patch_load cells counts)%Q.
Proof.
  intros R cells counts patch F. unfold true_load, patch_load. apply Qplus_le_compat; [|apply Qle_refl].
  assert (G : forall a b, (a <= b)%Q -> (fold_left (fun a l => a + inject_Z (Z.of_nat (countb (fun s => negb (dead R s)) l))) patch a
     <= fold_left (fun a c => a + inject_Z (Z.of_nat c)) counts b)%Q); [|apply G, Qle_refl].
  induction F as [|c l counts patch H F IH]; intros a b Hab; auto. cbn [fold_left]. apply IH. apply Qplus_le_compat; auto.
  rewrite <- Zle_Qle. unfold alive in H. rewrite map_length in H. unfold countb. lia.
Qed.

(** three particles cross: five, two and three are recorded for patches that hold three, one and two *)
Definition demo_recorded (ax : axis) := map (recorded (prow nat) _ 8 opp2 (cl2 nat) (demo_geo ax) (nbr2 ax ay_one) demo_world) [0; 1; 2].
Theorem C131_exact_refuted : demo_recorded ax_per = [5; 2; 3] /\
  option_map (map (fun l => length (alive l))) (demo_exchange ax_per) = Some [3; 1; 2] /\
  Qred (patch_load 16 [5]) = (13 # 1)%Q /\ option_map (fun st => Qred (true_load (prow nat) 16 [nth 0 st []])) (demo_exchange ax_per) = Some (11 # 1)%Q.
Proof. vm_compute. auto. Qed.
(** nobody moves: the count is right *)
Example C131_case : map (recorded (prow nat) _ 8 opp2 (cl2 nat) (demo_geo ax_per) (nbr2 ax_per ay_one) [[S1 (1 # 1) 10; D1]; [S1 (5 # 1) 11; S1 (6 # 1) 12]; []]) [0; 1; 2] = [1; 2; 0].
Proof. vm_compute. reflexivity. Qed.

Print Assumptions C131_recorded_partial.
Print Assumptions C131_never_less.
Print Assumptions C131_twice.
Print Assumptions C131_all_species.
Print Assumptions C131_load.
Print Assumptions C131_exact_refuted.
