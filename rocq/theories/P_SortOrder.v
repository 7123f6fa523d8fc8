(** The choice of the bucket numbering (M_Sort3D.decide_reverse). *)
From Verif Require Import Base M_Sort3D.
From Coq Require Import QArith Lqa.
Local Open Scope nat_scope.

Definition lives (patches : list (list (bool * (Q * Q)))) : list (Q * Q) :=
  map snd (filter (fun p => negb (fst p)) (concat patches)).
Definition qtotal (l : list Q) : Q := fold_right Qplus 0%Q l.

Lemma live_sum_total f ps : (live_sum f ps == qtotal (map f (map snd (filter (fun p => negb (fst p)) ps))))%Q.
Proof.
  induction ps as [|[d wu] ps IH]; cbn [live_sum fold_right filter map fst snd]; [reflexivity|].
  unfold live_sum in IH. destruct d; cbn [negb map snd]; [exact IH|].
  unfold qtotal in *. cbn [fold_right]. rewrite IH. reflexivity.
Qed.
Lemma qtotal_app a b : (qtotal (a ++ b) == qtotal a + qtotal b)%Q.
Proof. unfold qtotal. induction a as [|x a IH]; cbn [app fold_right]; [ring|]. rewrite IH. ring. Qed.
Lemma fold_plus l : forall a, (fold_left Qplus l a == a + qtotal l)%Q.
Proof.
  induction l as [|x l IH]; intro a; cbn [fold_left]; unfold qtotal in *; cbn [fold_right]; [ring|].
  rewrite IH. ring.
Qed.
Lemma patches_total f patches :
  (fold_left Qplus (map (live_sum f) patches) 0 == qtotal (map f (lives patches)))%Q.
Proof.
  rewrite fold_plus. unfold lives. induction patches as [|ps t IH]; cbn [map concat]; [reflexivity|].
  rewrite filter_app, !map_app, qtotal_app, <- live_sum_total, <- IH. unfold qtotal. cbn [fold_right]. ring.
Qed.
Lemma decide_spec patches :
  decide_reverse 1 1 None patches = true <->
  (0 < qtotal (map fst (lives patches)) /\ qtotal (map (fun p => fst p * snd p) (lives patches)) < 0)%Q.
Proof.
  unfold decide_reverse. cbn [Nat.eqb andb negb].
  pose proof (patches_total fst patches) as Ew. pose proof (patches_total (fun p => fst p * snd p)%Q patches) as Eu.
  set (w := fold_left Qplus (map (live_sum fst) patches) 0%Q) in *.
  set (u := fold_left Qplus (map (live_sum (fun p => (fst p * snd p)%Q)) patches) 0%Q) in *.
  rewrite <- Ew, <- Eu. rewrite andb_true_iff, !negb_true_iff, <- !not_true_iff_false, !Qle_bool_iff. split.
  - intros [H1 H2]. apply Qnot_le_lt in H1. apply Qnot_le_lt in H2. split; [exact H1|].
    setoid_replace u with (u / w * w)%Q by (field; lra). nra.
  - intros [H1 H2]. split; [lra|]. intro H. assert (0 <= u / w * w)%Q by nra.
    setoid_replace (u / w * w)%Q with u in H0 by (field; lra). lra.
Qed.
Lemma total_neg (l : list (Q * Q)) : l <> [] -> Forall (fun p => 0 < fst p /\ snd p < 0)%Q l ->
  (0 < qtotal (map fst l) /\ qtotal (map (fun p => fst p * snd p) l) < 0)%Q.
Proof.
  induction l as [|[w u] l IH]; [congruence|]. intros _ F. apply Forall_cons_iff in F as [[H1 H2] F]. cbn [fst snd] in *.
  unfold qtotal in *. cbn [map fold_right fst snd]. assert (w * u < 0)%Q by nra. destruct l as [|p l].
  - cbn [map fold_right]. split; lra.
  - specialize (IH ltac:(congruence) F). lra.
Qed.
Lemma total_nonneg (l : list (Q * Q)) : Forall (fun p => 0 <= fst p /\ 0 <= snd p)%Q l ->
  (0 <= qtotal (map (fun p => fst p * snd p) l))%Q.
Proof.
  induction l as [|[w u] l IH]; intro F; unfold qtotal in *; cbn [map fold_right]; [lra|].
  apply Forall_cons_iff in F as [[H1 H2] F]. cbn [fst snd] in *. specialize (IH F). assert (0 <= w * u)%Q by nra. lra.
Qed.
Lemma order_follows patches :
  (lives patches <> [] -> Forall (fun p => 0 < fst p /\ snd p < 0)%Q (lives patches) -> decide_reverse 1 1 None patches = true) /\
  (Forall (fun p => 0 <= fst p /\ 0 <= snd p)%Q (lives patches) -> decide_reverse 1 1 None patches = false).
Proof.
  split.
  - intros H F. apply decide_spec. now apply total_neg.
  - intro F. apply not_true_iff_false. rewrite decide_spec. apply total_nonneg in F. lra.
Qed.
