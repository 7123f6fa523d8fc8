(** The space-filling curve (C15). *)
From Verif Require Import Base M_Hilbert S_Hilbert P_Hilbert P_Hilbert3 P_Hilbert4.
Local Open Scope list_scope.
Local Open Scope Z_scope.

(** every rectangle and every box, of any positive sizes: the recursion ends, and the curve visits every cell once *)
Theorem C15_visits_2d : forall width height, 1 <= width -> 1 <= height ->
  exists l, gilbert2d width height = Some l /\ visits2 width height l.
Proof. exact gilbert2d_visits. Qed.
Theorem C15_visits_3d : forall width height depth, 1 <= width -> 1 <= height -> 1 <= depth ->
  exists l, gilbert3d width height depth = Some l /\ visits3 width height depth l.
Proof. exact gilbert3d_visits. Qed.

(** consecutive cells share a side: when the longer side of the rectangle is even, when all sides of the box are even *)
Theorem C15_unbroken_2d : forall width height l, 1 <= width -> 1 <= height -> Z.max width height mod 2 = 0 ->
  gilbert2d width height = Some l -> unbroken l.
Proof. exact gilbert2d_unbroken. Qed.
Theorem C15_unbroken_3d : forall width height depth l, 1 <= width -> 1 <= height -> 1 <= depth ->
  width mod 2 = 0 -> height mod 2 = 0 -> depth mod 2 = 0 -> gilbert3d width height depth = Some l -> unbroken l.
Proof. exact gilbert3d_unbroken. Qed.

(** the class: built exactly for even sizes; its two tables are inverse to each other and cover the grid *)
Theorem C15_tables_2d : forall nx ny, hilbert nx ny None <> None <-> (0 < nx /\ nx mod 2 = 0 /\ 0 < ny /\ ny mod 2 = 0).
Proof.
  intros nx ny. unfold hilbert, even_size. split.
  - intros H. destruct ((0 <? nx) && (nx mod 2 =? 0) && ((0 <? ny) && (ny mod 2 =? 0))) eqn:E; [lia|congruence].
  - intros H. replace ((0 <? nx) && (nx mod 2 =? 0) && ((0 <? ny) && (ny mod 2 =? 0))) with true by lia.
    destruct (gilbert2d_visits nx ny) as (l & -> & _); [lia|lia|]. discriminate.
Qed.
Theorem C15_lookup_2d : forall nx ny byPos byIndex, hilbert nx ny None = Some (byPos, byIndex) ->
  (forall q i, In (q, i) byPos <-> In (i, q) byIndex) /\
  (forall x y, 0 <= x < nx -> 0 <= y < ny -> exists i, In ([x; y], i) byPos /\ forall j, In ([x; y], j) byPos -> j = i) /\
  (forall i p q, In (i, p) byIndex -> In (i, q) byIndex -> p = q).
Proof.
  intros nx ny byPos byIndex. unfold hilbert. destruct (even_size nx && even_size ny) eqn:E; [|discriminate].
  unfold even_size in E. destruct (gilbert2d_visits nx ny) as (l & -> & N & V); [lia|lia|]. unfold tables. intro H. inversion H; subst. clear H.
  split; [|split].
  - intros q i. destruct (tables_inverse l q i N) as [A B]. rewrite A, B. tauto.
  - intros x y Hx Hy. assert (I : In [x; y] l) by (apply V; eauto). apply In_nth_error in I. destruct I as [i Hi]. exists i. split.
    + now apply (tables_inverse l [x; y] i N).
    + intros j Hj. apply (tables_inverse l [x; y] j N) in Hj.
      unfold vec in *. apply (proj1 (NoDup_nth_error l) N); [apply nth_error_Some; congruence|congruence].
  - intros i p q Hp Hq. apply (tables_inverse l p i N) in Hp. apply (tables_inverse l q i N) in Hq. congruence.
Qed.
Theorem C15_lookup_3d : forall nx ny nz byPos byIndex, hilbert nx ny (Some nz) = Some (byPos, byIndex) ->
  (forall q i, In (q, i) byPos <-> In (i, q) byIndex) /\
  (forall x y z, 0 <= x < nx -> 0 <= y < ny -> 0 <= z < nz -> exists i, In ([x; y; z], i) byPos /\ forall j, In ([x; y; z], j) byPos -> j = i) /\
  (forall i p q, In (i, p) byIndex -> In (i, q) byIndex -> p = q).
Proof.
  intros nx ny nz byPos byIndex. unfold hilbert. destruct (even_size nx && even_size ny) eqn:E; [|discriminate].
  destruct (even_size nz) eqn:E2; [|discriminate].
  unfold even_size in E, E2. destruct (gilbert3d_visits nx ny nz) as (l & -> & N & V); [lia|lia|lia|]. unfold tables. intro H. inversion H; subst. clear H.
  split; [|split].
  - intros q i. destruct (tables_inverse l q i N) as [A B]. rewrite A, B. tauto.
  - intros x y z Hx Hy Hz. assert (I : In [x; y; z] l) by (apply V; exists x, y, z; auto). apply In_nth_error in I. destruct I as [i Hi]. exists i. split.
    + now apply (tables_inverse l [x; y; z] i N).
    + intros j Hj. apply (tables_inverse l [x; y; z] j N) in Hj.
      unfold vec in *. apply (proj1 (NoDup_nth_error l) N); [apply nth_error_Some; congruence|congruence].
  - intros i p q Hp Hq. apply (tables_inverse l p i N) in Hp. apply (tables_inverse l q i N) in Hq. congruence.
Qed.

Example C15_example : gilbert2d 4 2 = Some [[0;0];[0;1];[1;1];[1;0];[2;0];[2;1];[3;1];[3;0]].
Proof. vm_compute. reflexivity. Qed.
Example C15_example_3d : exists l, gilbert3d 2 2 2 = Some l /\ length l = 8%nat /\ nth 0 l [] = [0;0;0] /\ nth 7 l [] = [1;0;0].
Proof. vm_compute. eauto. Qed.

Print Assumptions C15_visits_2d. Print Assumptions C15_visits_3d. Print Assumptions C15_unbroken_3d. Print Assumptions C15_lookup_3d.
