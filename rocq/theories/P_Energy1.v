(** Energy of the fields, part 1: sums over a periodic grid. *)
From Coq Require Import QArith Qcanon Lqa.
From Verif Require Import Base M_Layout S_Energy P_Gauss2.
Local Open Scope Qc_scope.

Lemma zsum_nat (n : nat) f : zsum (Z.of_nat n) f = fold_right (fun i s => f (Z.of_nat i) + s) 0 (seq 0 n).
Proof. unfold zsum, zseq. rewrite Nat2Z.id. generalize (seq 0 n). induction l as [|a l IH]; [reflexivity|]. cbn [map fold_right]. rewrite IH. reflexivity. Qed.
Lemma zsum_ext N f g : (forall i, (0 <= i < N)%Z -> f i = g i) -> zsum N f = zsum N g.
Proof.
  intro H. unfold zsum. assert (forall i, In i (zseq N) -> f i = g i) as K.
  { intros i I. apply H. unfold zseq in I. apply in_map_iff in I as (k & <- & I). apply in_seq in I. lia. }
  clear H. induction (zseq N) as [|i l IH]; [reflexivity|]. cbn [fold_right]. rewrite (K i (or_introl eq_refl)), IH; [reflexivity|]. intros k I. apply K. right. exact I.
Qed.
Lemma zsum_add N f g : zsum N (fun i => f i + g i) = zsum N f + zsum N g.
Proof. unfold zsum. induction (zseq N) as [|i l IH]; [reflexivity|]. cbn [fold_right]. rewrite IH. ring. Qed.
Lemma zsum_scale N c f : zsum N (fun i => c * f i) = c * zsum N f.
Proof. unfold zsum. induction (zseq N) as [|i l IH]; cbn [fold_right]; [change (Q2Qc 0) with 0; ring|]. rewrite IH. ring. Qed.
Lemma zsum_le N f g : (forall i, f i <= g i) -> zsum N f <= zsum N g.
Proof. intro H. unfold zsum. induction (zseq N) as [|i l IH]; [apply Qcle_refl|]. cbn [fold_right]. apply Qcplus_le_compat; auto. Qed.
Lemma sum_front (n : nat) : forall (f : Z -> Qc) a, fold_right (fun i s => f (Z.of_nat i) + s) 0 (seq a (S n)) = f (Z.of_nat a) + fold_right (fun i s => f (Z.of_nat i + 1)%Z + s) 0 (seq a n).
Proof.
  induction n as [|n IH]; intros f a; [reflexivity|]. change (seq a (S (S n))) with (a :: seq (S a) (S n)). cbn [fold_right]. rewrite IH. f_equal.
  change (seq a (S n)) with (a :: seq (S a) n). cbn [fold_right]. f_equal. f_equal. lia.
Qed.
Lemma sum_back (n : nat) : forall (f : Z -> Qc) a, fold_right (fun i s => f (Z.of_nat i) + s) 0 (seq a (S n)) = fold_right (fun i s => f (Z.of_nat i) + s) 0 (seq a n) + f (Z.of_nat (a + n)).
Proof.
  induction n as [|n IH]; intros f a; [cbn [seq fold_right]; rewrite Nat.add_0_r; ring|]. change (seq a (S (S n))) with (a :: seq (S a) (S n)). cbn [fold_right]. rewrite IH.
  change (seq a (S n)) with (a :: seq (S a) n). cbn [fold_right]. replace (S a + n)%nat with (a + S n)%nat by lia. ring.
Qed.
Definition periodic (N : Z) (f : Z -> Qc) : Prop := forall i, f (i + N)%Z = f i.
Lemma zsum_shift N f : periodic N f -> zsum N (fun i => f (i + 1)%Z) = zsum N f.
Proof.
  intro P. destruct (Z_le_gt_dec N 0) as [L|L]; [unfold zsum, zseq; replace (Z.to_nat N) with 0%nat by lia; reflexivity|].
  replace N with (Z.of_nat (S (Z.to_nat (N - 1)))) in * by lia. set (n := Z.to_nat (N - 1)) in *. clearbody n. clear L. rewrite !zsum_nat.
  rewrite (sum_front n f), (sum_back n (fun i => f (i + 1)%Z)). cbn [Nat.add]. change (Z.of_nat 0) with 0%Z.
  replace (f (Z.of_nat n + 1)%Z) with (f 0%Z) by (rewrite <- (P 0%Z); f_equal; lia). ring.
Qed.

Section Grid.
Variables Nx Ny Nz : Z.
Definition per3d (f : Z -> Z -> Z -> Qc) : Prop :=
  (forall i j k, f (i + Nx)%Z j k = f i j k) /\ (forall i j k, f i (j + Ny)%Z k = f i j k) /\ (forall i j k, f i j (k + Nz)%Z = f i j k).
Definition tot (f : Z -> Z -> Z -> Qc) : Qc := zsum Nx (fun i => zsum Ny (fun j => zsum Nz (fun k => f i j k))).
Lemma tot_ext f g : (forall i j k, f i j k = g i j k) -> tot f = tot g.
Proof. intro H. unfold tot. apply zsum_ext. intros i _. apply zsum_ext. intros j _. apply zsum_ext. intros k _. apply H. Qed.
Lemma tot_add f g : tot (fun i j k => f i j k + g i j k) = tot f + tot g.
Proof.
  unfold tot. rewrite <- zsum_add. apply zsum_ext. intros i _. rewrite <- zsum_add. apply zsum_ext. intros j _. rewrite <- zsum_add. reflexivity.
Qed.
Lemma tot_scale c f : tot (fun i j k => c * f i j k) = c * tot f.
Proof.
  unfold tot. rewrite <- zsum_scale. apply zsum_ext. intros i _. rewrite <- zsum_scale. apply zsum_ext. intros j _. rewrite <- zsum_scale. reflexivity.
Qed.
Lemma tot_sub f g : tot (fun i j k => f i j k - g i j k) = tot f - tot g.
Proof. rewrite (tot_ext _ (fun i j k => f i j k + (- (1)) * g i j k)) by (intros; ring). rewrite tot_add, tot_scale. ring. Qed.
Lemma tot_le f g : (forall i j k, f i j k <= g i j k) -> tot f <= tot g.
Proof. intro H. unfold tot. apply zsum_le. intro i. apply zsum_le. intro j. apply zsum_le. intro k. apply H. Qed.
Lemma tot_x f : per3d f -> tot (fun i j k => f (i + 1)%Z j k) = tot f.
Proof.
  intros (P & _ & _). unfold tot. apply (zsum_shift Nx (fun i => zsum Ny (fun j => zsum Nz (fun k => f i j k)))). intro i. apply zsum_ext. intros j _. apply zsum_ext. intros k _. apply P.
Qed.
Lemma tot_y f : per3d f -> tot (fun i j k => f i (j + 1)%Z k) = tot f.
Proof.
  intros (_ & P & _). unfold tot. apply zsum_ext. intros i _. apply (zsum_shift Ny (fun j => zsum Nz (fun k => f i j k))). intro j. apply zsum_ext. intros k _. apply P.
Qed.
Lemma tot_z f : per3d f -> tot (fun i j k => f i j (k + 1)%Z) = tot f.
Proof.
  intros (_ & _ & P). unfold tot. apply zsum_ext. intros i _. apply zsum_ext. intros j _. apply (zsum_shift Nz (fun k => f i j k)). intro k. apply P.
Qed.

(** differences *)
Variables dx dy dz : Qc.
Definition bx (f : Z -> Z -> Z -> Qc) (i j k : Z) : Qc := (f i j k - f (i - 1)%Z j k) / dx.
Definition by_ (f : Z -> Z -> Z -> Qc) (i j k : Z) : Qc := (f i j k - f i (j - 1)%Z k) / dy.
Definition bz (f : Z -> Z -> Z -> Qc) (i j k : Z) : Qc := (f i j k - f i j (k - 1)%Z) / dz.
Definition fx (f : Z -> Z -> Z -> Qc) (i j k : Z) : Qc := (f (i + 1)%Z j k - f i j k) / dx.
Definition fy (f : Z -> Z -> Z -> Qc) (i j k : Z) : Qc := (f i (j + 1)%Z k - f i j k) / dy.
Definition fz (f : Z -> Z -> Z -> Qc) (i j k : Z) : Qc := (f i j (k + 1)%Z - f i j k) / dz.
Ltac per_tac := repeat split; intros;
  repeat match goal with
  | |- context [(?i + Nx - 1)%Z] => replace (i + Nx - 1)%Z with (i - 1 + Nx)%Z by lia
  | |- context [(?i + Ny - 1)%Z] => replace (i + Ny - 1)%Z with (i - 1 + Ny)%Z by lia
  | |- context [(?i + Nz - 1)%Z] => replace (i + Nz - 1)%Z with (i - 1 + Nz)%Z by lia
  | |- context [(?i + Nx + 1)%Z] => replace (i + Nx + 1)%Z with (i + 1 + Nx)%Z by lia
  | |- context [(?i + Ny + 1)%Z] => replace (i + Ny + 1)%Z with (i + 1 + Ny)%Z by lia
  | |- context [(?i + Nz + 1)%Z] => replace (i + Nz + 1)%Z with (i + 1 + Nz)%Z by lia
  end.
Lemma per_bx f : per3d f -> per3d (bx f). Proof. intros (P1 & P2 & P3). unfold bx. per_tac; rewrite ?P1, ?P2, ?P3; reflexivity. Qed.
Lemma per_by f : per3d f -> per3d (by_ f). Proof. intros (P1 & P2 & P3). unfold by_. per_tac; rewrite ?P1, ?P2, ?P3; reflexivity. Qed.
Lemma per_bz f : per3d f -> per3d (bz f). Proof. intros (P1 & P2 & P3). unfold bz. per_tac; rewrite ?P1, ?P2, ?P3; reflexivity. Qed.
Lemma per_fx f : per3d f -> per3d (fx f). Proof. intros (P1 & P2 & P3). unfold fx. per_tac; rewrite ?P1, ?P2, ?P3; reflexivity. Qed.
Lemma per_fy f : per3d f -> per3d (fy f). Proof. intros (P1 & P2 & P3). unfold fy. per_tac; rewrite ?P1, ?P2, ?P3; reflexivity. Qed.
Lemma per_fz f : per3d f -> per3d (fz f). Proof. intros (P1 & P2 & P3). unfold fz. per_tac; rewrite ?P1, ?P2, ?P3; reflexivity. Qed.

(** summation by parts *)
Lemma parts_x f g : per3d f -> per3d g -> tot (fun i j k => bx f i j k * g i j k) = - tot (fun i j k => f i j k * fx g i j k).
Proof.
  intros Pf Pg. pose proof (tot_x (fun i j k => f (i - 1)%Z j k * g i j k)) as S. destruct Pf as (F1 & F2 & F3), Pg as (G1 & G2 & G3).
  assert (per3d (fun i j k => f (i - 1)%Z j k * g i j k)) as P by (per_tac; rewrite ?F1, ?F2, ?F3, ?G1, ?G2, ?G3; reflexivity). specialize (S P). cbv beta in S.
  rewrite (tot_ext (fun i j k => bx f i j k * g i j k) (fun i j k => / dx * (f i j k * g i j k) + - / dx * (f (i - 1)%Z j k * g i j k))) by (intros; unfold bx, Qcdiv; ring).
  rewrite (tot_ext (fun i j k => f i j k * fx g i j k) (fun i j k => / dx * (f (i + 1 - 1)%Z j k * g (i + 1)%Z j k) + - / dx * (f i j k * g i j k))) by (intros i j k; replace (i + 1 - 1)%Z with i by lia; unfold fx, Qcdiv; ring).
  rewrite !tot_add, !tot_scale, S. ring.
Qed.
Lemma parts_y f g : per3d f -> per3d g -> tot (fun i j k => by_ f i j k * g i j k) = - tot (fun i j k => f i j k * fy g i j k).
Proof.
  intros Pf Pg. pose proof (tot_y (fun i j k => f i (j - 1)%Z k * g i j k)) as S. destruct Pf as (F1 & F2 & F3), Pg as (G1 & G2 & G3).
  assert (per3d (fun i j k => f i (j - 1)%Z k * g i j k)) as P by (per_tac; rewrite ?F1, ?F2, ?F3, ?G1, ?G2, ?G3; reflexivity). specialize (S P). cbv beta in S.
  rewrite (tot_ext (fun i j k => by_ f i j k * g i j k) (fun i j k => / dy * (f i j k * g i j k) + - / dy * (f i (j - 1)%Z k * g i j k))) by (intros; unfold by_, Qcdiv; ring).
  rewrite (tot_ext (fun i j k => f i j k * fy g i j k) (fun i j k => / dy * (f i (j + 1 - 1)%Z k * g i (j + 1)%Z k) + - / dy * (f i j k * g i j k))) by (intros i j k; replace (j + 1 - 1)%Z with j by lia; unfold fy, Qcdiv; ring).
  rewrite !tot_add, !tot_scale, S. ring.
Qed.
Lemma parts_z f g : per3d f -> per3d g -> tot (fun i j k => bz f i j k * g i j k) = - tot (fun i j k => f i j k * fz g i j k).
Proof.
  intros Pf Pg. pose proof (tot_z (fun i j k => f i j (k - 1)%Z * g i j k)) as S. destruct Pf as (F1 & F2 & F3), Pg as (G1 & G2 & G3).
  assert (per3d (fun i j k => f i j (k - 1)%Z * g i j k)) as P by (per_tac; rewrite ?F1, ?F2, ?F3, ?G1, ?G2, ?G3; reflexivity). specialize (S P). cbv beta in S.
  rewrite (tot_ext (fun i j k => bz f i j k * g i j k) (fun i j k => / dz * (f i j k * g i j k) + - / dz * (f i j (k - 1)%Z * g i j k))) by (intros; unfold bz, Qcdiv; ring).
  rewrite (tot_ext (fun i j k => f i j k * fz g i j k) (fun i j k => / dz * (f i j (k + 1 - 1)%Z * g i j (k + 1)%Z) + - / dz * (f i j k * g i j k))) by (intros i j k; replace (k + 1 - 1)%Z with k by lia; unfold fz, Qcdiv; ring).
  rewrite !tot_add, !tot_scale, S. ring.
Qed.

(** vector fields *)
Definition vec := nat -> Z -> Z -> Z -> Qc.
Definition pervec (u : vec) : Prop := forall f, per3d (u f).
Definition dot (u v : vec) : Qc := tot (fun i j k => u 0%nat i j k * v 0%nat i j k + u 1%nat i j k * v 1%nat i j k + u 2%nat i j k * v 2%nat i j k).
Definition cb (u : vec) : vec := fun f i j k => match f with 0%nat => by_ (u 2%nat) i j k - bz (u 1%nat) i j k | 1%nat => bz (u 0%nat) i j k - bx (u 2%nat) i j k | _ => bx (u 1%nat) i j k - by_ (u 0%nat) i j k end.
Definition cf (u : vec) : vec := fun f i j k => match f with 0%nat => fy (u 2%nat) i j k - fz (u 1%nat) i j k | 1%nat => fz (u 0%nat) i j k - fx (u 2%nat) i j k | _ => fx (u 1%nat) i j k - fy (u 0%nat) i j k end.
Lemma dot_ext u u' v v' : (forall f i j k, (f < 3)%nat -> u f i j k = u' f i j k) -> (forall f i j k, (f < 3)%nat -> v f i j k = v' f i j k) -> dot u v = dot u' v'.
Proof. intros H1 H2. unfold dot. apply tot_ext. intros i j k. rewrite !H1, !H2 by lia. reflexivity. Qed.
Lemma dot_sym u v : dot u v = dot v u. Proof. unfold dot. apply tot_ext. intros. ring. Qed.
Lemma dot_lin u v w c : dot (fun f i j k => u f i j k + c * v f i j k) w = dot u w + c * dot v w.
Proof. unfold dot. rewrite <- tot_scale, <- tot_add. apply tot_ext. intros. ring. Qed.
Lemma dot_curl B E : pervec B -> pervec E -> dot (cb B) E = dot B (cf E).
Proof.
  intros PB PE. unfold dot, cb, cf.
  rewrite (tot_ext _ (fun i j k => (by_ (B 2%nat) i j k * E 0%nat i j k - bz (B 1%nat) i j k * E 0%nat i j k) + (bz (B 0%nat) i j k * E 1%nat i j k - bx (B 2%nat) i j k * E 1%nat i j k) + (bx (B 1%nat) i j k * E 2%nat i j k - by_ (B 0%nat) i j k * E 2%nat i j k))) by (intros; ring).
  rewrite !tot_add, !tot_sub, !parts_x, !parts_y, !parts_z by auto.
  assert (forall b y z : Z -> Z -> Z -> Qc, tot (fun i j k => b i j k * (y i j k - z i j k)) = tot (fun i j k => b i j k * y i j k) - tot (fun i j k => b i j k * z i j k)) as K.
  { intros b y z. rewrite <- tot_sub. apply tot_ext. intros. ring. }
  rewrite (K (B 0%nat) (fy (E 2%nat)) (fz (E 1%nat))), (K (B 1%nat) (fz (E 0%nat)) (fx (E 2%nat))), (K (B 2%nat) (fx (E 1%nat)) (fy (E 0%nat))). ring.
Qed.

(** the scheme keeps the energy *)
Section Scheme.
Variables h cs js : Qc.
Definition ham (E B : vec) : Qc := dot E E + cs * dot B B - (cs * h) * (cs * h) * dot (cb B) (cb B).
Lemma energy_step (Et B E1 B2 E2 J : vec) : pervec B -> pervec E1 -> pervec B2 ->
  (forall f i j k, (f < 3)%nat -> E1 f i j k = Et f i j k + h * cs * cb B f i j k) ->
  (forall f i j k, (f < 3)%nat -> B2 f i j k = B f i j k - (h + h) * cf E1 f i j k) ->
  (forall f i j k, (f < 3)%nat -> E2 f i j k = E1 f i j k + h * cs * cb B2 f i j k - js * J f i j k) ->
  ham (fun f i j k => E2 f i j k - js * J f i j k) B2 = ham Et B - (1 + 1) * (1 + 1) * js * dot J E2.
Proof.
  intros PB PE PB2 H1 H2 H3. unfold ham. set (P := cb B) in *. set (R := cb B2) in *. set (a := h * cs) in *.
  assert (dot B2 B2 - dot B B = - (h + h) * (dot P E1 + dot R E1)) as W1.
  { unfold P, R. rewrite !dot_curl by auto.
    transitivity (dot (fun f i j k => B2 f i j k + - (1) * B f i j k) B2 + dot (fun f i j k => B2 f i j k + - (1) * B f i j k) B).
    - rewrite !dot_lin, (dot_sym B B2). ring.
    - assert (forall v, dot (fun f i j k => B2 f i j k + - (1) * B f i j k) v = - (h + h) * dot v (cf E1)) as K.
      { intro v. rewrite (dot_ext _ (fun f i j k => (fun _ _ _ _ => 0) f i j k + - (h + h) * cf E1 f i j k) v v); [|intros f i j k Hf; cbv beta; rewrite (H2 f i j k Hf); ring|reflexivity].
        rewrite dot_lin, (dot_sym v). assert (dot (fun _ _ _ _ => 0) v = 0) as ->; [|ring].
        rewrite (dot_ext _ (fun f i j k => v f i j k + - (1) * v f i j k) v v) by (intros; ring). rewrite dot_lin. ring. }
      rewrite !K. ring. }
  assert (dot Et Et = dot E1 E1 - (a + a) * dot P E1 + a * a * dot P P) as W2.
  { rewrite (dot_ext Et (fun f i j k => E1 f i j k + - a * P f i j k) Et (fun f i j k => E1 f i j k + - a * P f i j k)) by (intros f i j k Hf; rewrite (H1 f i j k Hf); ring).
    rewrite dot_lin, !(dot_sym _ (fun f i j k => E1 f i j k + - a * P f i j k)), !dot_lin, (dot_sym E1 P). ring. }
  set (F := fun f i j k => E1 f i j k + a * R f i j k).
  assert (dot F F = dot E1 E1 + (a + a) * dot R E1 + a * a * dot R R) as W3.
  { unfold F. rewrite dot_lin, !(dot_sym _ (fun f i j k => E1 f i j k + a * R f i j k)), !dot_lin, (dot_sym E1 R). ring. }
  assert (dot J E2 = dot J F - js * dot J J) as W4.
  { rewrite (dot_ext J J E2 (fun f i j k => F f i j k + - js * J f i j k)); [|reflexivity|intros f i j k Hf; rewrite (H3 f i j k Hf); unfold F; ring]. rewrite (dot_sym J), dot_lin, (dot_sym F J). ring. }
  assert (dot (fun f i j k => E2 f i j k - js * J f i j k) (fun f i j k => E2 f i j k - js * J f i j k) = dot F F - (1 + 1) * (js + js) * dot J F + (js + js) * (js + js) * dot J J) as W5.
  { rewrite (dot_ext (fun f i j k => E2 f i j k - js * J f i j k) (fun f i j k => F f i j k + - (js + js) * J f i j k) (fun f i j k => E2 f i j k - js * J f i j k) (fun f i j k => F f i j k + - (js + js) * J f i j k)) by (intros f i j k Hf; rewrite (H3 f i j k Hf); unfold F; ring).
    rewrite dot_lin, !(dot_sym _ (fun f i j k => F f i j k + - (js + js) * J f i j k)), !dot_lin, (dot_sym F J). ring. }
  rewrite W5, W4, W3, W2. assert (dot B2 B2 = dot B B - (h + h) * (dot P E1 + dot R E1)) as -> by (rewrite <- (Qcplus_0_l (dot B B - _)); replace 0 with (dot B2 B2 - dot B B - (dot B2 B2 - dot B B)) by ring; rewrite W1 at 2; ring).
  unfold a. ring.
Qed.
End Scheme.
End Grid.
