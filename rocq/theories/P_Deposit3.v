(** The two-dimensional kernels: result of one particle, and of a particle list. *)
From Coq Require Import QArith Qround Qabs Lqa Setoid Morphisms.
From Verif Require Import Base M_Deposit S_Deposit P_Deposit P_Deposit2.
Local Open Scope nat_scope.
Local Open Scope Q_scope.

Definition start_of (d : Z) : nat := if (d <? 0)%Z then 0%nat else 1%nat.
Definition count_of (d : Z) : nat :=
  ((if (0 <? d)%Z then 5%nat else 4%nat) - start_of d)%nat.
Lemma loop_range_seq d : loop_range d = seq (start_of d) (count_of d).
Proof. reflexivity. Qed.

Lemma range_full d F : (-1 <= d <= 1)%Z ->
  ((0 <= d)%Z -> F 0%nat == 0) -> ((d <= 0)%Z -> F 4%nat == 0) ->
  qsum F (seq (start_of d) (count_of d)) == sum5 F.
Proof.
  intros H H0 H4. rewrite sum5_eq. unfold start_of, count_of, start_of.
  assert (d = -1 \/ d = 0 \/ d = 1)%Z as C by lia.
  destruct C as [-> | [-> | ->]]; cbn [Z.ltb Z.compare Nat.sub seq qsum fold_right].
  - rewrite H4 by lia. ring.
  - rewrite H0, H4 by lia. ring.
  - rewrite H0 by lia. ring.
Qed.

(** ** Axis facts in the form used by the loops *)
Record axis_ok (S0 S1 DS : list Q) (i0 d : Z) (X0 X1 : Q) : Prop := {
  ok_axis : axis (at5 S0) (at5 S1) (at5 DS) i0 X0 X1;
  ok_d : (-1 <= d <= 1)%Z;
  ok_lo : (0 <= d)%Z -> inject_Z i0 - (1#2) <= X1;
  ok_hi : (d <= 0)%Z -> X1 < inject_Z i0 + (1#2);
}.

Lemma inj_sub a : inject_Z (a - 2) == inject_Z a - 2.
Proof. unfold Z.sub. rewrite inject_Z_plus. reflexivity. Qed.
Lemma inj_add2 a : inject_Z (a + 2) == inject_Z a + 2.
Proof. rewrite inject_Z_plus. reflexivity. Qed.

Section AxisOk.
  Variables (S0 S1 DS : list Q) (i0 d : Z) (X0 X1 : Q).
  Hypothesis OK : axis_ok S0 S1 DS i0 d X0 X1.
  Let AX := ok_axis _ _ _ _ _ _ _ OK.

  Lemma ok_first : at5 S0 0 == 0 /\ ((0 <= d)%Z -> at5 S1 0 == 0).
  Proof using OK.
    destruct AX as [W0 W1 D [B0 B0'] _]. split; [|intro H; pose proof (ok_lo _ _ _ _ _ _ _ OK H)].
    - rewrite (W0 0%nat) by lia. apply spline_out. left.
      change (Z.of_nat 0 - 2)%Z with (-2)%Z. rewrite inject_eval. unfold inject_Z in *. lra.
    - rewrite (W1 0%nat) by lia. apply spline_out. left.
      change (Z.of_nat 0 - 2)%Z with (-2)%Z. rewrite inject_eval. unfold inject_Z in *. lra.
  Qed.
  Lemma ok_last : at5 S0 4 == 0 /\ ((d <= 0)%Z -> at5 S1 4 == 0).
  Proof using OK.
    destruct AX as [W0 W1 D [B0 B0'] _]. split; [|intro H; pose proof (ok_hi _ _ _ _ _ _ _ OK H)].
    - rewrite (W0 4%nat) by lia. apply spline_out. right.
      change (Z.of_nat 4 - 2)%Z with 2%Z. rewrite inject_eval. unfold inject_Z in *. lra.
    - rewrite (W1 4%nat) by lia. apply spline_out. right.
      change (Z.of_nat 4 - 2)%Z with 2%Z. rewrite inject_eval. unfold inject_Z in *. lra.
  Qed.
  Lemma ok_ds0 : (0 <= d)%Z -> at5 DS 0 == 0.
  Proof using OK.
    intro H. rewrite (ax_d _ _ _ _ _ _ AX) by lia. destruct ok_first as [E1 E2].
    rewrite E1, E2 by exact H. ring.
  Qed.
  Lemma ok_ds4 : (d <= 0)%Z -> at5 DS 4 == 0.
  Proof using OK.
    intro H. rewrite (ax_d _ _ _ _ _ _ AX) by lia. destruct ok_last as [E1 E2].
    rewrite E1, E2 by exact H. ring.
  Qed.

  Lemma psum_start i : (start_of d <= i)%nat -> psum (at5 DS) (start_of d) i == psum (at5 DS) 0 i.
  Proof using OK.
    unfold start_of. destruct (Z.ltb_spec d 0) as [L|L]; [reflexivity|].
    intro H. destruct (Nat.eq_dec i 0) as [->|N]; [lia|].
    rewrite (psum_step _ 0 i) by lia. rewrite ok_ds0 by exact L. ring.
  Qed.

  Lemma psum_zero0 : (0 <= d)%Z -> psum (at5 DS) 0 0 == 0.
  Proof using OK. intro H. rewrite psum_first. now apply ok_ds0. Qed.
  Lemma psum_zero4 : psum (at5 DS) 0 4 == 0.
  Proof using OK. eapply psum_last. exact AX. Qed.

  Lemma half0 : (0 <= d)%Z -> at5 S0 0 + (1#2) * at5 DS 0 == 0.
  Proof using OK. intro H. rewrite ok_ds0 by exact H. destruct ok_first as [E _]. rewrite E. ring. Qed.
  Lemma half4 : (d <= 0)%Z -> at5 S0 4 + (1#2) * at5 DS 4 == 0.
  Proof using OK. intro H. rewrite ok_ds4 by exact H. destruct ok_last as [E _]. rewrite E. ring. Qed.
End AxisOk.

Definition ind (n i0 a : Z) (k : nat) : Q :=
  if (wrap_index n (i0 + (Z.of_nat k - 2)) =? a)%Z then 1 else 0.

Lemma foldp_ind i0 n a f : sum5 (fun k => ind n i0 a k * f k) == foldp i0 n a f.
Proof.
  unfold foldp, sum5. apply qsum_ext. intros k _. unfold ind. destruct (_ =? a)%Z; ring.
Qed.

(** The fold of the time-centred shape. *)
Lemma foldp_half S0 S1 DS i0 X0 X1 n a :
  axis (at5 S0) (at5 S1) (at5 DS) i0 X0 X1 ->
  foldp i0 n a (fun k => at5 S0 k + (1#2) * at5 DS k)
  == (1#2) * (foldp i0 n a (at5 S0) + foldp i0 n a (at5 S1)).
Proof.
  intro AX. rewrite foldp_add, (foldp_scale i0 n a (1#2) (at5 DS)).
  rewrite (foldp_ds _ _ _ _ _ _ AX). ring.
Qed.

Section Kernel2.
  Variables S0x S0y S1x S1y DSx DSy : list Q.
  Variables (ix0 iy0 dcx dcy nx ny : Z) (X0 X1 Y0 Y1 cd fdx fdy fz : Q).
  Hypothesis OKx : axis_ok S0x S1x DSx ix0 dcx X0 X1.
  Hypothesis OKy : axis_ok S0y S1y DSy iy0 dcy Y0 Y1.
  Hypothesis Nx : (0 < nx)%Z.
  Hypothesis Ny : (0 < ny)%Z.
  Let AXx := ok_axis _ _ _ _ _ _ _ OKx.
  Let AXy := ok_axis _ _ _ _ _ _ _ OKy.

  Let idx (e : ev) : Z :=
    (wrap_index ny (iy0 + (Z.of_nat (e_j e) - 2))
     + wrap_index nx (ix0 + (Z.of_nat (e_i e) - 2)) * ny)%Z.
  Let es := rows2 S0x S0y S1x S1y DSx DSy cd fdx fdy fz (loop_range dcx) (loop_range dcy)
                  (fun _ => 0).

  Variables a b : Z.
  Hypothesis Ha : (0 <= a < nx)%Z.
  Hypothesis Hb : (0 <= b < ny)%Z.

  Let w (i j k : nat) : Q := ind nx ix0 a i * ind ny iy0 b j.

  Lemma idx_w pr l : hit idx (b + a * ny) pr l == wsum w pr l.
  Proof using Ha Hb Nx Ny.
    apply qsum_ext. intros e _. unfold idx, w, ind, wrap_index.
    set (u := (iy0 + (Z.of_nat (e_j e) - 2))%Z). set (v := (ix0 + (Z.of_nat (e_i e) - 2))%Z).
    assert ((u mod ny + v mod nx * ny =? b + a * ny)%Z
            = ((v mod nx =? a) && (u mod ny =? b))%Z%bool) as ->.
    { apply Bool.eq_iff_eq_true. rewrite andb_true_iff, !Z.eqb_eq.
      pose proof (Z.mod_pos_bound u ny Ny). split; [|intros [-> ->]; reflexivity].
      generalize dependent (u mod ny)%Z. generalize (v mod nx)%Z. intros p r Hr E.
      assert (p = a) by nia. subst p. lia. }
    destruct (v mod nx =? a)%Z, (u mod ny =? b)%Z; cbn [andb]; ring.
  Qed.

  Lemma sep_sum (F G : nat -> Q) c :
    sum5 (fun i => sum5 (fun j => w i j 0%nat * (c * F i * G j)))
    == c * foldp ix0 nx a F * foldp iy0 ny b G.
  Proof using.
    rewrite <- !foldp_ind, !sum5_eq. unfold w. cbv beta. ring.
  Qed.

  (** Extend the two loops to the full window when the summand vanishes at the ends. *)
  Lemma full2 (F : nat -> nat -> Q) :
    (forall j, (j < 5)%nat -> (0 <= dcx)%Z -> F 0%nat j == 0) ->
    (forall j, (j < 5)%nat -> (dcx <= 0)%Z -> F 4%nat j == 0) ->
    (forall i, (i < 5)%nat -> (0 <= dcy)%Z -> F i 0%nat == 0) ->
    (forall i, (i < 5)%nat -> (dcy <= 0)%Z -> F i 4%nat == 0) ->
    qsum (fun i => qsum (fun j => w i j 0%nat * F i j) (seq (start_of dcy) (count_of dcy)))
         (seq (start_of dcx) (count_of dcx))
    == sum5 (fun i => sum5 (fun j => w i j 0%nat * F i j)).
  Proof using OKx OKy.
    intros H1 H2 H3 H4.
    pose proof (ok_d _ _ _ _ _ _ _ OKx) as Dx. pose proof (ok_d _ _ _ _ _ _ _ OKy) as Dy.
    rewrite (range_full dcx).
    - apply qsum_ext. intros i I. apply in_seq in I. apply range_full; [exact Dy| |]; intro H.
      + rewrite H3 by (try exact H; lia). ring.
      + rewrite H4 by (try exact H; lia). ring.
    - exact Dx.
    - intro H. apply qsum_zero. intros j J. apply in_seq in J.
      rewrite H1; [ring| |exact H]. unfold start_of, count_of, start_of in J.
      destruct (dcy <? 0)%Z, (0 <? dcy)%Z; lia.
    - intro H. apply qsum_zero. intros j J. apply in_seq in J.
      rewrite H2; [ring| |exact H]. unfold start_of, count_of, start_of in J.
      destruct (dcy <? 0)%Z, (0 <? dcy)%Z; lia.
  Qed.

  Let A0 := foldp ix0 nx a (at5 S0x).
  Let A1 := foldp ix0 nx a (at5 S1x).
  Let B0 := foldp iy0 ny b (at5 S0y).
  Let B1 := foldp iy0 ny b (at5 S1y).

  Lemma k2_rho : hit idx (b + a * ny) e_rho es == cd * A1 * B1.
  Proof using Ha Hb Nx Ny OKx OKy.
    rewrite idx_w. unfold es. rewrite rows2_rho, !loop_range_seq.
    rewrite (full2 (fun i j => cd * at5 S1x i * at5 S1y j)).
    - apply sep_sum.
    - intros j _ H. destruct (ok_first _ _ _ _ _ _ _ OKx) as [_ E]. rewrite E by exact H. ring.
    - intros j _ H. destruct (ok_last _ _ _ _ _ _ _ OKx) as [_ E]. rewrite E by exact H. ring.
    - intros j _ H. destruct (ok_first _ _ _ _ _ _ _ OKy) as [_ E]. rewrite E by exact H. ring.
    - intros j _ H. destruct (ok_last _ _ _ _ _ _ _ OKy) as [_ E]. rewrite E by exact H. ring.
  Qed.

  Lemma k2_jx : hit idx (b + a * ny) e_jx es
    == - fdx * foldp ix0 nx a (fun i => psum (at5 DSx) 0 i) * ((1#2) * (B0 + B1)).
  Proof using Ha Hb Nx Ny OKx OKy.
    rewrite idx_w. unfold es. rewrite !loop_range_seq, rows2_jx.
    rewrite (qsum_ext _ (fun i => qsum (fun j => w i j 0%nat *
       (- fdx * psum (at5 DSx) 0 i * (at5 S0y j + (1#2) * at5 DSy j)))
         (seq (start_of dcy) (count_of dcy)))).
    2:{ intros i I. apply in_seq in I. apply qsum_ext. intros j J.
        rewrite (psum_start _ _ _ _ _ _ _ OKx) by lia. ring. }
    rewrite (full2 (fun i j => - fdx * psum (at5 DSx) 0 i * (at5 S0y j + (1#2) * at5 DSy j))).
    - rewrite sep_sum. rewrite (foldp_half _ _ _ _ _ _ _ _ AXy). reflexivity.
    - intros j _ H. rewrite (psum_zero0 _ _ _ _ _ _ _ OKx) by exact H. ring.
    - intros j _ H. rewrite (psum_zero4 _ _ _ _ _ _ _ OKx). ring.
    - intros j _ H. rewrite (half0 _ _ _ _ _ _ _ OKy) by exact H. ring.
    - intros j _ H. rewrite (half4 _ _ _ _ _ _ _ OKy) by exact H. ring.
  Qed.

  Lemma k2_jy : hit idx (b + a * ny) e_jy es
    == - fdy * ((1#2) * (A0 + A1)) * foldp iy0 ny b (fun j => psum (at5 DSy) 0 j).
  Proof using Ha Hb Nx Ny OKx OKy.
    rewrite idx_w. unfold es. rewrite !loop_range_seq, rows2_jy.
    rewrite (qsum_ext _ (fun i => qsum (fun j => w i j 0%nat *
       (- fdy * (at5 S0x i + (1#2) * at5 DSx i) * psum (at5 DSy) 0 j))
         (seq (start_of dcy) (count_of dcy)))).
    2:{ intros i I. apply qsum_ext. intros j J. apply in_seq in J.
        rewrite (psum_start _ _ _ _ _ _ _ OKy) by lia. ring. }
    rewrite (full2 (fun i j => - fdy * (at5 S0x i + (1#2) * at5 DSx i) * psum (at5 DSy) 0 j)).
    - rewrite sep_sum. rewrite (foldp_half _ _ _ _ _ _ _ _ AXx). reflexivity.
    - intros j _ H. rewrite (half0 _ _ _ _ _ _ _ OKx) by exact H. ring.
    - intros j _ H. rewrite (half4 _ _ _ _ _ _ _ OKx) by exact H. ring.
    - intros j _ H. rewrite (psum_zero0 _ _ _ _ _ _ _ OKy) by exact H. ring.
    - intros j _ H. rewrite (psum_zero4 _ _ _ _ _ _ _ OKy). ring.
  Qed.

  Lemma k2_jz : hit idx (b + a * ny) e_jz es
    == fz * ((1#4) * (A0 + A1) * (B0 + B1) + (1#12) * (A1 - A0) * (B1 - B0)).
  Proof using Ha Hb Nx Ny OKx OKy.
    rewrite idx_w. unfold es. rewrite !loop_range_seq, rows2_jz.
    rewrite (full2 (fun i j => fz * ((at5 S0x i + (1#2) * at5 DSx i) * (at5 S0y j + (1#2) * at5 DSy j)
                      + (1#12) * at5 DSx i * at5 DSy j))).
    - transitivity (sum5 (fun i => sum5 (fun j => w i j 0%nat *
           (fz * (at5 S0x i + (1#2) * at5 DSx i) * (at5 S0y j + (1#2) * at5 DSy j))))
         + sum5 (fun i => sum5 (fun j => w i j 0%nat * ((fz * (1#12)) * at5 DSx i * at5 DSy j)))).
      { unfold sum5. rewrite <- qsum_add. apply qsum_ext. intros i _. rewrite <- qsum_add.
        apply qsum_ext. intros j _. ring. }
      rewrite (sep_sum (fun i => at5 S0x i + (1#2) * at5 DSx i)
                 (fun j => at5 S0y j + (1#2) * at5 DSy j) fz).
      rewrite (sep_sum (at5 DSx) (at5 DSy) (fz * (1#12))).
      rewrite (foldp_half _ _ _ _ _ _ _ _ AXx), (foldp_half _ _ _ _ _ _ _ _ AXy).
      rewrite (foldp_ds _ _ _ _ _ _ AXx), (foldp_ds _ _ _ _ _ _ AXy).
      fold A0 A1 B0 B1. ring.
    - intros j _ H. rewrite (half0 _ _ _ _ _ _ _ OKx), (ok_ds0 _ _ _ _ _ _ _ OKx) by exact H. ring.
    - intros j _ H. rewrite (half4 _ _ _ _ _ _ _ OKx), (ok_ds4 _ _ _ _ _ _ _ OKx) by exact H. ring.
    - intros j _ H. rewrite (half0 _ _ _ _ _ _ _ OKy), (ok_ds0 _ _ _ _ _ _ _ OKy) by exact H. ring.
    - intros j _ H. rewrite (half4 _ _ _ _ _ _ _ OKy), (ok_ds4 _ _ _ _ _ _ _ OKy) by exact H. ring.
  Qed.
End Kernel2.
