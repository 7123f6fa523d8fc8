(** The three-dimensional kernels: result of one particle. *)
From Coq Require Import QArith Qround Qabs Lqa Setoid Morphisms.
From Verif Require Import Base M_Deposit S_Deposit.
From Verif Require Import P_Deposit P_Deposit2 P_Deposit3 P_Deposit4 P_Deposit5 P_Deposit6.
Local Open Scope nat_scope.
Local Open Scope Q_scope.

Lemma psum_scale f c s i : psum (fun k => c * f k) s i == c * psum f s i.
Proof. apply qsum_scale. Qed.
Lemma psum_ext f g s i : (forall k, f k == g k) -> psum f s i == psum g s i.
Proof. intro H. apply qsum_ext. intros; apply H. Qed.

(** The time-averaged transverse weight of two axes. *)
Definition T2 (s0 ds t0 dt_ : Q) : Q :=
  (s0 + (1#2) * ds) * t0 + ((1#2) * s0 + (1#3) * ds) * dt_.

Section Kernel3.
  Variables S0x S0y S0z S1x S1y S1z DSx DSy DSz : list Q.
  Variables (ix0 iy0 iz0 dcx dcy dcz nx ny nz : Z) (X0 X1 Y0 Y1 Z0 Z1 cd fdx fdy fdz : Q).
  Hypothesis OKx : axis_ok S0x S1x DSx ix0 dcx X0 X1.
  Hypothesis OKy : axis_ok S0y S1y DSy iy0 dcy Y0 Y1.
  Hypothesis OKz : axis_ok S0z S1z DSz iz0 dcz Z0 Z1.
  Hypothesis Nx : (0 < nx)%Z.
  Hypothesis Ny : (0 < ny)%Z.
  Hypothesis Nz : (0 < nz)%Z.
  Variable W : nat -> nat -> nat -> Q * Q * Q.
  Hypothesis Wx : forall i j k, fst (fst (W i j k)) == fdx * at5 DSx i * T2 (at5 S0y j) (at5 DSy j) (at5 S0z k) (at5 DSz k).
  Hypothesis Wy : forall i j k, snd (fst (W i j k)) == fdy * at5 DSy j * T2 (at5 S0x i) (at5 DSx i) (at5 S0z k) (at5 DSz k).
  Hypothesis Wz : forall i j k, snd (W i j k) == fdz * at5 DSz k * T2 (at5 S0x i) (at5 DSx i) (at5 S0y j) (at5 DSy j).
  Variables wrx wry wrz : nat -> Z.
  Hypothesis Rx : forall k, (k < 5)%nat -> wrx k = wrap_index nx (ix0 + (Z.of_nat k - 2)).
  Hypothesis Ry : forall k, (k < 5)%nat -> wry k = wrap_index ny (iy0 + (Z.of_nat k - 2)).
  Hypothesis Rz : forall k, (k < 5)%nat -> wrz k = wrap_index nz (iz0 + (Z.of_nat k - 2)).
  Let AXx := ok_axis _ _ _ _ _ _ _ OKx.
  Let AXy := ok_axis _ _ _ _ _ _ _ OKy.
  Let AXz := ok_axis _ _ _ _ _ _ _ OKz.
  Variable idx : ev -> Z.
  Hypothesis IDX : forall e, idx e = (wrz (e_k e) + wry (e_j e) * nz + wrx (e_i e) * (ny * nz))%Z.

  Let es := cells3 S1x S1y S1z cd W (loop_range dcx) (loop_range dcy) (loop_range dcz)
                  (fun _ _ => 0).

  Variables a b c : Z.
  Hypothesis Ha : (0 <= a < nx)%Z.
  Hypothesis Hb : (0 <= b < ny)%Z.
  Hypothesis Hc : (0 <= c < nz)%Z.

  Let w (i j k : nat) : Q := ind nx ix0 a i * ind ny iy0 b j * ind nz iz0 c k.
  Let z := (c + b * nz + a * (ny * nz))%Z.

  Lemma range_lt5 d k : In k (loop_range d) -> (k < 5)%nat.
  Proof using.
    clear. rewrite loop_range_seq. intro I. apply in_seq in I.
    unfold count_of, start_of in I. destruct (d <? 0)%Z, (0 <? d)%Z; lia.
  Qed.

  Lemma idx_w3 pr : hit idx z pr es == wsum w pr es.
  Proof using IDX Ha Hb Hc Nx Ny Nz Rx Ry Rz.
    apply qsum_ext. intros e I. apply cells3_pos in I. destruct I as (I1 & I2 & I3).
    apply range_lt5 in I1. apply range_lt5 in I2. apply range_lt5 in I3.
    rewrite IDX, Rx, Ry, Rz by assumption. unfold w, ind, wrap_index, z.
    generalize (iz0 + (Z.of_nat (e_k e) - 2))%Z (iy0 + (Z.of_nat (e_j e) - 2))%Z
      (ix0 + (Z.of_nat (e_i e) - 2))%Z. intros t u v.
    assert ((t mod nz + u mod ny * nz + v mod nx * (ny * nz) =? c + b * nz + a * (ny * nz))%Z
            = ((v mod nx =? a) && (u mod ny =? b) && (t mod nz =? c))%Z%bool) as ->.
    { apply Bool.eq_iff_eq_true. rewrite !andb_true_iff, !Z.eqb_eq.
      pose proof (Z.mod_pos_bound u ny Ny) as B1. pose proof (Z.mod_pos_bound t nz Nz) as B2.
      split; [|intros [[-> ->] ->]; reflexivity].
      revert B1 B2. generalize (u mod ny)%Z (t mod nz)%Z (v mod nx)%Z. clear - Hb Hc Ny Nz.
      intros u' t' v' B1 B2 E.
      assert (t' + (u' + v' * ny) * nz = c + (b + a * ny) * nz)%Z as E' by nia.
      assert (u' + v' * ny = b + a * ny)%Z as E2 by nia.
      assert (t' = c)%Z by nia. assert (v' = a)%Z by nia. subst. repeat split; lia. }
    destruct (v mod nx =? a)%Z, (u mod ny =? b)%Z, (t mod nz =? c)%Z; cbn [andb]; ring.
  Qed.

  Lemma sep_sum3 (F G H : nat -> Q) q :
    sum5 (fun i => sum5 (fun j => sum5 (fun k => w i j k * (q * F i * G j * H k))))
    == q * foldp ix0 nx a F * foldp iy0 ny b G * foldp iz0 nz c H.
  Proof using.
    rewrite <- !foldp_ind. unfold sum5.
    rewrite (qsum_ext _ (fun i => (q * qsum (fun k => ind ny iy0 b k * G k) (seq 0 5)
        * qsum (fun k => ind nz iz0 c k * H k) (seq 0 5)) * (ind nx ix0 a i * F i))).
    - rewrite qsum_scale. ring.
    - intros i _. rewrite (qsum_ext _ (fun j => (ind nx ix0 a i * q * F i
          * qsum (fun k => ind nz iz0 c k * H k) (seq 0 5)) * (ind ny iy0 b j * G j))).
      + rewrite qsum_scale. ring.
      + intros j _. rewrite (qsum_ext _ (fun k => (ind nx ix0 a i * q * F i * (ind ny iy0 b j * G j))
           * (ind nz iz0 c k * H k))).
        * rewrite qsum_scale. ring.
        * intros k _. unfold w. ring.
  Qed.

  Definition sum555 (F : nat -> nat -> nat -> Q) : Q :=
    sum5 (fun i => sum5 (fun j => sum5 (fun k => w i j k * F i j k))).

  Lemma sum555_add F G : sum555 (fun i j k => F i j k + G i j k) == sum555 F + sum555 G.
  Proof using.
    unfold sum555, sum5. rewrite <- qsum_add. apply qsum_ext. intros i _.
    rewrite <- qsum_add. apply qsum_ext. intros j _. rewrite <- qsum_add. apply qsum_ext.
    intros k _. ring.
  Qed.
  Lemma sum555_ext F G : (forall i j k, (i < 5)%nat -> (j < 5)%nat -> (k < 5)%nat -> F i j k == G i j k) ->
    sum555 F == sum555 G.
  Proof using.
    clear Wx Wy Wz Rx Ry Rz OKx OKy OKz IDX AXx AXy AXz es W wrx wry wrz idx. intro H. unfold sum555, sum5. apply qsum_ext. intros i I. apply qsum_ext. intros j J.
    apply qsum_ext. intros k K. apply in_seq in I, J, K. rewrite H by lia. reflexivity.
  Qed.

  Lemma full3 (F : nat -> nat -> nat -> Q) :
    (forall j k, (0 <= dcx)%Z -> F 0%nat j k == 0) ->
    (forall j k, (dcx <= 0)%Z -> F 4%nat j k == 0) ->
    (forall i k, (0 <= dcy)%Z -> F i 0%nat k == 0) ->
    (forall i k, (dcy <= 0)%Z -> F i 4%nat k == 0) ->
    (forall i j, (0 <= dcz)%Z -> F i j 0%nat == 0) ->
    (forall i j, (dcz <= 0)%Z -> F i j 4%nat == 0) ->
    qsum (fun i => qsum (fun j => qsum (fun k => w i j k * F i j k)
            (seq (start_of dcz) (count_of dcz))) (seq (start_of dcy) (count_of dcy)))
         (seq (start_of dcx) (count_of dcx))
    == sum555 F.
  Proof using OKx OKy OKz.
    intros H1 H2 H3 H4 H5 H6.
    pose proof (ok_d _ _ _ _ _ _ _ OKx) as Dx. pose proof (ok_d _ _ _ _ _ _ _ OKy) as Dy.
    pose proof (ok_d _ _ _ _ _ _ _ OKz) as Dz.
    rewrite (range_full dcx).
    - apply qsum_ext. intros i I. rewrite (range_full dcy).
      + apply qsum_ext. intros j J. apply range_full; [exact Dz| |]; intro H.
        * rewrite H5 by exact H. ring.
        * rewrite H6 by exact H. ring.
      + exact Dy.
      + intro H. apply qsum_zero. intros k _. rewrite H3 by exact H. ring.
      + intro H. apply qsum_zero. intros k _. rewrite H4 by exact H. ring.
    - exact Dx.
    - intro H. apply qsum_zero. intros j _. apply qsum_zero. intros k _. rewrite H1 by exact H. ring.
    - intro H. apply qsum_zero. intros j _. apply qsum_zero. intros k _. rewrite H2 by exact H. ring.
  Qed.

  Let A0 := foldp ix0 nx a (at5 S0x).
  Let A1 := foldp ix0 nx a (at5 S1x).
  Let B0 := foldp iy0 ny b (at5 S0y).
  Let B1 := foldp iy0 ny b (at5 S1y).
  Let C0 := foldp iz0 nz c (at5 S0z).
  Let C1 := foldp iz0 nz c (at5 S1z).

  Lemma k3_rho : hit idx z e_rho es == cd * A1 * B1 * C1.
  Proof using All.
    rewrite idx_w3. unfold es. rewrite cells3_rho, !loop_range_seq.
    rewrite (full3 (fun i j k => cd * at5 S1x i * at5 S1y j * at5 S1z k)).
    - apply sep_sum3.
    - intros j k H. destruct (ok_first _ _ _ _ _ _ _ OKx) as [_ E]. rewrite E by exact H. ring.
    - intros j k H. destruct (ok_last _ _ _ _ _ _ _ OKx) as [_ E]. rewrite E by exact H. ring.
    - intros j k H. destruct (ok_first _ _ _ _ _ _ _ OKy) as [_ E]. rewrite E by exact H. ring.
    - intros j k H. destruct (ok_last _ _ _ _ _ _ _ OKy) as [_ E]. rewrite E by exact H. ring.
    - intros j k H. destruct (ok_first _ _ _ _ _ _ _ OKz) as [_ E]. rewrite E by exact H. ring.
    - intros j k H. destruct (ok_last _ _ _ _ _ _ _ OKz) as [_ E]. rewrite E by exact H. ring.
  Qed.

  Lemma T2_zero s ds t dt_ : s == 0 -> ds == 0 -> T2 s ds t dt_ == 0.
  Proof using. clear. intros H1 H2. unfold T2. rewrite H1, H2. ring. Qed.
  Lemma T2_zero' s ds t dt_ : t == 0 -> dt_ == 0 -> T2 s ds t dt_ == 0.
  Proof using. clear. intros H1 H2. unfold T2. rewrite H1, H2. ring. Qed.

  Lemma k3_jx : hit idx z e_jx es
    == - fdx * foldp ix0 nx a (fun i => psum (at5 DSx) 0 i) * T2 B0 (B1 - B0) C0 (C1 - C0).
  Proof using All.
    rewrite idx_w3. unfold es. rewrite !loop_range_seq, cells3_jx.
    rewrite (qsum_ext _ (fun i => qsum (fun j => qsum (fun k => w i j k *
       (- fdx * psum (at5 DSx) 0 i * T2 (at5 S0y j) (at5 DSy j) (at5 S0z k) (at5 DSz k)))
         (seq (start_of dcz) (count_of dcz))) (seq (start_of dcy) (count_of dcy)))).
    2:{ intros i I. apply in_seq in I. apply qsum_ext. intros j J. apply qsum_ext. intros k K.
        rewrite (psum_ext _ (fun i' => (fdx * T2 (at5 S0y j) (at5 DSy j) (at5 S0z k) (at5 DSz k)) * at5 DSx i'))
          by (intro; rewrite Wx; ring).
        rewrite psum_scale.
        rewrite (psum_start _ _ _ _ _ _ _ OKx) by lia. ring. }
    rewrite (full3 (fun i j k => - fdx * psum (at5 DSx) 0 i
                      * T2 (at5 S0y j) (at5 DSy j) (at5 S0z k) (at5 DSz k))).
    - rewrite (sum555_ext _ (fun i j k =>
         (- fdx) * psum (at5 DSx) 0 i * (at5 S0y j + (1#2) * at5 DSy j) * at5 S0z k
         + (- fdx) * psum (at5 DSx) 0 i * ((1#2) * at5 S0y j + (1#3) * at5 DSy j) * at5 DSz k))
        by (intros; unfold T2; ring).
      rewrite sum555_add. unfold sum555. rewrite !sep_sum3.
      rewrite !foldp_add, !foldp_scale.
      rewrite (foldp_ds _ _ _ _ _ _ AXy), (foldp_ds _ _ _ _ _ _ AXz).
      fold B0 B1 C0 C1.
      change (foldp ix0 nx a (fun i => psum (at5 DSx) 0 i)) with (foldp ix0 nx a (psum (at5 DSx) 0)).
      unfold T2. ring.
    - intros j k H. rewrite (psum_zero0 _ _ _ _ _ _ _ OKx) by exact H. ring.
    - intros j k H. rewrite (psum_zero4 _ _ _ _ _ _ _ OKx). ring.
    - intros j k H. rewrite T2_zero; [ring|apply (ok_first _ _ _ _ _ _ _ OKy)|now apply (ok_ds0 _ _ _ _ _ _ _ OKy)].
    - intros j k H. rewrite T2_zero; [ring|apply (ok_last _ _ _ _ _ _ _ OKy)|now apply (ok_ds4 _ _ _ _ _ _ _ OKy)].
    - intros j k H. rewrite T2_zero'; [ring|apply (ok_first _ _ _ _ _ _ _ OKz)|now apply (ok_ds0 _ _ _ _ _ _ _ OKz)].
    - intros j k H. rewrite T2_zero'; [ring|apply (ok_last _ _ _ _ _ _ _ OKz)|now apply (ok_ds4 _ _ _ _ _ _ _ OKz)].
  Qed.

  Lemma k3_jy : hit idx z e_jy es
    == - fdy * foldp iy0 ny b (fun i => psum (at5 DSy) 0 i) * T2 A0 (A1 - A0) C0 (C1 - C0).
  Proof using All.
    rewrite idx_w3. unfold es. rewrite !loop_range_seq, cells3_jy.
    rewrite (qsum_ext _ (fun i => qsum (fun j => qsum (fun k => w i j k *
       (- fdy * psum (at5 DSy) 0 j * T2 (at5 S0x i) (at5 DSx i) (at5 S0z k) (at5 DSz k)))
         (seq (start_of dcz) (count_of dcz))) (seq (start_of dcy) (count_of dcy)))).
    2:{ intros i I. apply qsum_ext. intros j J. apply in_seq in J. apply qsum_ext. intros k K.
        rewrite (psum_ext _ (fun j' => (fdy * T2 (at5 S0x i) (at5 DSx i) (at5 S0z k) (at5 DSz k)) * at5 DSy j'))
          by (intro; rewrite Wy; ring).
        rewrite psum_scale.
        rewrite (psum_start _ _ _ _ _ _ _ OKy) by lia. ring. }
    rewrite (full3 (fun i j k => - fdy * psum (at5 DSy) 0 j
                      * T2 (at5 S0x i) (at5 DSx i) (at5 S0z k) (at5 DSz k))).
    - rewrite (sum555_ext _ (fun i j k =>
         (- fdy) * (at5 S0x i + (1#2) * at5 DSx i) * psum (at5 DSy) 0 j * at5 S0z k
         + (- fdy) * ((1#2) * at5 S0x i + (1#3) * at5 DSx i) * psum (at5 DSy) 0 j * at5 DSz k))
        by (intros; unfold T2; ring).
      rewrite sum555_add. unfold sum555. rewrite !sep_sum3.
      rewrite !foldp_add, !foldp_scale.
      rewrite (foldp_ds _ _ _ _ _ _ AXx), (foldp_ds _ _ _ _ _ _ AXz).
      fold A0 A1 C0 C1.
      change (foldp iy0 ny b (fun i => psum (at5 DSy) 0 i)) with (foldp iy0 ny b (psum (at5 DSy) 0)).
      unfold T2. ring.
    - intros j k H. rewrite T2_zero; [ring|apply (ok_first _ _ _ _ _ _ _ OKx)|now apply (ok_ds0 _ _ _ _ _ _ _ OKx)].
    - intros j k H. rewrite T2_zero; [ring|apply (ok_last _ _ _ _ _ _ _ OKx)|now apply (ok_ds4 _ _ _ _ _ _ _ OKx)].
    - intros j k H. rewrite (psum_zero0 _ _ _ _ _ _ _ OKy) by exact H. ring.
    - intros j k H. rewrite (psum_zero4 _ _ _ _ _ _ _ OKy). ring.
    - intros j k H. rewrite T2_zero'; [ring|apply (ok_first _ _ _ _ _ _ _ OKz)|now apply (ok_ds0 _ _ _ _ _ _ _ OKz)].
    - intros j k H. rewrite T2_zero'; [ring|apply (ok_last _ _ _ _ _ _ _ OKz)|now apply (ok_ds4 _ _ _ _ _ _ _ OKz)].
  Qed.

  Lemma k3_jz : hit idx z e_jz es
    == - fdz * foldp iz0 nz c (fun i => psum (at5 DSz) 0 i) * T2 A0 (A1 - A0) B0 (B1 - B0).
  Proof using All.
    rewrite idx_w3. unfold es. rewrite !loop_range_seq, cells3_jz.
    rewrite (qsum_ext _ (fun i => qsum (fun j => qsum (fun k => w i j k *
       (- fdz * psum (at5 DSz) 0 k * T2 (at5 S0x i) (at5 DSx i) (at5 S0y j) (at5 DSy j)))
         (seq (start_of dcz) (count_of dcz))) (seq (start_of dcy) (count_of dcy)))).
    2:{ intros i I. apply qsum_ext. intros j J. apply qsum_ext. intros k K. apply in_seq in K.
        rewrite (psum_ext _ (fun k' => (fdz * T2 (at5 S0x i) (at5 DSx i) (at5 S0y j) (at5 DSy j)) * at5 DSz k'))
          by (intro; rewrite Wz; ring).
        rewrite psum_scale.
        rewrite (psum_start _ _ _ _ _ _ _ OKz) by lia. ring. }
    rewrite (full3 (fun i j k => - fdz * psum (at5 DSz) 0 k
                      * T2 (at5 S0x i) (at5 DSx i) (at5 S0y j) (at5 DSy j))).
    - rewrite (sum555_ext _ (fun i j k =>
         (- fdz) * (at5 S0x i + (1#2) * at5 DSx i) * at5 S0y j * psum (at5 DSz) 0 k
         + (- fdz) * ((1#2) * at5 S0x i + (1#3) * at5 DSx i) * at5 DSy j * psum (at5 DSz) 0 k))
        by (intros; unfold T2; ring).
      rewrite sum555_add. unfold sum555. rewrite !sep_sum3.
      rewrite !foldp_add, !foldp_scale.
      rewrite (foldp_ds _ _ _ _ _ _ AXx), (foldp_ds _ _ _ _ _ _ AXy).
      fold A0 A1 B0 B1.
      change (foldp iz0 nz c (fun i => psum (at5 DSz) 0 i)) with (foldp iz0 nz c (psum (at5 DSz) 0)).
      unfold T2. ring.
    - intros j k H. rewrite T2_zero; [ring|apply (ok_first _ _ _ _ _ _ _ OKx)|now apply (ok_ds0 _ _ _ _ _ _ _ OKx)].
    - intros j k H. rewrite T2_zero; [ring|apply (ok_last _ _ _ _ _ _ _ OKx)|now apply (ok_ds4 _ _ _ _ _ _ _ OKx)].
    - intros j k H. rewrite T2_zero'; [ring|apply (ok_first _ _ _ _ _ _ _ OKy)|now apply (ok_ds0 _ _ _ _ _ _ _ OKy)].
    - intros j k H. rewrite T2_zero'; [ring|apply (ok_last _ _ _ _ _ _ _ OKy)|now apply (ok_ds4 _ _ _ _ _ _ _ OKy)].
    - intros j k H. rewrite (psum_zero0 _ _ _ _ _ _ _ OKz) by exact H. ring.
    - intros j k H. rewrite (psum_zero4 _ _ _ _ _ _ _ OKz). ring.
  Qed.
End Kernel3.
