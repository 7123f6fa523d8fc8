(** The two-dimensional deposition of a particle array. *)
From Coq Require Import QArith Qround Qabs Lqa Setoid Morphisms.
From Verif Require Import Base M_Deposit S_Deposit P_Deposit P_Deposit2 P_Deposit3.
Local Open Scope nat_scope.
Local Open Scope Q_scope.

Lemma axis_build S0 S1 DS i0 i1 X0 X1 :
  i0 = Qfloor (X0 + (1#2)) -> i1 = Qfloor (X1 + (1#2)) ->
  (forall k, at5 S0 k == at5 (calculate_S (inject_Z i0 - X0) 0) k) ->
  (forall k, at5 S1 k == at5 (calculate_S (inject_Z i1 - X1) (i1 - i0)) k) ->
  DS = diff5 S1 S0 ->
  Qabs (X1 - X0) <= 1 ->
  axis_ok S0 S1 DS i0 (i1 - i0) X0 X1.
Proof.
  intros E0 E1 HS0 HS1 HD M.
  destruct (floor_bounds (X0 + (1#2))) as [L0 U0]. rewrite <- E0 in L0, U0.
  destruct (floor_bounds (X1 + (1#2))) as [L1 U1]. rewrite <- E1 in L1, U1.
  apply Qabs_Qle_condition in M. destruct M as [M1 M2].
  assert (-1 <= i1 - i0 <= 1)%Z as R.
  { assert (inject_Z i1 < inject_Z i0 + 2) as A by lra.
    assert (inject_Z i0 < inject_Z i1 + 2) as B by lra.
    change 2 with (inject_Z 2) in A, B. rewrite <- inject_Z_plus in A, B.
    rewrite <- Zlt_Qlt in A, B. lia. }
  assert (inject_Z i1 == inject_Z i0 + inject_Z (i1 - i0)) as E.
  { rewrite <- inject_Z_plus. replace (i0 + (i1 - i0))%Z with i1 by lia. reflexivity. }
  assert ((i1 - i0 = -1 \/ i1 - i0 = 0 \/ i1 - i0 = 1)%Z) as C by lia.
  constructor.
  - constructor.
    + intros k Hk. rewrite HS0. apply (shape_window i0 i0 X0 0); [lra|lra|lia|lia|exact Hk].
    + intros k Hk. rewrite HS1. apply (shape_window i0 i1 X1); [lra|lra|lia|exact R|exact Hk].
    + intros k Hk. rewrite HD, at5_diff by exact Hk. reflexivity.
    + split; lra.
    + destruct C as [C|[C|C]]; rewrite C in E; unfold inject_Z in *; split; lra.
  - exact R.
  - intro H. destruct C as [C|[C|C]]; [lia|rewrite C in E; unfold inject_Z in *; lra..].
  - intro H. destruct C as [C|[C|C]]; [rewrite C in E; unfold inject_Z in *; lra..|lia].
Qed.

Lemma all_nonneg_ext l l' : Forall2 Qeq l l' -> all_nonneg l = all_nonneg l'.
Proof.
  intro F. induction F as [|x y l l' E F IH]; [reflexivity|].
  cbn [all_nonneg forallb]. unfold all_nonneg in IH. rewrite IH. f_equal.
  apply Bool.eq_iff_eq_true. rewrite !Qle_bool_iff. now rewrite E.
Qed.

Lemma scaled_move x u ig x0 dx dt : 0 < dx -> one_cell u ig dt dx ->
  Qabs (scaled x u ig x0 dx dt (1#2) - scaled x u ig x0 dx dt (-1#2)) <= 1.
Proof.
  intros D H. unfold scaled, one_cell in *.
  assert ((x + (1#2) * (u * LIGHT_SPEED * ig) * dt - x0) / dx
          - (x + (-1#2) * (u * LIGHT_SPEED * ig) * dt - x0) / dx
          == u * LIGHT_SPEED * ig * dt / dx) as -> by (field; lra).
  unfold Qdiv. rewrite Qabs_Qmult. rewrite (Qabs_pos (/ dx)).
  - apply Qle_shift_div_r; [exact D|]. lra.
  - apply Qlt_le_weak, Qinv_lt_0_compat, D.
Qed.

Lemma scaled_old x u ig x0 dx dt :
  (x - vel u ig * (1#2) * dt - x0) / dx == scaled x u ig x0 dx dt (-1#2).
Proof. unfold scaled, vel, Qdiv. ring. Qed.
Lemma scaled_adv x u ig x0 dx dt :
  (x + vel u ig * (1#2) * dt - x0) / dx == scaled x u ig x0 dx dt (1#2).
Proof. unfold scaled, vel, Qdiv. ring. Qed.

(** axis facts need the positions only up to equality *)
Lemma axis_ok_proper S0 S1 DS i0 d X0 X1 X0' X1' :
  X0 == X0' -> X1 == X1' -> axis_ok S0 S1 DS i0 d X0 X1 -> axis_ok S0 S1 DS i0 d X0' X1'.
Proof.
  intros E0 E1 [[W0 W1 D B0 B1] R L U].
  constructor; [constructor|..].
  - intros k Hk. rewrite <- E0. now apply W0.
  - intros k Hk. rewrite <- E1. now apply W1.
  - exact D.
  - rewrite <- E0. exact B0.
  - rewrite <- E1. exact B1.
  - exact R.
  - intro H. rewrite <- E1. auto.
  - intro H. rewrite <- E1. auto.
Qed.

(** Axis facts for the arrays a kernel builds from a particle. *)
Lemma kernel_axis nn x u ig x0 dx dt :
  let X0 := (x - vel u ig * (1#2) * dt - x0) / dx in
  let X1 := (x + vel u ig * (1#2) * dt - x0) / dx in
  0 < dx -> one_cell u ig dt dx ->
  (nn = true -> 0 <= x - vel u ig * (1#2) * dt - x0 /\ 0 <= x + vel u ig * (1#2) * dt - x0) ->
  let i0 := nearest nn X0 in
  let i1 := nearest nn X1 in
  let S0 := calculate_S0 (inject_Z i0 - X0) in
  let S1 := shape1 (inject_Z i1 - X1) (i1 - i0) in
  axis_ok S0 S1 (diff5 S1 S0) i0 (i1 - i0)
    (scaled x u ig x0 dx dt (-1#2)) (scaled x u ig x0 dx dt (1#2)).
Proof.
  intros X0 X1 D H NN i0 i1 S0 S1.
  apply (axis_ok_proper _ _ _ _ _ X0 X1); [apply scaled_old|apply scaled_adv|].
  apply axis_build; try reflexivity.
  - apply nearest_floor. intro T. apply div_nonneg; [now apply NN|exact D].
  - apply nearest_floor. intro T. apply div_nonneg; [now apply NN|exact D].
  - intro k. apply S0_S.
  - intro k. apply shape1_S.
  - unfold X0, X1. rewrite scaled_old, scaled_adv. now apply scaled_move.
Qed.

Ltac gen_folds :=
  repeat match goal with |- context [foldp ?a ?b ?c ?d] => generalize (foldp a b c d); intro end.

Lemma chain_add (l a h v w : Q) : l == a + h -> h == v -> a + v == w -> l == w.
Proof. intros H1 H2 H3. rewrite H1, H2. exact H3. Qed.

Section One2.
  Variables (G : grid2) (dt q : Q) (p : part).
  Hypothesis GK : grid2_ok G.
  Hypothesis DT : ~ dt == 0.
  Hypothesis SL : slow2 G dt p.

  Let cd := q * p_w p / (g_dx G * g_dy G).

  (** The closed form both kernels satisfy. *)
  Definition result2 (A A' : arrays) : Prop :=
    exists ix0 iy0 S0x S1x DSx S0y S1y DSy dcx dcy,
      axis_ok S0x S1x DSx ix0 dcx (X2 G dt (-1#2) p) (X2 G dt (1#2) p) /\
      axis_ok S0y S1y DSy iy0 dcy (Y2 G dt (-1#2) p) (Y2 G dt (1#2) p) /\
      forall a b, (0 <= a < g_nx G)%Z -> (0 <= b < g_ny G)%Z ->
        let A0 := foldp ix0 (g_nx G) a (at5 S0x) in
        let A1 := foldp ix0 (g_nx G) a (at5 S1x) in
        let B0 := foldp iy0 (g_ny G) b (at5 S0y) in
        let B1 := foldp iy0 (g_ny G) b (at5 S1y) in
        a_rho A' (at2 G a b) == a_rho A (at2 G a b) + cd * A1 * B1 /\
        a_jx A' (at2 G a b) == a_jx A (at2 G a b)
          - cd * g_dx G / dt * foldp ix0 (g_nx G) a (fun i => psum (at5 DSx) 0 i)
            * ((1#2) * (B0 + B1)) /\
        a_jy A' (at2 G a b) == a_jy A (at2 G a b)
          - cd * g_dy G / dt * ((1#2) * (A0 + A1))
            * foldp iy0 (g_ny G) b (fun j => psum (at5 DSy) 0 j) /\
        a_jz A' (at2 G a b) == a_jz A (at2 G a b)
          + cd * vel (p_uz p) (p_ig p)
            * ((1#4) * (A0 + A1) * (B0 + B1) + (1#12) * (A1 - A0) * (B1 - B0)).

  Local Notation x_old := (p_x p - vel (p_ux p) (p_ig p) * (1#2) * dt - g_x0 G).
  Local Notation y_old := (p_y p - vel (p_uy p) (p_ig p) * (1#2) * dt - g_y0 G).
  Local Notation x_adv := (p_x p + vel (p_ux p) (p_ig p) * (1#2) * dt - g_x0 G).
  Local Notation y_adv := (p_y p + vel (p_uy p) (p_ig p) * (1#2) * dt - g_y0 G).
  Local Notation nn := (all_nonneg [x_old; x_adv; y_old; y_adv]).

  Lemma one2_staged A : result2 A (current_deposit_2d G dt q A p).
  Proof using GK DT SL.
    destruct GK as (Nx & Ny & Dx & Dy). destruct SL as [Sx Sy].
    pose proof (kernel_axis nn (p_x p) (p_ux p) (p_ig p) (g_x0 G) (g_dx G) dt Dx Sx) as OKx.
    pose proof (kernel_axis nn (p_y p) (p_uy p) (p_ig p) (g_y0 G) (g_dy G) dt Dy Sy) as OKy.
    cbv zeta in OKx, OKy.
    specialize (OKx ltac:(intro T; split; apply (all_nonneg_in _ _ T); cbn [In]; auto)).
    specialize (OKy ltac:(intro T; split; apply (all_nonneg_in _ _ T); cbn [In]; auto)).
    unfold result2. do 10 eexists. split; [exact OKx|]. split; [exact OKy|].
    cbv zeta. intros a b Ha Hb.
    unfold current_deposit_2d. cbv zeta.
    match goal with |- context [fold_left (add_ev ?f) ?l A] =>
      destruct (add_evs f l A (at2 G a b)) as (H1 & H2 & H3 & H4) end.
    match goal with |- context [rows2 _ _ _ _ _ _ ?c1 ?c2 ?c3 ?c4] =>
      pose proof (k2_rho _ _ _ _ _ _ _ _ _ _ _ _ _ _ _ _ c1 c2 c3 c4 OKx OKy Nx Ny a b Ha Hb) as K1;
      pose proof (k2_jx _ _ _ _ _ _ _ _ _ _ _ _ _ _ _ _ c1 c2 c3 c4 OKx OKy Nx Ny a b Ha Hb) as K2;
      pose proof (k2_jy _ _ _ _ _ _ _ _ _ _ _ _ _ _ _ _ c1 c2 c3 c4 OKx OKy Nx Ny a b Ha Hb) as K3;
      pose proof (k2_jz _ _ _ _ _ _ _ _ _ _ _ _ _ _ _ _ c1 c2 c3 c4 OKx OKy Nx Ny a b Ha Hb) as K4
    end.
    unfold at2 in *.
    split; [apply (chain_add _ _ _ _ _ H4 K1)|].
    2: split; [apply (chain_add _ _ _ _ _ H1 K2)|].
    3: split; [apply (chain_add _ _ _ _ _ H2 K3)|apply (chain_add _ _ _ _ _ H3 K4)].
    all: clear K1 K2 K3 K4 H1 H2 H3 H4; gen_folds; unfold cd; field; repeat split; try exact DT; lra.
  Qed.

  Lemma cells_fast {T} (f : list nat -> list nat -> T) dcx dcy :
    (if ((dcx =? 0) && (dcy =? 0))%Z%bool then f (seq 1 3) (seq 1 3)
     else f (loop_range dcx) (loop_range dcy)) = f (loop_range dcx) (loop_range dcy).
  Proof using.
    clear. destruct (Z.eqb_spec dcx 0) as [->|]; [|reflexivity].
    destruct (Z.eqb_spec dcy 0) as [->|]; reflexivity.
  Qed.

  Lemma one2_fused A :
    result2 A (current_deposit_2d_fast G dt (q / (g_dx G * g_dy G)) (q / (g_dy G * dt))
                 (q / (g_dx G * dt)) A p).
  Proof using GK DT SL.
    destruct GK as (Nx & Ny & Dx & Dy). destruct SL as [Sx Sy].
    pose proof (kernel_axis nn (p_x p) (p_ux p) (p_ig p) (g_x0 G) (g_dx G) dt Dx Sx) as OKx.
    pose proof (kernel_axis nn (p_y p) (p_uy p) (p_ig p) (g_y0 G) (g_dy G) dt Dy Sy) as OKy.
    cbv zeta in OKx, OKy.
    specialize (OKx ltac:(intro T; split; apply (all_nonneg_in _ _ T); cbn [In]; auto)).
    specialize (OKy ltac:(intro T; split; apply (all_nonneg_in _ _ T); cbn [In]; auto)).
    unfold result2. do 10 eexists. split; [exact OKx|]. split; [exact OKy|].
    cbv zeta. intros a b Ha Hb.
    unfold current_deposit_2d_fast. cbv zeta.
    rewrite (cells_fast (fun is_ js => rows2 _ _ _ _ _ _ _ _ _ _ is_ js (fun _ => 0))).
    match goal with |- context [fold_left (add_ev ?f) ?l A] =>
      destruct (add_evs f l A (at2 G a b)) as (H1 & H2 & H3 & H4) end.
    match goal with |- context [rows2 _ _ _ _ _ _ ?c1 ?c2 ?c3 ?c4] =>
      pose proof (k2_rho _ _ _ _ _ _ _ _ _ _ _ _ _ _ _ _ c1 c2 c3 c4 OKx OKy Nx Ny a b Ha Hb) as K1;
      pose proof (k2_jx _ _ _ _ _ _ _ _ _ _ _ _ _ _ _ _ c1 c2 c3 c4 OKx OKy Nx Ny a b Ha Hb) as K2;
      pose proof (k2_jy _ _ _ _ _ _ _ _ _ _ _ _ _ _ _ _ c1 c2 c3 c4 OKx OKy Nx Ny a b Ha Hb) as K3;
      pose proof (k2_jz _ _ _ _ _ _ _ _ _ _ _ _ _ _ _ _ c1 c2 c3 c4 OKx OKy Nx Ny a b Ha Hb) as K4
    end.
    unfold at2 in *.
    split; [apply (chain_add _ _ _ _ _ H4 K1)|].
    2: split; [apply (chain_add _ _ _ _ _ H1 K2)|].
    3: split; [apply (chain_add _ _ _ _ _ H2 K3)|apply (chain_add _ _ _ _ _ H3 K4)].
    all: clear K1 K2 K3 K4 H1 H2 H3 H4; gen_folds; unfold cd; field; repeat split; try exact DT; lra.
  Qed.

  (** Consequences of the closed form. *)
  Section Conseq.
    Variables A A' : arrays.
    Hypothesis R : result2 A A'.
    Variables (lo : Z) (len : nat).
    Hypothesis CV : covers2 G dt lo len p.

    Lemma one2_rho a b : (0 <= a < g_nx G)%Z -> (0 <= b < g_ny G)%Z ->
      a_rho A' (at2 G a b) == a_rho A (at2 G a b) + density2 G dt q lo len (1#2) a b p.
    Proof using R CV.
      intros Ha Hb. destruct R as (ix0 & iy0 & S0x & S1x & DSx & S0y & S1y & DSy & dcx & dcy & OKx & OKy & E).
      destruct (E a b Ha Hb) as (E1 & _). rewrite E1. unfold density2.
      destruct (ok_axis _ _ _ _ _ _ _ OKx) as [_ Wx _ _ [Bx Bx']].
      destruct (ok_axis _ _ _ _ _ _ _ OKy) as [_ Wy _ _ [By By']].
      destruct (CV (1#2) (or_introl eq_refl)) as [Cx Cy].
      rewrite (share_fold _ a _ _ _ lo len Wx Bx Bx' Cx).
      rewrite (share_fold _ b _ _ _ lo len Wy By By' Cy). unfold cd. ring.
    Qed.

    Lemma one2_continuity a b : (0 <= a < g_nx G)%Z -> (0 <= b < g_ny G)%Z ->
      let dj (f : arrays -> Z -> Q) z := f A' z - f A z in
      density2 G dt q lo len (1#2) a b p - density2 G dt q lo len (-1#2) a b p
      + dt * ((dj a_jx (at2 G a b) - dj a_jx (at2 G ((a - 1) mod g_nx G) b)) / g_dx G
            + (dj a_jy (at2 G a b) - dj a_jy (at2 G a ((b - 1) mod g_ny G))) / g_dy G) == 0.
    Proof using GK DT R CV.
      intros Ha Hb dj. unfold dj. clear dj. destruct GK as (Nx & Ny & Dx & Dy).
      destruct R as (ix0 & iy0 & S0x & S1x & DSx & S0y & S1y & DSy & dcx & dcy & OKx & OKy & E).
      assert (0 <= (a - 1) mod g_nx G < g_nx G)%Z as Ha' by (apply Z.mod_pos_bound; exact Nx).
      assert (0 <= (b - 1) mod g_ny G < g_ny G)%Z as Hb' by (apply Z.mod_pos_bound; exact Ny).
      destruct (E a b Ha Hb) as (_ & E2 & E3 & _).
      destruct (E _ b Ha' Hb) as (_ & E2' & _).
      destruct (E a _ Ha Hb') as (_ & _ & E3' & _).
      rewrite E2, E3, E2', E3'. clear E2 E3 E2' E3' E. unfold density2.
      pose proof (ok_axis _ _ _ _ _ _ _ OKx) as AXx. pose proof (ok_axis _ _ _ _ _ _ _ OKy) as AXy.
      pose proof (foldp_shift _ _ _ _ _ _ AXx (g_nx G) a Nx Ha) as Fx.
      pose proof (foldp_shift _ _ _ _ _ _ AXy (g_ny G) b Ny Hb) as Fy.
      rewrite (foldp_ds _ _ _ _ _ _ AXx) in Fx. rewrite (foldp_ds _ _ _ _ _ _ AXy) in Fy.
      destruct AXx as [Wx0 Wx _ [Bx0 Bx0'] [Bx Bx']].
      destruct AXy as [Wy0 Wy _ [By0 By0'] [By By']].
      destruct (CV (1#2) (or_introl eq_refl)) as [Cx Cy].
      destruct (CV (-1#2) (or_intror eq_refl)) as [Cx0 Cy0].
      rewrite <- (share_fold _ a _ _ _ lo len Wx Bx Bx' Cx).
      rewrite <- (share_fold _ b _ _ _ lo len Wy By By' Cy).
      rewrite <- (share_fold _ a _ _ _ lo len Wx0) by (try exact Cx0; lra).
      rewrite <- (share_fold _ b _ _ _ lo len Wy0) by (try exact Cy0; lra).
      assert (foldp ix0 (g_nx G) a (fun i => psum (at5 DSx) 0 i)
              == foldp ix0 (g_nx G) ((a - 1) mod g_nx G) (fun i => psum (at5 DSx) 0 i)
               + (foldp ix0 (g_nx G) a (at5 S1x) - foldp ix0 (g_nx G) a (at5 S0x))) as -> by (rewrite <- Fx; ring).
      assert (foldp iy0 (g_ny G) b (fun i => psum (at5 DSy) 0 i)
              == foldp iy0 (g_ny G) ((b - 1) mod g_ny G) (fun i => psum (at5 DSy) 0 i)
               + (foldp iy0 (g_ny G) b (at5 S1y) - foldp iy0 (g_ny G) b (at5 S0y))) as -> by (rewrite <- Fy; ring).
      clear Fx Fy. unfold cd. gen_folds. field. repeat split; try exact DT; lra.
    Qed.
  End Conseq.
End One2.
