(** Three-dimensional deposition of a particle array. *)
From Coq Require Import QArith Qround Qabs Lqa Setoid Morphisms.
From Verif Require Import Base M_Deposit S_Deposit.
From Verif Require Import P_Deposit P_Deposit2 P_Deposit3 P_Deposit4 P_Deposit5 P_Deposit6 P_Deposit7.
Local Open Scope nat_scope.
Local Open Scope Q_scope.

Lemma wrap_once_eq n i0 k : (1 < n)%Z -> (k < 5)%nat ->
  wrap_once n (wrap_index n i0 + (Z.of_nat k - 2)) = wrap_index n (i0 + (Z.of_nat k - 2)).
Proof.
  intros Hn Hk. unfold wrap_once, wrap_index.
  pose proof (Z.mod_pos_bound i0 n ltac:(lia)) as B.
  rewrite (Zplus_mod_idemp_l i0 (Z.of_nat k - 2) n) || idtac.
  rewrite <- (Zplus_mod_idemp_l i0).
  generalize dependent (i0 mod n)%Z. intros u B.
  destruct (Z.ltb_spec (u + (Z.of_nat k - 2)) 0) as [L|L].
  - rewrite <- (Z_mod_plus_full _ 1 n), Z.mod_small by lia. lia.
  - destruct (Z.leb_spec n (u + (Z.of_nat k - 2))) as [G|G].
    + rewrite <- (Z_mod_plus_full _ (-1) n), Z.mod_small by lia. lia.
    + rewrite Z.mod_small by lia. reflexivity.
Qed.

Lemma wrap_negative_eq n i : (- n <= i < n)%Z -> wrap_negative n i = wrap_index n i.
Proof.
  intros H. unfold wrap_negative, wrap_index. destruct (Z.leb_spec 0 i) as [L|L].
  - rewrite Z.mod_small by lia. reflexivity.
  - rewrite <- (Z_mod_plus_full _ 1 n), Z.mod_small by lia. lia.
Qed.

Lemma staged_range d : (-1 <= d <= 1)%Z -> loop_range_staged d = loop_range d.
Proof.
  intro H. assert (d = -1 \/ d = 0 \/ d = 1)%Z as [->|[->| ->]] by lia; reflexivity.
Qed.

Lemma weights_fast_T S0x S0y S0z DSx DSy DSz fx fy fz i j k :
  let W := weights_fast S0x S0y S0z DSx DSy DSz fx fy fz in
  fst (fst (W i j k)) == fx * at5 DSx i * T2 (at5 S0y j) (at5 DSy j) (at5 S0z k) (at5 DSz k) /\
  snd (fst (W i j k)) == fy * at5 DSy j * T2 (at5 S0x i) (at5 DSx i) (at5 S0z k) (at5 DSz k) /\
  snd (W i j k) == fz * at5 DSz k * T2 (at5 S0x i) (at5 DSx i) (at5 S0y j) (at5 DSy j).
Proof. cbv zeta. unfold weights_fast, T2. cbn [fst snd]. repeat split; ring. Qed.

Lemma weights_staged_T S0x S0y S0z DSx DSy DSz fx fy fz i j k :
  let W := weights_staged S0x S0y S0z DSx DSy DSz fx fy fz in
  fst (fst (W i j k)) == fx * at5 DSx i * T2 (at5 S0y j) (at5 DSy j) (at5 S0z k) (at5 DSz k) /\
  snd (fst (W i j k)) == fy * at5 DSy j * T2 (at5 S0x i) (at5 DSx i) (at5 S0z k) (at5 DSz k) /\
  snd (W i j k) == fz * at5 DSz k * T2 (at5 S0x i) (at5 DSx i) (at5 S0y j) (at5 DSy j).
Proof. cbv zeta. unfold weights_staged, T2. cbn [fst snd]. repeat split; ring. Qed.

(** Axis facts for the staged three-dimensional kernel (no truncating branch). *)
Lemma kernel_axis_floor x u ig x0 dx dt :
  let X0 := (x - vel u ig * (1#2) * dt - x0) / dx in
  let X1 := (x + vel u ig * (1#2) * dt - x0) / dx in
  0 < dx -> one_cell u ig dt dx ->
  let i0 := Qfloor (X0 + (1#2)) in
  let i1 := Qfloor (X1 + (1#2)) in
  let S0 := calculate_S (inject_Z i0 - X0) 0 in
  let S1 := calculate_S (inject_Z i1 - X1) (i1 - i0) in
  axis_ok S0 S1 (diff5 S1 S0) i0 (i1 - i0)
    (scaled x u ig x0 dx dt (-1#2)) (scaled x u ig x0 dx dt (1#2)).
Proof.
  intros X0 X1 D H i0 i1 S0 S1.
  apply (axis_ok_proper _ _ _ _ _ X0 X1); [apply scaled_old|apply scaled_adv|].
  apply axis_build; try reflexivity.
  unfold X0, X1. rewrite scaled_old, scaled_adv. now apply scaled_move.
Qed.

Lemma window_inside_range n X i0 k :
  window_inside n X -> inject_Z i0 - (1#2) <= X -> X < inject_Z i0 + (1#2) -> (k < 5)%nat ->
  (- n <= i0 + (Z.of_nat k - 2) < n)%Z.
Proof.
  intros [L U] B1 B2 Hk.
  assert (inject_Z (2 - n) < inject_Z (i0 + 1)) as A1
    by (rewrite inject_eval; unfold inject_Z at 3; lra).
  assert (inject_Z (i0 + 2) < inject_Z n) as A2
    by (rewrite inject_eval; unfold inject_Z at 2; lra).
  rewrite <- Zlt_Qlt in A1, A2. lia.
Qed.

Section One3.
  Variables (G : grid3) (dt q : Q) (p : part).
  Hypothesis GK : grid3_ok G.
  Hypothesis DT : ~ dt == 0.
  Hypothesis SL : slow3 G dt p.

  Let cd := q * p_w p / (h_dx G * h_dy G * h_dz G).

  Definition result3 (A A' : arrays) : Prop :=
    exists ix0 iy0 iz0 S0x S1x DSx S0y S1y DSy S0z S1z DSz dcx dcy dcz,
      axis_ok S0x S1x DSx ix0 dcx (X3 G dt (-1#2) p) (X3 G dt (1#2) p) /\
      axis_ok S0y S1y DSy iy0 dcy (Y3 G dt (-1#2) p) (Y3 G dt (1#2) p) /\
      axis_ok S0z S1z DSz iz0 dcz (Z3 G dt (-1#2) p) (Z3 G dt (1#2) p) /\
      forall a b c, (0 <= a < h_nx G)%Z -> (0 <= b < h_ny G)%Z -> (0 <= c < h_nz G)%Z ->
        let A0 := foldp ix0 (h_nx G) a (at5 S0x) in
        let A1 := foldp ix0 (h_nx G) a (at5 S1x) in
        let B0 := foldp iy0 (h_ny G) b (at5 S0y) in
        let B1 := foldp iy0 (h_ny G) b (at5 S1y) in
        let C0 := foldp iz0 (h_nz G) c (at5 S0z) in
        let C1 := foldp iz0 (h_nz G) c (at5 S1z) in
        a_rho A' (at3 G a b c) == a_rho A (at3 G a b c) + cd * A1 * B1 * C1 /\
        a_jx A' (at3 G a b c) == a_jx A (at3 G a b c)
          - cd * h_dx G / dt * foldp ix0 (h_nx G) a (fun i => psum (at5 DSx) 0 i)
            * T2 B0 (B1 - B0) C0 (C1 - C0) /\
        a_jy A' (at3 G a b c) == a_jy A (at3 G a b c)
          - cd * h_dy G / dt * foldp iy0 (h_ny G) b (fun i => psum (at5 DSy) 0 i)
            * T2 A0 (A1 - A0) C0 (C1 - C0) /\
        a_jz A' (at3 G a b c) == a_jz A (at3 G a b c)
          - cd * h_dz G / dt * foldp iz0 (h_nz G) c (fun i => psum (at5 DSz) 0 i)
            * T2 A0 (A1 - A0) B0 (B1 - B0).

  Local Notation x_old := (p_x p - vel (p_ux p) (p_ig p) * (1#2) * dt - h_x0 G).
  Local Notation y_old := (p_y p - vel (p_uy p) (p_ig p) * (1#2) * dt - h_y0 G).
  Local Notation z_old := (p_z p - vel (p_uz p) (p_ig p) * (1#2) * dt - h_z0 G).
  Local Notation x_adv := (p_x p + vel (p_ux p) (p_ig p) * (1#2) * dt - h_x0 G).
  Local Notation y_adv := (p_y p + vel (p_uy p) (p_ig p) * (1#2) * dt - h_y0 G).
  Local Notation z_adv := (p_z p + vel (p_uz p) (p_ig p) * (1#2) * dt - h_z0 G).
  Local Notation nn := (all_nonneg [x_old; x_adv; y_old; y_adv; z_old; z_adv]).

  Lemma cells_fast3 {T} (f : list nat -> list nat -> list nat -> T) dcx dcy dcz :
    (if ((dcx =? 0) && (dcy =? 0) && (dcz =? 0))%Z%bool then f (seq 1 3) (seq 1 3) (seq 1 3)
     else f (loop_range dcx) (loop_range dcy) (loop_range dcz))
    = f (loop_range dcx) (loop_range dcy) (loop_range dcz).
  Proof using.
    clear. destruct (Z.eqb_spec dcx 0) as [->|]; [|reflexivity].
    destruct (Z.eqb_spec dcy 0) as [->|]; [|reflexivity].
    destruct (Z.eqb_spec dcz 0) as [->|]; reflexivity.
  Qed.

  Lemma result_of_kernel A idx l S0x S0y S0z S1x S1y S1z DSx DSy DSz ix0 iy0 iz0 dcx dcy dcz
      W cd' fdx fdy fdz wrx wry wrz :
    axis_ok S0x S1x DSx ix0 dcx (X3 G dt (-1#2) p) (X3 G dt (1#2) p) ->
    axis_ok S0y S1y DSy iy0 dcy (Y3 G dt (-1#2) p) (Y3 G dt (1#2) p) ->
    axis_ok S0z S1z DSz iz0 dcz (Z3 G dt (-1#2) p) (Z3 G dt (1#2) p) ->
    (forall i j k,
      fst (fst (W i j k)) == fdx * at5 DSx i * T2 (at5 S0y j) (at5 DSy j) (at5 S0z k) (at5 DSz k) /\
      snd (fst (W i j k)) == fdy * at5 DSy j * T2 (at5 S0x i) (at5 DSx i) (at5 S0z k) (at5 DSz k) /\
      snd (W i j k) == fdz * at5 DSz k * T2 (at5 S0x i) (at5 DSx i) (at5 S0y j) (at5 DSy j)) ->
    (forall k, (k < 5)%nat -> wrx k = wrap_index (h_nx G) (ix0 + (Z.of_nat k - 2))) ->
    (forall k, (k < 5)%nat -> wry k = wrap_index (h_ny G) (iy0 + (Z.of_nat k - 2))) ->
    (forall k, (k < 5)%nat -> wrz k = wrap_index (h_nz G) (iz0 + (Z.of_nat k - 2))) ->
    (forall e, idx e = (wrz (e_k e) + wry (e_j e) * h_nz G + wrx (e_i e) * (h_ny G * h_nz G))%Z) ->
    l = cells3 S1x S1y S1z cd' W (loop_range dcx) (loop_range dcy) (loop_range dcz) (fun _ _ => 0) ->
    cd' == cd -> fdx == cd * h_dx G / dt -> fdy == cd * h_dy G / dt -> fdz == cd * h_dz G / dt ->
    result3 A (fold_left (add_ev idx) l A).
  Proof using GK.
    intros OKx OKy OKz HW Rx Ry Rz HI HL E0 Ex Ey Ez.
    destruct GK as (Nx & Ny & Nz & Dx & Dy & Dz).
    exists ix0, iy0, iz0, S0x, S1x, DSx, S0y, S1y, DSy, S0z, S1z, DSz, dcx, dcy, dcz.
    split; [exact OKx|]. split; [exact OKy|]. split; [exact OKz|].
    intros a b c Ha Hb Hc A0 A1 B0 B1 C0 C1.
    destruct (add_evs idx l A (at3 G a b c)) as (H1 & H2 & H3 & H4).
    assert (0 < h_nx G)%Z as Nx' by lia. assert (0 < h_ny G)%Z as Ny' by lia.
    assert (0 < h_nz G)%Z as Nz' by lia.
    pose proof (fun i j k => proj1 (HW i j k)) as Wx.
    pose proof (fun i j k => proj1 (proj2 (HW i j k))) as Wy.
    pose proof (fun i j k => proj2 (proj2 (HW i j k))) as Wz.
    pose proof (k3_rho _ _ _ _ _ _ _ _ _ _ _ _ _ _ _ _ _ _ _ _ _ _ _ _ cd' fdx fdy fdz
      OKx OKy OKz Nx' Ny' Nz' W Wx Wy Wz wrx wry wrz Rx Ry Rz idx HI a b c Ha Hb Hc) as K1.
    pose proof (k3_jx _ _ _ _ _ _ _ _ _ _ _ _ _ _ _ _ _ _ _ _ _ _ _ _ cd' fdx fdy fdz
      OKx OKy OKz Nx' Ny' Nz' W Wx Wy Wz wrx wry wrz Rx Ry Rz idx HI a b c Ha Hb Hc) as K2.
    pose proof (k3_jy _ _ _ _ _ _ _ _ _ _ _ _ _ _ _ _ _ _ _ _ _ _ _ _ cd' fdx fdy fdz
      OKx OKy OKz Nx' Ny' Nz' W Wx Wy Wz wrx wry wrz Rx Ry Rz idx HI a b c Ha Hb Hc) as K3.
    pose proof (k3_jz _ _ _ _ _ _ _ _ _ _ _ _ _ _ _ _ _ _ _ _ _ _ _ _ cd' fdx fdy fdz
      OKx OKy OKz Nx' Ny' Nz' W Wx Wy Wz wrx wry wrz Rx Ry Rz idx HI a b c Ha Hb Hc) as K4.
    rewrite <- HL in K1, K2, K3, K4. unfold at3 in *.
    split; [apply (chain_add _ _ _ _ _ H4 K1)|].
    2: split; [apply (chain_add _ _ _ _ _ H1 K2)|].
    3: split; [apply (chain_add _ _ _ _ _ H2 K3)|apply (chain_add _ _ _ _ _ H3 K4)].
    - rewrite E0. reflexivity.
    - rewrite Ex. unfold Qminus. apply Qplus_comp; [reflexivity|]. fold B0 B1 C0 C1. ring.
    - rewrite Ey. unfold Qminus. apply Qplus_comp; [reflexivity|]. fold A0 A1 C0 C1. ring.
    - rewrite Ez. unfold Qminus. apply Qplus_comp; [reflexivity|]. fold B0 B1 A0 A1. ring.
  Qed.

  Lemma one3_fused A :
    result3 A (current_deposit_3d_fast G dt
      (q / (h_dx G * h_dy G * h_dz G)) (q / (h_dy G * h_dz G * dt))
      (q / (h_dx G * h_dz G * dt)) (q / (h_dx G * h_dy G * dt)) A p).
  Proof using GK DT SL.
    destruct GK as (Nx & Ny & Nz & Dx & Dy & Dz). destruct SL as (Sx & Sy & Sz).
    pose proof (kernel_axis nn (p_x p) (p_ux p) (p_ig p) (h_x0 G) (h_dx G) dt Dx Sx) as OKx.
    pose proof (kernel_axis nn (p_y p) (p_uy p) (p_ig p) (h_y0 G) (h_dy G) dt Dy Sy) as OKy.
    pose proof (kernel_axis nn (p_z p) (p_uz p) (p_ig p) (h_z0 G) (h_dz G) dt Dz Sz) as OKz.
    cbv zeta in OKx, OKy, OKz.
    specialize (OKx ltac:(intro T; split; apply (all_nonneg_in _ _ T); cbn [In]; auto)).
    specialize (OKy ltac:(intro T; split; apply (all_nonneg_in _ _ T); cbn [In]; auto)).
    specialize (OKz ltac:(intro T; split; apply (all_nonneg_in _ _ T); cbn [In]; auto 7)).
    unfold current_deposit_3d_fast. cbv zeta.
    rewrite (cells_fast3 (fun is_ js ks => cells3 _ _ _ _ _ is_ js ks (fun _ _ => 0))).
    eapply result_of_kernel;
      [exact OKx|exact OKy|exact OKz|apply weights_fast_T
      |intros k Hk; apply (wrap_once_eq _ _ k Nx Hk)
      |intros k Hk; apply (wrap_once_eq _ _ k Ny Hk)
      |intros k Hk; apply (wrap_once_eq _ _ k Nz Hk)
      |intro e; reflexivity|reflexivity|..];
      unfold cd; field; repeat split; try exact DT; lra.
  Qed.

  Lemma one3_staged A : inside3 G dt p ->
    result3 A (current_deposit_3d G dt q A p).
  Proof using GK DT SL.
    intros (Ix & Iy & Iz).
    destruct GK as (Nx & Ny & Nz & Dx & Dy & Dz). destruct SL as (Sx & Sy & Sz).
    pose proof (kernel_axis_floor (p_x p) (p_ux p) (p_ig p) (h_x0 G) (h_dx G) dt Dx Sx) as OKx.
    pose proof (kernel_axis_floor (p_y p) (p_uy p) (p_ig p) (h_y0 G) (h_dy G) dt Dy Sy) as OKy.
    pose proof (kernel_axis_floor (p_z p) (p_uz p) (p_ig p) (h_z0 G) (h_dz G) dt Dz Sz) as OKz.
    cbv zeta in OKx, OKy, OKz.
    unfold current_deposit_3d. cbv zeta.
    rewrite (staged_range _ (ok_d _ _ _ _ _ _ _ OKx)), (staged_range _ (ok_d _ _ _ _ _ _ _ OKy)),
      (staged_range _ (ok_d _ _ _ _ _ _ _ OKz)).
    assert (forall S0 S1 DS i0 d X0 X1 n k, axis_ok S0 S1 DS i0 d X0 X1 -> window_inside n X0 ->
      (k < 5)%nat -> wrap_negative n (i0 + (Z.of_nat k - 2)) = wrap_index n (i0 + (Z.of_nat k - 2))) as WN.
    { clear. intros S0 S1 DS i0 d X0 X1 n k OK I Hk. apply wrap_negative_eq.
      destruct (ok_axis _ _ _ _ _ _ _ OK) as [_ _ _ [B1 B2] _].
      eapply window_inside_range; eauto. }
    eapply result_of_kernel;
      [exact OKx|exact OKy|exact OKz|apply weights_staged_T
      |intros k Hk; apply (WN _ _ _ _ _ _ _ _ k OKx Ix Hk)
      |intros k Hk; apply (WN _ _ _ _ _ _ _ _ k OKy Iy Hk)
      |intros k Hk; apply (WN _ _ _ _ _ _ _ _ k OKz Iz Hk)
      |intro e; cbv beta; rewrite <- Z.mul_assoc; reflexivity|reflexivity|..];
      unfold cd; field; repeat split; try exact DT; lra.
  Qed.

  Section Conseq.
    Variables A A' : arrays.
    Hypothesis R : result3 A A'.
    Variables (lo : Z) (len : nat).
    Hypothesis CV : covers3 G dt lo len p.

    Lemma one3_rho a b c : (0 <= a < h_nx G)%Z -> (0 <= b < h_ny G)%Z -> (0 <= c < h_nz G)%Z ->
      a_rho A' (at3 G a b c) == a_rho A (at3 G a b c) + density3 G dt q lo len (1#2) a b c p.
    Proof using R CV.
      intros Ha Hb Hc.
      destruct R as (ix0 & iy0 & iz0 & S0x & S1x & DSx & S0y & S1y & DSy & S0z & S1z & DSz & dcx & dcy & dcz & OKx & OKy & OKz & E).
      destruct (E a b c Ha Hb Hc) as (E1 & _). rewrite E1. unfold density3.
      destruct (ok_axis _ _ _ _ _ _ _ OKx) as [_ Wx _ _ [Bx Bx']].
      destruct (ok_axis _ _ _ _ _ _ _ OKy) as [_ Wy _ _ [By By']].
      destruct (ok_axis _ _ _ _ _ _ _ OKz) as [_ Wz _ _ [Bz Bz']].
      destruct (CV (1#2) (or_introl eq_refl)) as (Cx & Cy & Cz).
      rewrite (share_fold _ a _ _ _ lo len Wx Bx Bx' Cx).
      rewrite (share_fold _ b _ _ _ lo len Wy By By' Cy).
      rewrite (share_fold _ c _ _ _ lo len Wz Bz Bz' Cz). unfold cd. ring.
    Qed.

    Lemma one3_continuity a b c : (0 <= a < h_nx G)%Z -> (0 <= b < h_ny G)%Z -> (0 <= c < h_nz G)%Z ->
      let dj (f : arrays -> Z -> Q) z := f A' z - f A z in
      density3 G dt q lo len (1#2) a b c p - density3 G dt q lo len (-1#2) a b c p
      + dt * ((dj a_jx (at3 G a b c) - dj a_jx (at3 G ((a - 1) mod h_nx G) b c)) / h_dx G
            + (dj a_jy (at3 G a b c) - dj a_jy (at3 G a ((b - 1) mod h_ny G) c)) / h_dy G
            + (dj a_jz (at3 G a b c) - dj a_jz (at3 G a b ((c - 1) mod h_nz G))) / h_dz G) == 0.
    Proof using GK DT R CV.
      intros Ha Hb Hc dj. unfold dj. clear dj. destruct GK as (Nx & Ny & Nz & Dx & Dy & Dz).
      destruct R as (ix0 & iy0 & iz0 & S0x & S1x & DSx & S0y & S1y & DSy & S0z & S1z & DSz & dcx & dcy & dcz & OKx & OKy & OKz & E).
      assert (0 <= (a - 1) mod h_nx G < h_nx G)%Z as Ha' by (apply Z.mod_pos_bound; lia).
      assert (0 <= (b - 1) mod h_ny G < h_ny G)%Z as Hb' by (apply Z.mod_pos_bound; lia).
      assert (0 <= (c - 1) mod h_nz G < h_nz G)%Z as Hc' by (apply Z.mod_pos_bound; lia).
      destruct (E a b c Ha Hb Hc) as (_ & E2 & E3 & E4).
      destruct (E _ b c Ha' Hb Hc) as (_ & E2' & _).
      destruct (E a _ c Ha Hb' Hc) as (_ & _ & E3' & _).
      destruct (E a b _ Ha Hb Hc') as (_ & _ & _ & E4').
      rewrite E2, E3, E4, E2', E3', E4'. clear E2 E3 E2' E3' E4 E4' E. unfold density3.
      pose proof (ok_axis _ _ _ _ _ _ _ OKx) as AXx. pose proof (ok_axis _ _ _ _ _ _ _ OKy) as AXy.
      pose proof (ok_axis _ _ _ _ _ _ _ OKz) as AXz.
      pose proof (foldp_shift _ _ _ _ _ _ AXx (h_nx G) a ltac:(lia) Ha) as Fx.
      pose proof (foldp_shift _ _ _ _ _ _ AXy (h_ny G) b ltac:(lia) Hb) as Fy.
      pose proof (foldp_shift _ _ _ _ _ _ AXz (h_nz G) c ltac:(lia) Hc) as Fz.
      rewrite (foldp_ds _ _ _ _ _ _ AXx) in Fx. rewrite (foldp_ds _ _ _ _ _ _ AXy) in Fy.
      rewrite (foldp_ds _ _ _ _ _ _ AXz) in Fz.
      destruct AXx as [Wx0 Wx _ [Bx0 Bx0'] [Bx Bx']].
      destruct AXy as [Wy0 Wy _ [By0 By0'] [By By']].
      destruct AXz as [Wz0 Wz _ [Bz0 Bz0'] [Bz Bz']].
      destruct (CV (1#2) (or_introl eq_refl)) as (Cx & Cy & Cz).
      destruct (CV (-1#2) (or_intror eq_refl)) as (Cx0 & Cy0 & Cz0).
      rewrite <- (share_fold _ a _ _ _ lo len Wx Bx Bx' Cx).
      rewrite <- (share_fold _ b _ _ _ lo len Wy By By' Cy).
      rewrite <- (share_fold _ c _ _ _ lo len Wz Bz Bz' Cz).
      rewrite <- (share_fold _ a _ _ _ lo len Wx0) by (try exact Cx0; lra).
      rewrite <- (share_fold _ b _ _ _ lo len Wy0) by (try exact Cy0; lra).
      rewrite <- (share_fold _ c _ _ _ lo len Wz0) by (try exact Cz0; lra).
      assert (foldp ix0 (h_nx G) a (fun i => psum (at5 DSx) 0 i)
              == foldp ix0 (h_nx G) ((a - 1) mod h_nx G) (fun i => psum (at5 DSx) 0 i)
               + (foldp ix0 (h_nx G) a (at5 S1x) - foldp ix0 (h_nx G) a (at5 S0x))) as -> by (rewrite <- Fx; ring).
      assert (foldp iy0 (h_ny G) b (fun i => psum (at5 DSy) 0 i)
              == foldp iy0 (h_ny G) ((b - 1) mod h_ny G) (fun i => psum (at5 DSy) 0 i)
               + (foldp iy0 (h_ny G) b (at5 S1y) - foldp iy0 (h_ny G) b (at5 S0y))) as -> by (rewrite <- Fy; ring).
      assert (foldp iz0 (h_nz G) c (fun i => psum (at5 DSz) 0 i)
              == foldp iz0 (h_nz G) ((c - 1) mod h_nz G) (fun i => psum (at5 DSz) 0 i)
               + (foldp iz0 (h_nz G) c (at5 S1z) - foldp iz0 (h_nz G) c (at5 S0z))) as -> by (rewrite <- Fz; ring).
      clear Fx Fy Fz. unfold cd, T2. gen_folds. field. repeat split; try exact DT; lra.
    Qed.
  End Conseq.
End One3.
