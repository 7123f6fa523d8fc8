(** Three-dimensional deposition: totals, particle arrays, equality of the two kernels. *)
From Coq Require Import QArith Qround Qabs Lqa Setoid Morphisms.
From Verif Require Import Base M_Deposit S_Deposit.
From Verif Require Import P_Deposit P_Deposit2 P_Deposit3 P_Deposit4 P_Deposit5 P_Deposit6 P_Deposit7 P_Deposit8.
Local Open Scope nat_scope.
Local Open Scope Q_scope.

Lemma qsum_mult_sep3 {T U V} (f : T -> Q) (g : U -> Q) (h : V -> Q) l m n c :
  qsum (fun a => qsum (fun b => qsum (fun d => c * f a * g b * h d) n) m) l
  == c * qsum f l * qsum g m * qsum h n.
Proof.
  rewrite (qsum_ext _ (fun a => qsum (fun b => (c * qsum h n) * f a * g b) m)).
  - rewrite qsum_mult_sep. ring.
  - intros a _. apply qsum_ext. intros b _. rewrite (qsum_scale (c * f a * g b) h). ring.
Qed.

Section Total3.
  Variables (G : grid3) (dt q : Q) (p : part).
  Hypothesis GK : grid3_ok G.
  Hypothesis DT : ~ dt == 0.
  Variables A A' : arrays.
  Hypothesis R : result3 G dt q p A A'.

  Lemma total3_step (f : arrays -> Z -> Q) (v : Q) (F : Z -> Z -> Z -> Q) :
    (forall a b c, (0 <= a < h_nx G)%Z -> (0 <= b < h_ny G)%Z -> (0 <= c < h_nz G)%Z ->
       f A' (at3 G a b c) == f A (at3 G a b c) + F a b c) ->
    qsum (fun a => qsum (fun b => qsum (F a b) (points (h_nz G))) (points (h_ny G))) (points (h_nx G)) == v ->
    total3 G (f A') == total3 G (f A) + v.
  Proof using.
    clear. intros H E. rewrite <- E. unfold total3. rewrite <- qsum_add. apply qsum_ext.
    intros a I. rewrite <- qsum_add. apply qsum_ext. intros b J.
    rewrite <- qsum_add. apply qsum_ext. intros c K.
    apply H; now apply points_in.
  Qed.

  (** The transverse weight summed over two axes. *)
  Lemma T2_total (f f1 : Z -> Q) (g g1 : Z -> Q) l m :
    qsum f l == 1 -> qsum f1 l == 1 -> qsum g m == 1 -> qsum g1 m == 1 ->
    forall (h : Z -> Q) n c,
    qsum (fun a => qsum (fun b => qsum (fun d => c * h a * T2 (f b) (f1 b - f b) (g d) (g1 d - g d)) m) l) n
    == c * qsum h n.
  Proof using.
    clear. intros F F1 Gg G1 h n c.
    transitivity (qsum (fun a => qsum (fun b => qsum (fun d =>
        c * h a * ((1#2) * (f b + f1 b)) * g d
        + c * h a * ((1#6) * f b + (1#3) * f1 b) * (g1 d + (-1) * g d)) m) l) n).
    { apply qsum_ext. intros a _. apply qsum_ext. intros b _. apply qsum_ext. intros d _.
      unfold T2. ring. }
    transitivity (qsum (fun a => qsum (fun b => qsum (fun d =>
        c * h a * ((1#2) * (f b + f1 b)) * g d) m) l) n
      + qsum (fun a => qsum (fun b => qsum (fun d =>
        c * h a * ((1#6) * f b + (1#3) * f1 b) * (g1 d + (-1) * g d)) m) l) n).
    { rewrite <- qsum_add. apply qsum_ext. intros a _. rewrite <- qsum_add. apply qsum_ext.
      intros b _. rewrite <- qsum_add. reflexivity. }
    rewrite !qsum_mult_sep3. rewrite !qsum_add, !qsum_scale, !qsum_add, F, F1, Gg, G1.
    ring.
  Qed.

  Lemma total3_all :
    total3 G (a_rho A') == total3 G (a_rho A) + q * p_w p / (h_dx G * h_dy G * h_dz G) /\
    total3 G (a_jx A') == total3 G (a_jx A)
      + q * p_w p / (h_dx G * h_dy G * h_dz G) * vel (p_ux p) (p_ig p) /\
    total3 G (a_jy A') == total3 G (a_jy A)
      + q * p_w p / (h_dx G * h_dy G * h_dz G) * vel (p_uy p) (p_ig p) /\
    total3 G (a_jz A') == total3 G (a_jz A)
      + q * p_w p / (h_dx G * h_dy G * h_dz G) * vel (p_uz p) (p_ig p).
  Proof using GK DT R.
    destruct GK as (Nx & Ny & Nz & Dx & Dy & Dz).
    destruct R as (ix0 & iy0 & iz0 & S0x & S1x & DSx & S0y & S1y & DSy & S0z & S1z & DSz & dcx & dcy & dcz & OKx & OKy & OKz & E).
    pose proof (ok_axis _ _ _ _ _ _ _ OKx) as AXx. pose proof (ok_axis _ _ _ _ _ _ _ OKy) as AXy.
    pose proof (ok_axis _ _ _ _ _ _ _ OKz) as AXz.
    set (cd := q * p_w p / (h_dx G * h_dy G * h_dz G)) in *.
    assert (forall f, qsum (fun a => foldp ix0 (h_nx G) a f) (points (h_nx G)) == sum5 f) as TX
      by (intro f; apply foldp_total; lia).
    assert (forall f, qsum (fun a => foldp iy0 (h_ny G) a f) (points (h_ny G)) == sum5 f) as TY
      by (intro f; apply foldp_total; lia).
    assert (forall f, qsum (fun a => foldp iz0 (h_nz G) a f) (points (h_nz G)) == sum5 f) as TZ
      by (intro f; apply foldp_total; lia).
    pose proof (ax_sum0 _ _ _ _ _ _ AXx) as X0. pose proof (ax_sum1 _ _ _ _ _ _ AXx) as X1.
    pose proof (ax_sum0 _ _ _ _ _ _ AXy) as Y0. pose proof (ax_sum1 _ _ _ _ _ _ AXy) as Y1.
    pose proof (ax_sum0 _ _ _ _ _ _ AXz) as Z0. pose proof (ax_sum1 _ _ _ _ _ _ AXz) as Z1.
    rewrite <- TX in X0, X1. rewrite <- TY in Y0, Y1. rewrite <- TZ in Z0, Z1.
    pose proof (ax_moment _ _ _ _ _ _ AXx) as MX. pose proof (ax_moment _ _ _ _ _ _ AXy) as MY.
    pose proof (ax_moment _ _ _ _ _ _ AXz) as MZ.
    rewrite <- TX in MX. rewrite <- TY in MY. rewrite <- TZ in MZ.
    split; [|split; [|split]].
    - apply (total3_step a_rho _ (fun a b c => cd * foldp ix0 (h_nx G) a (at5 S1x)
          * foldp iy0 (h_ny G) b (at5 S1y) * foldp iz0 (h_nz G) c (at5 S1z))).
      + intros a b c Ha Hb Hc. apply (E a b c Ha Hb Hc).
      + rewrite qsum_mult_sep3, X1, Y1, Z1. ring.
    - apply (total3_step a_jx _ (fun a b c => - (cd * h_dx G / dt)
          * foldp ix0 (h_nx G) a (fun i => psum (at5 DSx) 0 i)
          * T2 (foldp iy0 (h_ny G) b (at5 S0y))
               (foldp iy0 (h_ny G) b (at5 S1y) - foldp iy0 (h_ny G) b (at5 S0y))
               (foldp iz0 (h_nz G) c (at5 S0z))
               (foldp iz0 (h_nz G) c (at5 S1z) - foldp iz0 (h_nz G) c (at5 S0z)))).
      + intros a b c Ha Hb Hc. destruct (E a b c Ha Hb Hc) as (_ & E2 & _). rewrite E2. ring.
      + rewrite (T2_total _ _ _ _ _ _ Y0 Y1 Z0 Z1). rewrite MX.
        unfold X3, scaled, vel. field. split; [lra|exact DT].
    - apply (total3_step a_jy _ (fun a b c => - (cd * h_dy G / dt)
          * foldp iy0 (h_ny G) b (fun i => psum (at5 DSy) 0 i)
          * T2 (foldp ix0 (h_nx G) a (at5 S0x))
               (foldp ix0 (h_nx G) a (at5 S1x) - foldp ix0 (h_nx G) a (at5 S0x))
               (foldp iz0 (h_nz G) c (at5 S0z))
               (foldp iz0 (h_nz G) c (at5 S1z) - foldp iz0 (h_nz G) c (at5 S0z)))).
      + intros a b c Ha Hb Hc. destruct (E a b c Ha Hb Hc) as (_ & _ & E3 & _). rewrite E3. ring.
      + rewrite qsum_swap. rewrite (T2_total _ _ _ _ _ _ X0 X1 Z0 Z1). rewrite MY.
        unfold Y3, scaled, vel. field. split; [lra|exact DT].
    - apply (total3_step a_jz _ (fun a b c => - (cd * h_dz G / dt)
          * foldp iz0 (h_nz G) c (fun i => psum (at5 DSz) 0 i)
          * T2 (foldp ix0 (h_nx G) a (at5 S0x))
               (foldp ix0 (h_nx G) a (at5 S1x) - foldp ix0 (h_nx G) a (at5 S0x))
               (foldp iy0 (h_ny G) b (at5 S0y))
               (foldp iy0 (h_ny G) b (at5 S1y) - foldp iy0 (h_ny G) b (at5 S0y)))).
      + intros a b c Ha Hb Hc. destruct (E a b c Ha Hb Hc) as (_ & _ & _ & E4). rewrite E4. ring.
      + rewrite (qsum_ext _ (fun a => qsum (fun c => qsum (fun b => - (cd * h_dz G / dt)
          * foldp iz0 (h_nz G) c (fun i => psum (at5 DSz) 0 i)
          * T2 (foldp ix0 (h_nx G) a (at5 S0x))
               (foldp ix0 (h_nx G) a (at5 S1x) - foldp ix0 (h_nx G) a (at5 S0x))
               (foldp iy0 (h_ny G) b (at5 S0y))
               (foldp iy0 (h_ny G) b (at5 S1y) - foldp iy0 (h_ny G) b (at5 S0y)))
            (points (h_ny G))) (points (h_nz G))) (points (h_nx G)))
          by (intros a _; apply qsum_swap).
        rewrite qsum_swap. rewrite (T2_total _ _ _ _ _ _ X0 X1 Y0 Y1). rewrite MZ.
        unfold Z3, scaled, vel. field. split; [lra|exact DT].
  Qed.
End Total3.

(** ** The closed form determines the result *)

Lemma axis_det S0 S1 DS i0 d S0' S1' DS' i0' d' X0 X1 :
  axis_ok S0 S1 DS i0 d X0 X1 -> axis_ok S0' S1' DS' i0' d' X0 X1 ->
  i0 = i0' /\ forall k, (k < 5)%nat ->
    at5 S0 k == at5 S0' k /\ at5 S1 k == at5 S1' k /\ at5 DS k == at5 DS' k.
Proof.
  intros O O'. destruct (ok_axis _ _ _ _ _ _ _ O) as [W0 W1 D [B1 B2] _].
  destruct (ok_axis _ _ _ _ _ _ _ O') as [W0' W1' D' [B1' B2'] _].
  assert (i0 = i0') as <-.
  { assert (inject_Z i0 < inject_Z i0' + 1) as L1 by lra.
    assert (inject_Z i0' < inject_Z i0 + 1) as L2 by lra.
    change 1 with (inject_Z 1) in L1, L2. rewrite <- inject_Z_plus in L1, L2.
    rewrite <- Zlt_Qlt in L1, L2. lia. }
  split; [reflexivity|]. intros k Hk.
  assert (at5 S0 k == at5 S0' k) as E0 by (now rewrite (W0 k Hk), (W0' k Hk)).
  assert (at5 S1 k == at5 S1' k) as E1 by (now rewrite (W1 k Hk), (W1' k Hk)).
  repeat split; [exact E0|exact E1|]. rewrite (D k Hk), (D' k Hk), E0, E1. reflexivity.
Qed.

Lemma psum_ext5 f g i : (i < 5)%nat -> (forall k, (k < 5)%nat -> f k == g k) ->
  psum f 0 i == psum g 0 i.
Proof. intros Hi H. apply qsum_ext. intros k I. apply in_seq in I. apply H. lia. Qed.

Definition same_on3 (G : grid3) (A B : arrays) : Prop :=
  forall a b c, (0 <= a < h_nx G)%Z -> (0 <= b < h_ny G)%Z -> (0 <= c < h_nz G)%Z ->
    a_jx A (at3 G a b c) == a_jx B (at3 G a b c) /\
    a_jy A (at3 G a b c) == a_jy B (at3 G a b c) /\
    a_jz A (at3 G a b c) == a_jz B (at3 G a b c) /\
    a_rho A (at3 G a b c) == a_rho B (at3 G a b c).

Lemma result3_det G dt q p A A' B B' :
  result3 G dt q p A A' -> result3 G dt q p B B' -> same_on3 G A B -> same_on3 G A' B'.
Proof.
  intros R R' SAME a b c Ha Hb Hc.
  destruct R as (ix0 & iy0 & iz0 & S0x & S1x & DSx & S0y & S1y & DSy & S0z & S1z & DSz & dcx & dcy & dcz & OKx & OKy & OKz & E).
  destruct R' as (ix0' & iy0' & iz0' & S0x' & S1x' & DSx' & S0y' & S1y' & DSy' & S0z' & S1z' & DSz' & dcx' & dcy' & dcz' & OKx' & OKy' & OKz' & E').
  destruct (SAME a b c Ha Hb Hc) as (M1 & M2 & M3 & M4).
  destruct (E a b c Ha Hb Hc) as (E1 & E2 & E3 & E4).
  destruct (E' a b c Ha Hb Hc) as (E1' & E2' & E3' & E4').
  destruct (axis_det _ _ _ _ _ _ _ _ _ _ _ _ OKx OKx') as (<- & Dx).
  destruct (axis_det _ _ _ _ _ _ _ _ _ _ _ _ OKy OKy') as (<- & Dy).
  destruct (axis_det _ _ _ _ _ _ _ _ _ _ _ _ OKz OKz') as (<- & Dz).
  rewrite E1, E2, E3, E4, E1', E2', E3', E4', M1, M2, M3, M4.
  clear E1 E2 E3 E4 E1' E2' E3' E4' M1 M2 M3 M4 E E' SAME.
  assert (forall i0 n a S S', (forall k, (k < 5)%nat -> at5 S k == at5 S' k) ->
            foldp i0 n a (at5 S) == foldp i0 n a (at5 S')) as F
    by (intros; now apply foldp_ext).
  assert (forall i0 n a S S', (forall k, (k < 5)%nat -> at5 S k == at5 S' k) ->
            foldp i0 n a (fun i => psum (at5 S) 0 i) == foldp i0 n a (fun i => psum (at5 S') 0 i)) as P
    by (intros; apply foldp_ext; intros; now apply psum_ext5).
  pose proof (F ix0 (h_nx G) a S0x S0x' (fun k Hk => proj1 (Dx k Hk))) as F1.
  pose proof (F ix0 (h_nx G) a S1x S1x' (fun k Hk => proj1 (proj2 (Dx k Hk)))) as F2.
  pose proof (F iy0 (h_ny G) b S0y S0y' (fun k Hk => proj1 (Dy k Hk))) as F3.
  pose proof (F iy0 (h_ny G) b S1y S1y' (fun k Hk => proj1 (proj2 (Dy k Hk)))) as F4.
  pose proof (F iz0 (h_nz G) c S0z S0z' (fun k Hk => proj1 (Dz k Hk))) as F5.
  pose proof (F iz0 (h_nz G) c S1z S1z' (fun k Hk => proj1 (proj2 (Dz k Hk)))) as F6.
  pose proof (P ix0 (h_nx G) a DSx DSx' (fun k Hk => proj2 (proj2 (Dx k Hk)))) as F7.
  pose proof (P iy0 (h_ny G) b DSy DSy' (fun k Hk => proj2 (proj2 (Dy k Hk)))) as F8.
  pose proof (P iz0 (h_nz G) c DSz DSz' (fun k Hk => proj2 (proj2 (Dz k Hk)))) as F9.
  unfold T2. rewrite F1, F2, F3, F4, F5, F6, F7, F8, F9.
  repeat split; reflexivity.
Qed.

(** ** Particle arrays *)

Definition both3 (G : grid3) (dt q : Q) (ps : list part) (D : arrays -> list part -> arrays) : Prop :=
  (D = current_deposition_cpu_3d G dt q /\ forall p, In p (alive ps) -> inside3 G dt p)
  \/ D = fused_deposition_3d G dt q.

Section Lists3.
  Variables (G : grid3) (dt q : Q) (D : arrays -> list part -> arrays) (ps : list part).
  Hypothesis GK : grid3_ok G.
  Hypothesis DT : ~ dt == 0.
  Hypothesis BD : both3 G dt q ps D.
  Hypothesis SL : forall p, In p (alive ps) -> slow3 G dt p.

  Lemma both3_kernel : exists K, D = deposit_all K /\
    forall p A, In p (alive ps) -> result3 G dt q p A (K A p).
  Proof using All.
    destruct BD as [[-> IN]| ->].
    - exists (current_deposit_3d G dt q). split; [reflexivity|]. intros p A I.
      apply one3_staged; auto.
    - eexists. split; [reflexivity|]. intros p A I. apply one3_fused; auto.
  Qed.

  Section Cov.
  Variables (lo : Z) (len : nat).
  Hypothesis CV : forall p, In p (alive ps) -> covers3 G dt lo len p.

  Lemma list3_rho A a b c : (0 <= a < h_nx G)%Z -> (0 <= b < h_ny G)%Z -> (0 <= c < h_nz G)%Z ->
    a_rho (D A ps) (at3 G a b c)
    == a_rho A (at3 G a b c) + qsum (density3 G dt q lo len (1#2) a b c) (alive ps).
  Proof using All.
    intros Ha Hb Hc. destruct both3_kernel as (K & -> & HK).
    apply (deposit_sum K (fun A => a_rho A (at3 G a b c))). intros p A0 I.
    eapply one3_rho; [exact (HK p A0 I)|auto|auto|auto|auto].
  Qed.

  Lemma list3_continuity A a b c : (0 <= a < h_nx G)%Z -> (0 <= b < h_ny G)%Z -> (0 <= c < h_nz G)%Z ->
    let dj (f : arrays -> Z -> Q) z := f (D A ps) z - f A z in
    qsum (density3 G dt q lo len (1#2) a b c) (alive ps)
    - qsum (density3 G dt q lo len (-1#2) a b c) (alive ps)
    + dt * ((dj a_jx (at3 G a b c) - dj a_jx (at3 G ((a - 1) mod h_nx G) b c)) / h_dx G
          + (dj a_jy (at3 G a b c) - dj a_jy (at3 G a ((b - 1) mod h_ny G) c)) / h_dy G
          + (dj a_jz (at3 G a b c) - dj a_jz (at3 G a b ((c - 1) mod h_nz G))) / h_dz G) == 0.
  Proof using All.
    intros Ha Hb Hc dj. unfold dj. clear dj. destruct both3_kernel as (K & -> & HK).
    set (m := fun A => dt * ((a_jx A (at3 G a b c) - a_jx A (at3 G ((a - 1) mod h_nx G) b c)) / h_dx G
          + (a_jy A (at3 G a b c) - a_jy A (at3 G a ((b - 1) mod h_ny G) c)) / h_dy G
          + (a_jz A (at3 G a b c) - a_jz A (at3 G a b ((c - 1) mod h_nz G))) / h_dz G)).
    pose proof (deposit_sum K m (fun p => density3 G dt q lo len (-1#2) a b c p
                                          + (-1) * density3 G dt q lo len (1#2) a b c p) ps) as H.
    specialize (H ltac:(intros p A0 I;
      pose proof (one3_continuity G dt q p GK DT A0 (K A0 p) (HK p A0 I) lo len (CV p I) a b c Ha Hb Hc) as C;
      cbv zeta in C; unfold m; unfold Qdiv in *; lra) A).
    rewrite qsum_add, qsum_scale in H. unfold m in H. unfold Qdiv in *. lra.
  Qed.
  End Cov.

  Lemma list3_total A :
    let sumw (v : part -> Q) := q / (h_dx G * h_dy G * h_dz G) * qsum (fun p => p_w p * v p) (alive ps) in
    total3 G (a_rho (D A ps)) == total3 G (a_rho A) + sumw (fun _ => 1) /\
    total3 G (a_jx (D A ps)) == total3 G (a_jx A) + sumw (fun p => vel (p_ux p) (p_ig p)) /\
    total3 G (a_jy (D A ps)) == total3 G (a_jy A) + sumw (fun p => vel (p_uy p) (p_ig p)) /\
    total3 G (a_jz (D A ps)) == total3 G (a_jz A) + sumw (fun p => vel (p_uz p) (p_ig p)).
  Proof using All.
    cbv zeta. destruct both3_kernel as (K & -> & HK).
    assert (forall f v, (forall p A0, In p (alive ps) ->
       total3 G (f (K A0 p)) == total3 G (f A0) + q * p_w p / (h_dx G * h_dy G * h_dz G) * v p) ->
       total3 G (f (deposit_all K A ps)) == total3 G (f A)
         + q / (h_dx G * h_dy G * h_dz G) * qsum (fun p => p_w p * v p) (alive ps)) as GEN.
    { intros f v H. rewrite (deposit_sum K (fun A => total3 G (f A)) _ ps H A).
      rewrite <- qsum_scale. apply Qplus_comp; [reflexivity|]. apply qsum_ext. intros p _.
      unfold Qdiv. ring. }
    split; [|split; [|split]]; apply GEN; intros p A0 I;
      destruct (total3_all G dt q p GK DT A0 (K A0 p) (HK p A0 I)) as (H1 & H2 & H3 & H4).
    - rewrite H1. ring.
    - exact H2.
    - exact H3.
    - exact H4.
  Qed.
End Lists3.

Lemma fused_same3 G dt q ps :
  grid3_ok G -> ~ dt == 0 ->
  (forall p, In p (alive ps) -> slow3 G dt p /\ inside3 G dt p) ->
  forall A B, same_on3 G A B ->
  same_on3 G (fused_deposition_3d G dt q A ps) (current_deposition_cpu_3d G dt q B ps).
Proof.
  intros GK DT. unfold fused_deposition_3d, current_deposition_cpu_3d.
  induction ps as [|p ps IH]; intros H A B S; [exact S|].
  rewrite !deposit_cons. rewrite alive_cons in H.
  destruct (p_dead p); cbn [negb andb] in H; [apply IH; assumption|].
  destruct (p_nan p); cbn [negb andb] in H; [apply IH; assumption|].
  apply IH; [intros; apply H; now right|].
  destruct (H p (or_introl eq_refl)) as [SL IN].
  eapply result3_det; [apply one3_fused; auto|apply one3_staged; auto|exact S].
Qed.

Lemma share_total n X lo len :
  (0 < n)%Z -> covers lo len X -> qsum (fun a => share n a X lo len) (points n) == 1.
Proof.
  intros Hn C. unfold points.
  set (i0 := Qfloor (X + (1#2))).
  destruct (floor_bounds (X + (1#2))) as [L U]. fold i0 in L, U.
  pose proof (shape_window i0 i0 X 0 L U ltac:(lia) ltac:(lia)) as W.
  assert (inject_Z i0 - (3#2) <= X) as B1 by lra.
  assert (X < inject_Z i0 + (3#2)) as B2 by lra.
  rewrite (qsum_ext _ (fun a => foldp i0 n a (at5 (calculate_S (inject_Z i0 - X) 0)))).
  - rewrite (foldp_total i0 n _ Hn). apply (win_sum i0 _ X W B1 B2).
  - intros a _. symmetry. now apply share_fold.
Qed.
