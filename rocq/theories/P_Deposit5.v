(** Two-dimensional deposition of a whole particle array. *)
From Coq Require Import QArith Qround Qabs Lqa Setoid Morphisms.
From Verif Require Import Base M_Deposit S_Deposit P_Deposit P_Deposit2 P_Deposit3 P_Deposit4.
Local Open Scope nat_scope.
Local Open Scope Q_scope.

Lemma deposit_cons K A p ps :
  deposit_all K A (p :: ps) =
  deposit_all K (if p_dead p then A else if p_nan p then A else K A p) ps.
Proof. reflexivity. Qed.

Lemma alive_cons p ps :
  alive (p :: ps) = if negb (p_dead p) && negb (p_nan p) then p :: alive ps else alive ps.
Proof. reflexivity. Qed.

(** A quantity that every kernel call increases by [c p] is increased by the sum. *)
Lemma deposit_sum (K : arrays -> part -> arrays) (m : arrays -> Q) (c : part -> Q) ps :
  (forall p A, In p (alive ps) -> m (K A p) == m A + c p) ->
  forall A, m (deposit_all K A ps) == m A + qsum c (alive ps).
Proof.
  induction ps as [|p ps IH]; intros H A; [cbn; ring|].
  rewrite deposit_cons. rewrite alive_cons in *.
  destruct (p_dead p); cbn [negb andb] in *; [now apply IH|].
  destruct (p_nan p); cbn [negb andb] in *; [now apply IH|].
  rewrite IH; [|intros; apply H; now right]. rewrite H by (now left). rewrite qsum_cons. ring.
Qed.

Lemma qsum_mult_sep {T U} (f : T -> Q) (g : U -> Q) l m c :
  qsum (fun a => qsum (fun b => c * f a * g b) m) l == c * qsum f l * qsum g m.
Proof.
  rewrite (qsum_ext _ (fun a => (c * qsum g m) * f a)).
  - rewrite qsum_scale. ring.
  - intros a _. rewrite (qsum_scale (c * f a) g). ring.
Qed.

Lemma points_in n a : In a (points n) -> (0 <= a < n)%Z.
Proof.
  unfold points, zfrom. intro I. apply in_map_iff in I. destruct I as (k & <- & I).
  apply in_seq in I. lia.
Qed.

Section Total2.
  Variables (G : grid2) (dt q : Q) (p : part).
  Hypothesis GK : grid2_ok G.
  Hypothesis DT : ~ dt == 0.
  Variables A A' : arrays.
  Hypothesis R : result2 G dt q p A A'.

  Lemma total2_plus f g : total2 G (fun z => f z + g z) == total2 G f + total2 G g.
  Proof using.
    clear. unfold total2. rewrite <- qsum_add. apply qsum_ext. intros a _.
    rewrite <- qsum_add. reflexivity.
  Qed.

  Lemma total2_step (f : arrays -> Z -> Q) (v : Q) (F : Z -> Z -> Q) :
    (forall a b, (0 <= a < g_nx G)%Z -> (0 <= b < g_ny G)%Z ->
       f A' (at2 G a b) == f A (at2 G a b) + F a b) ->
    qsum (fun a => qsum (F a) (points (g_ny G))) (points (g_nx G)) == v ->
    total2 G (f A') == total2 G (f A) + v.
  Proof using.
    clear. intros H E. rewrite <- E. unfold total2. rewrite <- qsum_add. apply qsum_ext.
    intros a I. rewrite <- qsum_add. apply qsum_ext. intros b J.
    apply H; now apply points_in.
  Qed.

  Lemma total2_all :
    total2 G (a_rho A') == total2 G (a_rho A) + q * p_w p / (g_dx G * g_dy G) /\
    total2 G (a_jx A') == total2 G (a_jx A)
      + q * p_w p / (g_dx G * g_dy G) * vel (p_ux p) (p_ig p) /\
    total2 G (a_jy A') == total2 G (a_jy A)
      + q * p_w p / (g_dx G * g_dy G) * vel (p_uy p) (p_ig p) /\
    total2 G (a_jz A') == total2 G (a_jz A)
      + q * p_w p / (g_dx G * g_dy G) * vel (p_uz p) (p_ig p).
  Proof using GK DT R.
    destruct GK as (Nx & Ny & Dx & Dy).
    destruct R as (ix0 & iy0 & S0x & S1x & DSx & S0y & S1y & DSy & dcx & dcy & OKx & OKy & E).
    pose proof (ok_axis _ _ _ _ _ _ _ OKx) as AXx. pose proof (ok_axis _ _ _ _ _ _ _ OKy) as AXy.
    set (cd := q * p_w p / (g_dx G * g_dy G)) in *.
    assert (forall f, qsum (fun a => foldp ix0 (g_nx G) a f) (points (g_nx G)) == sum5 f) as TX
      by (intro f; apply foldp_total; exact Nx).
    assert (forall f, qsum (fun a => foldp iy0 (g_ny G) a f) (points (g_ny G)) == sum5 f) as TY
      by (intro f; apply foldp_total; exact Ny).
    pose proof (ax_sum0 _ _ _ _ _ _ AXx) as X0. pose proof (ax_sum1 _ _ _ _ _ _ AXx) as X1.
    pose proof (ax_sum0 _ _ _ _ _ _ AXy) as Y0. pose proof (ax_sum1 _ _ _ _ _ _ AXy) as Y1.
    pose proof (ax_moment _ _ _ _ _ _ AXx) as MX. pose proof (ax_moment _ _ _ _ _ _ AXy) as MY.
    split; [|split; [|split]].
    - apply (total2_step a_rho _ (fun a b => cd * foldp ix0 (g_nx G) a (at5 S1x) * foldp iy0 (g_ny G) b (at5 S1y))).
      + intros a b Ha Hb. apply (E a b Ha Hb).
      + rewrite qsum_mult_sep, TX, TY, X1, Y1. ring.
    - apply (total2_step a_jx _ (fun a b => - (cd * g_dx G / dt)
          * foldp ix0 (g_nx G) a (fun i => psum (at5 DSx) 0 i)
          * ((1#2) * (foldp iy0 (g_ny G) b (at5 S0y) + foldp iy0 (g_ny G) b (at5 S1y))))).
      + intros a b Ha Hb. destruct (E a b Ha Hb) as (_ & E2 & _). rewrite E2. ring.
      + rewrite qsum_mult_sep, TX, MX.
        rewrite qsum_scale, qsum_add, !TY, Y0, Y1.
        unfold X2, scaled, vel. field. split; [lra|exact DT].
    - apply (total2_step a_jy _ (fun a b => - (cd * g_dy G / dt)
          * ((1#2) * (foldp ix0 (g_nx G) a (at5 S0x) + foldp ix0 (g_nx G) a (at5 S1x)))
          * foldp iy0 (g_ny G) b (fun i => psum (at5 DSy) 0 i))).
      + intros a b Ha Hb. destruct (E a b Ha Hb) as (_ & _ & E3 & _). rewrite E3. ring.
      + rewrite qsum_mult_sep, TY, MY.
        rewrite qsum_scale, qsum_add, !TX, X0, X1.
        unfold Y2, scaled, vel. field. split; [lra|exact DT].
    - set (vz := vel (p_uz p) (p_ig p)).
      apply (total2_step a_jz _ (fun a b =>
          cd * vz * (1#4) * (foldp ix0 (g_nx G) a (at5 S0x) + foldp ix0 (g_nx G) a (at5 S1x))
            * (foldp iy0 (g_ny G) b (at5 S0y) + foldp iy0 (g_ny G) b (at5 S1y))
          + cd * vz * (1#12) * foldp ix0 (g_nx G) a (at5 DSx) * foldp iy0 (g_ny G) b (at5 DSy))).
      + intros a b Ha Hb. destruct (E a b Ha Hb) as (_ & _ & _ & E4). rewrite E4.
        rewrite (foldp_ds _ _ _ _ _ _ AXx), (foldp_ds _ _ _ _ _ _ AXy). fold vz. ring.
      + transitivity (cd * vz * (1#4) * qsum (fun a => foldp ix0 (g_nx G) a (at5 S0x) + foldp ix0 (g_nx G) a (at5 S1x)) (points (g_nx G))
           * qsum (fun b => foldp iy0 (g_ny G) b (at5 S0y) + foldp iy0 (g_ny G) b (at5 S1y)) (points (g_ny G))
         + cd * vz * (1#12) * qsum (fun a => foldp ix0 (g_nx G) a (at5 DSx)) (points (g_nx G))
           * qsum (fun b => foldp iy0 (g_ny G) b (at5 DSy)) (points (g_ny G))).
        * rewrite <- !qsum_mult_sep. rewrite <- qsum_add. apply qsum_ext. intros a _.
          rewrite <- qsum_add. reflexivity.
        * rewrite !qsum_add, !TX, !TY, X0, X1, Y0, Y1.
          rewrite (ax_sumd _ _ _ _ _ _ AXx). ring.
  Qed.
End Total2.

(** ** Both kernels, for particle arrays *)

Definition both2 (G : grid2) (dt q : Q) (D : arrays -> list part -> arrays) : Prop :=
  D = current_deposition_cpu_2d G dt q \/ D = fused_deposition_2d G dt q.

Section Lists2.
  Variables (G : grid2) (dt q : Q) (D : arrays -> list part -> arrays) (ps : list part).
  Hypothesis GK : grid2_ok G.
  Hypothesis DT : ~ dt == 0.
  Hypothesis BD : both2 G dt q D.
  Hypothesis SL : forall p, In p (alive ps) -> slow2 G dt p.

  Lemma both2_kernel : exists K, D = deposit_all K /\
    forall p A, In p (alive ps) -> result2 G dt q p A (K A p).
  Proof using All.
    destruct BD as [->| ->].
    - exists (current_deposit_2d G dt q). split; [reflexivity|]. intros p A I.
      apply one2_staged; auto.
    - eexists. split; [reflexivity|]. intros p A I. apply one2_fused; auto.
  Qed.

  Section Cov.
  Variables (lo : Z) (len : nat).
  Hypothesis CV : forall p, In p (alive ps) -> covers2 G dt lo len p.

  Lemma list2_rho A a b : (0 <= a < g_nx G)%Z -> (0 <= b < g_ny G)%Z ->
    a_rho (D A ps) (at2 G a b)
    == a_rho A (at2 G a b) + qsum (density2 G dt q lo len (1#2) a b) (alive ps).
  Proof using All.
    intros Ha Hb. destruct both2_kernel as (K & -> & HK).
    apply (deposit_sum K (fun A => a_rho A (at2 G a b))). intros p A0 I.
    eapply one2_rho; [exact (HK p A0 I)|auto|auto|auto].
  Qed.

  Lemma list2_continuity A a b : (0 <= a < g_nx G)%Z -> (0 <= b < g_ny G)%Z ->
    let dj (f : arrays -> Z -> Q) z := f (D A ps) z - f A z in
    qsum (density2 G dt q lo len (1#2) a b) (alive ps)
    - qsum (density2 G dt q lo len (-1#2) a b) (alive ps)
    + dt * ((dj a_jx (at2 G a b) - dj a_jx (at2 G ((a - 1) mod g_nx G) b)) / g_dx G
          + (dj a_jy (at2 G a b) - dj a_jy (at2 G a ((b - 1) mod g_ny G))) / g_dy G) == 0.
  Proof using All.
    intros Ha Hb dj. unfold dj. clear dj. destruct both2_kernel as (K & -> & HK).
    set (m := fun A => dt * ((a_jx A (at2 G a b) - a_jx A (at2 G ((a - 1) mod g_nx G) b)) / g_dx G
          + (a_jy A (at2 G a b) - a_jy A (at2 G a ((b - 1) mod g_ny G))) / g_dy G)).
    pose proof (deposit_sum K m (fun p => density2 G dt q lo len (-1#2) a b p
                                          + (-1) * density2 G dt q lo len (1#2) a b p) ps) as H.
    specialize (H ltac:(intros p A0 I;
      pose proof (one2_continuity G dt q p GK DT A0 (K A0 p) (HK p A0 I) lo len (CV p I) a b Ha Hb) as C;
      cbv zeta in C; unfold m; unfold Qdiv in *; lra) A).
    rewrite qsum_add, qsum_scale in H. unfold m in H. unfold Qdiv in *. lra.
  Qed.
  End Cov.

  Lemma list2_total A :
    let sumw (v : part -> Q) := q / (g_dx G * g_dy G) * qsum (fun p => p_w p * v p) (alive ps) in
    total2 G (a_rho (D A ps)) == total2 G (a_rho A) + sumw (fun _ => 1) /\
    total2 G (a_jx (D A ps)) == total2 G (a_jx A) + sumw (fun p => vel (p_ux p) (p_ig p)) /\
    total2 G (a_jy (D A ps)) == total2 G (a_jy A) + sumw (fun p => vel (p_uy p) (p_ig p)) /\
    total2 G (a_jz (D A ps)) == total2 G (a_jz A) + sumw (fun p => vel (p_uz p) (p_ig p)).
  Proof using All.
    cbv zeta. destruct both2_kernel as (K & -> & HK).
    assert (forall f v, (forall p A0, In p (alive ps) ->
       total2 G (f (K A0 p)) == total2 G (f A0) + q * p_w p / (g_dx G * g_dy G) * v p) ->
       total2 G (f (deposit_all K A ps)) == total2 G (f A)
         + q / (g_dx G * g_dy G) * qsum (fun p => p_w p * v p) (alive ps)) as GEN.
    { intros f v H. rewrite (deposit_sum K (fun A => total2 G (f A)) _ ps H A).
      rewrite <- qsum_scale. apply Qplus_comp; [reflexivity|]. apply qsum_ext. intros p _.
      unfold Qdiv. ring. }
    split; [|split; [|split]]; apply GEN; intros p A0 I;
      destruct (total2_all G dt q p GK DT A0 (K A0 p) (HK p A0 I)) as (H1 & H2 & H3 & H4).
    - rewrite H1. ring.
    - exact H2.
    - exact H3.
    - exact H4.
  Qed.
End Lists2.

(** ** The fused kernel equals the staged one, without any condition on the motion *)

#[global] Instance qsum_morph {T} : Proper (pointwise_relation T Qeq ==> eq ==> Qeq) (@qsum T).
Proof. intros f g H l l' <-. apply qsum_ext. intros; apply H. Qed.

Definition same_arrays (A B : arrays) : Prop :=
  forall z, a_jx A z == a_jx B z /\ a_jy A z == a_jy B z /\ a_jz A z == a_jz B z
            /\ a_rho A z == a_rho B z.

Lemma hit_as_wsum idx z pr l (g : nat -> nat -> nat -> Z) :
  (forall e, idx e = g (e_i e) (e_j e) (e_k e)) ->
  hit idx z pr l == wsum (fun i j k => if (g i j k =? z)%Z then 1 else 0) pr l.
Proof.
  intro H. apply qsum_ext. intros e _. rewrite H. destruct (_ =? z)%Z; ring.
Qed.

Lemma fused_same_one G dt q A B p :
  ~ dt == 0 -> ~ g_dx G == 0 -> ~ g_dy G == 0 -> same_arrays A B ->
  same_arrays
    (current_deposit_2d_fast G dt (q / (g_dx G * g_dy G)) (q / (g_dy G * dt)) (q / (g_dx G * dt)) A p)
    (current_deposit_2d G dt q B p).
Proof.
  intros DT DX DY S z. unfold current_deposit_2d_fast, current_deposit_2d. cbv zeta.
  rewrite (cells_fast (fun is_ js => rows2 _ _ _ _ _ _ _ _ _ _ is_ js (fun _ => 0))).
  rewrite !loop_range_seq.
  match goal with |- context [rows2 ?s0x ?s0y ?s1x ?s1y ?dsx ?dsy _ _ _ _ (seq ?si ?ni) (seq ?sj ?nj) _] =>
    generalize s0x s0y s1x s1y dsx dsy si ni sj nj end.
  intros s0x s0y s1x s1y dsx dsy si ni sj nj.
  match goal with |- context [fold_left (add_ev ?f) _ A] => set (idx := f) end.
  destruct (S z) as (S1 & S2 & S3 & S4).
  match goal with |- context [fold_left (add_ev idx) ?l A] =>
    destruct (add_evs idx l A z) as (H1 & H2 & H3 & H4) end.
  match goal with |- context [fold_left (add_ev idx) ?l B] =>
    destruct (add_evs idx l B z) as (K1 & K2 & K3 & K4) end.
  rewrite H1, H2, H3, H4, K1, K2, K3, K4, S1, S2, S3, S4.
  clear H1 H2 H3 H4 K1 K2 K3 K4 S1 S2 S3 S4.
  assert (exists g : nat -> nat -> nat -> Z, forall e, idx e = g (e_i e) (e_j e) (e_k e)) as (g & Hg).
  { exists (fun i j k => idx {| e_i := i; e_j := j; e_k := k; e_jx := 0; e_jy := 0; e_jz := 0; e_rho := 0 |}).
    intro e. reflexivity. }
  clearbody idx. rewrite !(hit_as_wsum idx z _ _ g Hg).
  rewrite !rows2_jx, !rows2_jy, !rows2_jz, !rows2_rho.
  repeat split; (apply Qplus_comp; [reflexivity|]); apply qsum_ext; intros i _; apply qsum_ext;
    intros j _; generalize (if (g i j 0%nat =? z)%Z then 1 else 0); intro c; field; auto.
Qed.

Lemma fused_same G dt q ps :
  ~ dt == 0 -> ~ g_dx G == 0 -> ~ g_dy G == 0 ->
  forall A B, same_arrays A B ->
  same_arrays (fused_deposition_2d G dt q A ps) (current_deposition_cpu_2d G dt q B ps).
Proof.
  intros DT DX DY. induction ps as [|p ps IH]; intros A B S; [exact S|].
  unfold fused_deposition_2d, current_deposition_cpu_2d in *. rewrite !deposit_cons.
  apply IH. destruct (p_dead p); [exact S|]. destruct (p_nan p); [exact S|].
  apply fused_same_one; auto.
Qed.
