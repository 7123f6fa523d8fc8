(** Symmetries: deposition. *)
From Coq Require Import QArith Qround Qabs Qcanon Lqa Permutation Setoid Morphisms.
From Verif Require Import Base M_Layout M_PartSync S_PartSync M_FieldSync S_Maxwell M_Deposit S_Deposit P_Deposit P_Deposit2 P_Deposit3 P_Deposit4 P_Deposit5 M_Push S_Push M_Step S_Step
  P_Step2 P_Step3 P_Step5 S_Gauss P_Gauss1 S_Sym P_Sym1 P_Sym2 P_Sym3.
Local Open Scope list_scope.
Local Open Scope Q_scope.

(** * One axis *)
Lemma spline_even d e : e == - d -> spline e == spline d.
Proof.
  intro H. unfold spline. assert (Qabs e == Qabs d) as E by (rewrite H; apply Qabs_opp).
  rewrite (Qleb_comp _ _ E _ _ (Qeq_refl (1#2))), (Qleb_comp _ _ E _ _ (Qeq_refl (3#2))). destruct (Qle_bool (Qabs d) (1#2)); [rewrite H; ring|]. destruct (Qle_bool (Qabs d) (3#2)); [rewrite E; ring|reflexivity].
Qed.
Lemma spline_eq d e : e == d -> spline e == spline d.
Proof.
  intro H. unfold spline. assert (Qabs e == Qabs d) as E by (rewrite H; reflexivity).
  rewrite (Qleb_comp _ _ E _ _ (Qeq_refl (1#2))), (Qleb_comp _ _ E _ _ (Qeq_refl (3#2))). destruct (Qle_bool (Qabs d) (1#2)); [rewrite H; ring|]. destruct (Qle_bool (Qabs d) (3#2)); [rewrite E; ring|reflexivity].
Qed.
Lemma zfrom_shift A lo len : map (fun i => (i + A)%Z) (zfrom lo len) = zfrom (lo + A) len.
Proof. unfold zfrom. rewrite map_map. apply map_ext. intro k. lia. Qed.
Lemma zfrom_flip A len : forall lo, Permutation (map (fun i => (A - i)%Z) (zfrom lo len)) (zfrom (A - lo - Z.of_nat len + 1) len).
Proof.
  induction len as [|len IH]; intro lo; [constructor|].
  assert (zfrom lo (S len) = zfrom lo len ++ [(lo + Z.of_nat len)%Z]) as -> by (unfold zfrom; rewrite seq_S, map_app; reflexivity).
  rewrite map_app. cbn [map].
  assert (zfrom (A - lo - Z.of_nat (S len) + 1) (S len) = (A - (lo + Z.of_nat len))%Z :: zfrom (A - lo - Z.of_nat len + 1) len) as ->.
  { unfold zfrom. cbn [seq map]. f_equal; [lia|]. rewrite <- seq_shift, map_map. apply map_ext. intro k. lia. }
  eapply perm_trans; [apply Permutation_sym, Permutation_cons_append|]. apply perm_skip. apply IH.
Qed.
Lemma sgn_sq b : sgn b * sgn b == 1. Proof. destruct b; reflexivity. Qed.
Lemma inj_minus a b : inject_Z (a - b) == inject_Z a - inject_Z b.
Proof. unfold Z.sub. rewrite inject_Z_plus, inject_Z_opp. reflexivity. Qed.
Lemma mod_plus_k (a k N : Z) : (0 < N)%Z -> ((a + k * N) mod N = a mod N)%Z.
Proof. intro H. apply Z.mod_add. lia. Qed.
(** the cell that is carried to [a], again *)
Lemma carried_test rev A k N h a i : (0 < N)%Z -> (0 <= a < N)%Z ->
  (to_ rev (A + k * N) h i mod N =? a)%Z = (i mod N =? origin_of rev A N h a)%Z.
Proof.
  intros P Ha. apply Bool.eq_iff_eq_true. rewrite !Z.eqb_eq. split; intro H.
  - rewrite <- (origin_to rev A N h k i P), H. reflexivity.
  - unfold origin_of, to_, hz in *. destruct rev.
    + set (c := (if h then 1 else 0)%Z) in *. clearbody c. replace (A + k * N - i - c)%Z with (A - i - c + k * N)%Z by lia. rewrite mod_plus_k by exact P.
      replace (A - i - c)%Z with (A - c - i)%Z by lia. rewrite <- Zminus_mod_idemp_r, H, Zminus_mod_idemp_r.
      replace (A - c - (A - a - c))%Z with a by lia. apply Z.mod_small. exact Ha.
    + replace (i + (A + k * N))%Z with (i + A + k * N)%Z by lia. rewrite mod_plus_k by exact P.
      rewrite <- Zplus_mod_idemp_l, H, Zplus_mod_idemp_l. replace (a - A + A)%Z with a by lia. apply Z.mod_small. exact Ha.
Qed.
Lemma share_move rev A k N a X X' lo len : (0 < N)%Z -> (0 <= a < N)%Z -> X' == sgn rev * X + inject_Z (A + k * N) ->
  share N a X' (if rev then A + k * N - lo - Z.of_nat len + 1 else lo + (A + k * N))%Z len == share N (origin_of rev A N false a) X lo len.
Proof.
  intros P Ha E. unfold share.
  assert (qsum (fun i => if (i mod N =? a)%Z then spline (inject_Z i - X') else 0) (map (to_ rev (A + k * N) false) (zfrom lo len))
    == qsum (fun i => if (i mod N =? origin_of rev A N false a)%Z then spline (inject_Z i - X) else 0) (zfrom lo len)) as K.
  { rewrite qsum_map. apply qsum_ext. intros i _. rewrite carried_test by assumption. destruct (_ =? _)%Z; [|reflexivity].
    unfold to_, hz. destruct rev; cbn [sgn] in E.
    - apply spline_even. rewrite E, Z.sub_0_r, inj_minus. ring.
    - apply spline_eq. rewrite E, inject_Z_plus. ring. }
  rewrite <- K. destruct rev.
  - rewrite <- (qsum_perm _ _ _ (zfrom_flip (A + k * N) len lo)). apply qsum_perm.
    assert (map (to_ true (A + k * N) false) (zfrom lo len) = map (fun i => (A + k * N - i)%Z) (zfrom lo len)) as -> by (apply map_ext; intro i; unfold to_, hz; lia). apply Permutation_refl.
  - rewrite <- zfrom_shift. assert (map (to_ false (A + k * N) false) (zfrom lo len) = map (fun i => (i + (A + k * N))%Z) (zfrom lo len)) as -> by (apply map_ext; intro i; reflexivity). reflexivity.
Qed.
Lemma fold_move rev A k N a F F' i0 i0' X X' : (0 < N)%Z -> (0 <= a < N)%Z -> X' == sgn rev * X + inject_Z (A + k * N) ->
  window_of F i0 X -> inject_Z i0 - (3#2) <= X -> X < inject_Z i0 + (3#2) ->
  window_of F' i0' X' -> inject_Z i0' - (3#2) <= X' -> X' < inject_Z i0' + (3#2) ->
  foldp i0' N a F' == foldp i0 N (origin_of rev A N false a) F.
Proof.
  intros P Ha E W L U W' L' U'.
  rewrite (share_fold N _ F i0 X (i0 - 10) 20 W L U).
  2:{ split; [rewrite inj_minus|rewrite inject_Z_plus, inj_minus]; unfold inject_Z in *; cbn [Z.of_nat Pos.of_succ_nat Pos.succ]; lra. }
  rewrite <- (share_move rev A k N a X X' _ _ P Ha E). apply share_fold; auto.
  destruct rev; cbn [sgn] in E; split; rewrite ?E; rewrite ?inject_Z_plus, ?inj_minus, ?inject_Z_plus, ?inj_minus, ?inject_Z_plus; change (inject_Z (Z.of_nat 20)) with 20; change (inject_Z 10) with 10; change (inject_Z 1) with 1; lra.
Qed.
Lemma constant_zero N (u : Z -> Q) : (0 < N)%Z -> (forall a, (0 <= a < N)%Z -> u a == u ((a - 1) mod N)%Z) -> qsum u (points N) == 0 -> forall a, (0 <= a < N)%Z -> u a == 0.
Proof.
  intros P H T.
  assert (forall n, (Z.of_nat n < N)%Z -> u (Z.of_nat n) == u 0%Z) as C.
  { induction n as [|n IH]; intro Hn; [reflexivity|]. rewrite (H (Z.of_nat (S n))) by lia. replace (Z.of_nat (S n) - 1)%Z with (Z.of_nat n) by lia. rewrite Z.mod_small by lia. apply IH. lia. }
  assert (forall a, (0 <= a < N)%Z -> u a == u 0%Z) as C' by (intros a Ha; rewrite <- (Z2Nat.id a) by lia; apply C; lia).
  assert (forall l, (forall a, In a l -> (0 <= a < N)%Z) -> qsum u l == inject_Z (Z.of_nat (length l)) * u 0%Z) as K.
  { induction l as [|x l IH]; intro Hl; [cbn [qsum fold_right length]; change (inject_Z (Z.of_nat 0)) with 0; ring|].
    rewrite qsum_cons, IH by (intros; apply Hl; right; assumption). rewrite (C' x) by (apply Hl; left; reflexivity). cbn [length]. rewrite Nat2Z.inj_succ. unfold Z.succ. rewrite inject_Z_plus. change (inject_Z 1) with 1. ring. }
  rewrite (K (points N)) in T by (intros a Ia; apply points_in; exact Ia).
  intros a Ha. rewrite (C' a Ha). unfold points, zfrom in T. rewrite map_length, seq_length, Z2Nat.id in T by lia.
  apply Qmult_integral in T. destruct T as [T|T]; [|exact T]. exfalso. unfold Qeq in T. cbn in T. lia.
Qed.
Lemma points_move rev A N h : (0 < N)%Z -> Permutation (map (origin_of rev A N h) (points N)) (points N).
Proof.
  intro P. assert (forall a, In a (points N) <-> (0 <= a < N)%Z) as IP.
  { intro a. split; [apply points_in|]. intro Ha. unfold points, zfrom. apply in_map_iff. exists (Z.to_nat a). split; [lia|]. apply in_seq. lia. }
  assert (NoDup (points N)) as ND.
  { unfold points, zfrom. apply FinFun.Injective_map_NoDup; [intros x y; lia|apply seq_NoDup]. }
  apply NoDup_Permutation_bis.
  - clear IP. assert (forall a, In a (points N) -> (0 <= a < N)%Z) as IN by (intro; apply points_in). revert ND IN. generalize (points N). induction l as [|x l IH]; intros ND IN; [constructor|].
    inversion ND as [|? ? N1 N2]; subst. cbn [map]. constructor; [|apply IH; [exact N2|intros; apply IN; right; assumption]].
    intro I. apply in_map_iff in I. destruct I as (z & E & I). apply N1. assert (z = x) as <-; [|exact I].
    pose proof (carried_test rev A 0 N h x (origin_of rev A N h x) P (IN x (or_introl eq_refl))) as C1.
    pose proof (carried_test rev A 0 N h z (origin_of rev A N h x) P (IN z (or_intror I))) as C2.
    assert (0 <= origin_of rev A N h x < N)%Z as B by (apply Z.mod_pos_bound; exact P). rewrite (Z.mod_small _ _ B), Z.eqb_refl in C1. rewrite E, (Z.mod_small _ _ B), Z.eqb_refl in C2.
    apply Z.eqb_eq in C1, C2. congruence.
  - rewrite map_length. lia.
  - intros a I. apply in_map_iff in I. destruct I as (z & <- & _). apply IP. apply Z.mod_pos_bound. exact P.
Qed.
Section AxisMove.
Variables (S0 S1 DS S0' S1' DS' : list Q) (i0 i0' d d' : Z) (X0 X1 X0' X1' : Q).
Hypothesis AX : axis_ok S0 S1 DS i0 d X0 X1.
Hypothesis AX' : axis_ok S0' S1' DS' i0' d' X0' X1'.
Variables (rev : bool) (A k N : Z).
Hypothesis P : (0 < N)%Z.
Hypothesis E0 : X0' == sgn rev * X0 + inject_Z (A + k * N).
Hypothesis E1 : X1' == sgn rev * X1 + inject_Z (A + k * N).
Lemma fold0_move a : (0 <= a < N)%Z -> foldp i0' N a (at5 S0') == foldp i0 N (origin_of rev A N false a) (at5 S0).
Proof using AX AX' P E0.
  intro Ha. destruct AX as [[W0 _ _ [B1 B2] _] _ _ _]. destruct AX' as [[W0' _ _ [B1' B2'] _] _ _ _].
  apply (fold_move rev A k N a _ _ i0 i0' X0 X0'); auto; lra.
Qed.
Lemma fold1_move a : (0 <= a < N)%Z -> foldp i0' N a (at5 S1') == foldp i0 N (origin_of rev A N false a) (at5 S1).
Proof using AX AX' P E1.
  intro Ha. destruct AX as [[_ W0 _ _ [B1 B2]] _ _ _]. destruct AX' as [[_ W0' _ _ [B1' B2']] _ _ _].
  apply (fold_move rev A k N a _ _ i0 i0' X1 X1'); auto.
Qed.
Local Notation PS i0 DS := (fun a => foldp i0 N a (fun i => psum (at5 DS) 0 i)).
Lemma foldD_move a : (0 <= a < N)%Z -> PS i0' DS' a == sgn rev * PS i0 DS (origin_of rev A N true a).
Proof using AX AX' P E0 E1.
  pose proof (ok_axis _ _ _ _ _ _ _ AX) as X. pose proof (ok_axis _ _ _ _ _ _ _ AX') as X'.
  set (u := fun a => PS i0' DS' a - sgn rev * PS i0 DS (origin_of rev A N true a)).
  intro Ha. assert (u a == 0) as K; [|unfold u in K; revert K; cbv beta; gen_folds; intro K; clear - K; destruct rev; cbn [sgn] in *; lra].
  apply (constant_zero N); auto.
  - intros b Hb. unfold u.
    pose proof (foldp_shift _ _ _ _ _ _ X' N b P Hb) as F'. rewrite (foldp_ds _ _ _ _ _ _ X'), (fold0_move b Hb), (fold1_move b Hb) in F'.
    assert (0 <= origin_of rev A N false b < N)%Z as HO by (apply Z.mod_pos_bound; exact P).
    pose proof (foldp_shift _ _ _ _ _ _ X N _ P HO) as F. rewrite (foldp_ds _ _ _ _ _ _ X) in F.
    assert (origin_of rev A N true b = (if rev then (origin_of rev A N false b - 1) mod N else origin_of rev A N false b)%Z) as ->.
    { unfold origin_of. destruct rev; [|reflexivity]. rewrite Zminus_mod_idemp_l. f_equal. lia. }
    assert (origin_of rev A N true ((b - 1) mod N) = (if rev then origin_of rev A N false b else (origin_of rev A N false b - 1) mod N)%Z) as ->.
    { unfold origin_of. destruct rev.
      - replace (A - (b - 1) mod N - 1)%Z with (A - 1 - (b - 1) mod N)%Z by lia. rewrite Zminus_mod_idemp_r. f_equal. lia.
      - rewrite !Zminus_mod_idemp_l. f_equal. lia. }
    revert F F'. clear. cbv beta. destruct rev; gen_folds; intros F F'; cbn [sgn]; lra.
  - unfold u. transitivity (qsum (PS i0' DS') (points N) + qsum (fun a => - sgn rev * PS i0 DS a) (map (origin_of rev A N true) (points N))).
    { rewrite qsum_map, <- qsum_add. apply qsum_ext. intros b _. ring. }
    rewrite (qsum_perm _ _ _ (points_move rev A N true P)), qsum_scale. unfold points. rewrite !foldp_total by exact P.
    rewrite (ax_moment _ _ _ _ _ _ X), (ax_moment _ _ _ _ _ _ X'), E0, E1. ring.
Qed.
End AxisMove.

(** * One particle *)
Definition dep_form (G : grid2) (cd dt vz : Q) (Px Py A0 A1 B0 B1 : Q) (f : nat) : Q :=
  match f with
  | 0%nat => - (cd * g_dx G / dt * Px * ((1#2) * (B0 + B1)))
  | 1%nat => - (cd * g_dy G / dt * ((1#2) * (A0 + A1)) * Py)
  | 2%nat => cd * vz * ((1#4) * (A0 + A1) * (B0 + B1) + (1#12) * (A1 - A0) * (B1 - B0))
  | _ => cd * A1 * B1
  end.
Lemma gdep_form D (OK : domain_ok D) sp r : fast_ok r ->
  let G := whole (Cx D) (Cy D) (d_dx D) (d_dy D) in let p := bare r in
  exists ix0 iy0 S0x S1x DSx S0y S1y DSy dcx dcy,
    axis_ok S0x S1x DSx ix0 dcx (X2 G (d_dt D) (-1#2) p) (X2 G (d_dt D) (1#2) p) /\
    axis_ok S0y S1y DSy iy0 dcy (Y2 G (d_dt D) (-1#2) p) (Y2 G (d_dt D) (1#2) p) /\
    forall f a b, (0 <= a < Cx D)%Z -> (0 <= b < Cy D)%Z ->
      gdep (Cx D) (Cy D) (d_dx D) (d_dy D) (d_dt D) sp r f [a; b] ==
      dep_form G (sp_q sp * p_w p / (d_dx D * d_dy D)) (d_dt D) (vel (p_uz p) (p_ig p))
        (foldp ix0 (Cx D) a (fun i => psum (at5 DSx) 0 i)) (foldp iy0 (Cy D) b (fun i => psum (at5 DSy) 0 i))
        (foldp ix0 (Cx D) a (at5 S0x)) (foldp ix0 (Cx D) a (at5 S1x)) (foldp iy0 (Cy D) b (at5 S0y)) (foldp iy0 (Cy D) b (at5 S1y)) f.
Proof.
  intros F G p. destruct (one2_staged G (d_dt D) (sp_q sp) p (whole_ok D OK) (not_zero_dt D OK) (slow_ok D OK r F) reset_current)
    as (ix0 & iy0 & S0x & S1x & DSx & S0y & S1y & DSy & dcx & dcy & OKx & OKy & E).
  exists ix0, iy0, S0x, S1x, DSx, S0y, S1y, DSy, dcx, dcy. split; [exact OKx|]. split; [exact OKy|]. intros f a b Ha Hb.
  pose proof (gdep_kernel D OK sp r f a b Ha Hb) as K. change (cells_x D) with (Cx D) in K. change (cells_y D) with (Cy D) in K. rewrite K. fold G p. destruct (E a b Ha Hb) as (E1 & E2 & E3 & E4).
  unfold G in E1, E2, E3, E4 |- *. cbn [g_dx g_dy g_nx g_ny whole] in E1, E2, E3, E4.
  destruct f as [|[|[|f]]]; cbn [arrf dep_form g_dx g_dy whole]; [rewrite E2|rewrite E3|rewrite E4|rewrite E1]; cbn [reset_current a_jx a_jy a_jz a_rho]; ring.
Qed.
