(** Gauss' law over whole runs, part 1: the charge density of particles on the whole periodic grid. *)
From Coq Require Import QArith Qabs Qround Qcanon Permutation Lqa.
From Verif Require Import Base M_Layout M_PartSync S_PartSync M_FieldSync S_FieldSync M_Maxwell S_Maxwell M_Deposit S_Deposit M_Push S_Push P_Deposit P_Deposit2 P_Deposit5 P_Push P_Layout P_FieldGeo M_Step S_Step P_Step1 P_Step2 P_Step3 P_Step4 P_Step5 P_Step6 S_Gauss.
Local Open Scope list_scope.
Local Open Scope Z_scope.

(** * Shares *)
Lemma qabs_comp x y : (x == y)%Q -> (Qabs x == Qabs y)%Q.
Proof. intro E. rewrite E. reflexivity. Qed.
Lemma spline_comp d e : (d == e)%Q -> (spline d == spline e)%Q.
Proof.
  intro E. unfold spline. rewrite (Qleb_comp _ _ (qabs_comp _ _ E) _ _ (Qeq_refl _)). destruct (Qle_bool (Qabs e) (1#2)); [rewrite E; reflexivity|].
  rewrite (Qleb_comp _ _ (qabs_comp _ _ E) _ _ (Qeq_refl _)). destruct (Qle_bool (Qabs e) (3#2)); [rewrite (qabs_comp _ _ E); reflexivity|reflexivity].
Qed.
Lemma covers_zero n a X lo len : covers lo len X -> zero_out (fun i => if (i mod n =? a) then spline (inject_Z i - X) else 0%Q) lo len.
Proof.
  intros [C1 C2] i H. destruct (i mod n =? a); [|reflexivity]. apply spline_out. destruct H as [H|H].
  - left. assert (i <= lo - 1) as H' by lia. rewrite Zle_Qle in H'. unfold Z.sub in H'. rewrite inject_Z_plus in H'. unfold inject_Z in *. cbn [Z.opp] in H'. lra.
  - right. rewrite Zle_Qle in H. lra.
Qed.
Lemma share_any n a X lo len lo' len' : covers lo len X -> covers lo' len' X -> (share n a X lo len == share n a X lo' len')%Q.
Proof. intros C C'. unfold share. apply stretch_eq; apply covers_zero; assumption. Qed.
Lemma covers_here X : covers (Qfloor X - 2) 6 X.
Proof.
  pose proof (Qfloor_le X) as F1. pose proof (Qlt_floor X) as F2. rewrite inject_Z_plus in F2. unfold covers. unfold Z.sub. rewrite !inject_Z_plus. unfold inject_Z in *. cbn [Z.opp Z.of_nat Pos.of_succ_nat Pos.succ] in *. split; lra.
Qed.
Lemma periodic_share_any n a X lo len : 0 <= a < n -> covers lo len X -> (share n a X lo len == periodic_share n a X)%Q.
Proof. intros H C. unfold periodic_share. rewrite Z.mod_small by lia. apply share_any; [exact C|apply covers_here]. Qed.
Lemma zfrom_shift lo len k : zfrom (lo + k) len = map (fun i => i + k) (zfrom lo len).
Proof. unfold zfrom. rewrite map_map. apply map_ext. intro i. lia. Qed.
Lemma periodic_share_shift n a X Y k : 0 < n -> (Y == X + inject_Z (k * n))%Q -> (periodic_share n a Y == periodic_share n a X)%Q.
Proof.
  intros Hn E. unfold periodic_share. set (b := a mod n). pose proof (covers_here X) as C. set (lo := Qfloor X - 2) in *.
  assert (covers (lo + k * n) 6 Y) as C'.
  { destruct C as [C1 C2]. split; rewrite E; rewrite !inject_Z_plus in *; lra. }
  rewrite (share_any n b Y _ _ (lo + k * n) 6 (covers_here Y) C'). unfold share. rewrite zfrom_shift, qsum_map. apply qsum_ext. intros i _.
  rewrite Z.mod_add by lia. destruct (i mod n =? b); [|reflexivity]. apply spline_comp. rewrite E, inject_Z_plus. ring.
Qed.
Lemma periodic_share_eq n a X Y : 0 < n -> (Y == X)%Q -> (periodic_share n a Y == periodic_share n a X)%Q.
Proof. intros Hn E. apply (periodic_share_shift n a X Y 0 Hn). rewrite E. cbn [Z.mul]. unfold inject_Z. ring. Qed.
Lemma periodic_share_mod n a X : periodic_share n (a mod n) X = periodic_share n a X.
Proof. unfold periodic_share. rewrite Zmod_mod. reflexivity. Qed.
Lemma covering (l : list Q) : exists lo len, forall X, In X l -> covers lo len X.
Proof.
  induction l as [|X l (lo & len & IH)]; [exists 0, 0%nat; intros X []|].
  exists (Z.min lo (Qfloor X - 2)), (Z.to_nat (Z.max (lo + Z.of_nat len) (Qfloor X + 4) - Z.min lo (Qfloor X - 2))).
  assert (forall a m Y, covers a m Y -> Z.min lo (Qfloor X - 2) <= a -> a + Z.of_nat m <= Z.max (lo + Z.of_nat len) (Qfloor X + 4) ->
    covers (Z.min lo (Qfloor X - 2)) (Z.to_nat (Z.max (lo + Z.of_nat len) (Qfloor X + 4) - Z.min lo (Qfloor X - 2))) Y) as K.
  { intros a m Y [C1 C2] H1 H2. split.
    - rewrite Zle_Qle in H1. lra.
    - rewrite Z2Nat.id by lia. replace (Z.min lo (Qfloor X - 2) + (Z.max (lo + Z.of_nat len) (Qfloor X + 4) - Z.min lo (Qfloor X - 2))) with (Z.max (lo + Z.of_nat len) (Qfloor X + 4)) by lia.
      rewrite Zle_Qle in H2. lra. }
  intros Y [<-|I]; [apply (K (Qfloor X - 2) 6%nat); [apply covers_here|lia|lia]|]. apply (K lo len); [apply IH; exact I|lia|lia].
Qed.

(** * One particle *)
Section Particle.
Variable D : domain2.
Hypothesis OK : domain_ok D.
Local Notation Nx := (cells_x D). Local Notation Ny := (cells_y D). Local Notation dx := (d_dx D). Local Notation dy := (d_dy D). Local Notation dt := (d_dt D).
Local Notation G := (whole Nx Ny dx dy).
Lemma cells_pos : 0 < Nx /\ 0 < Ny.
Proof. destruct (ok_n D OK) as [N1 N2]. destruct (ok_g D OK) as (G1 & G2 & G3). unfold cells_x, cells_y. split; apply Z.mul_pos_pos; lia. Qed.
Lemma whole_ok : grid2_ok G.
Proof. destruct cells_pos. destruct (ok_d D OK). repeat split; assumption. Qed.
Definition fast_ok (r : prow body) : Prop :=
  (exists x y, px _ r = Some x /\ py _ r = Some y) /\ (Qabs (b_ux (other _ r) * b_ig (other _ r)) <= 1)%Q /\ (Qabs (b_uy (other _ r) * b_ig (other _ r)) <= 1)%Q.
Lemma one_cell_ok u ig d : (0 < dt)%Q -> (LIGHT_SPEED * dt <= d)%Q -> (Qabs (u * ig) <= 1)%Q -> one_cell u ig dt d.
Proof.
  intros Ht Hd H. unfold one_cell. assert (u * LIGHT_SPEED * ig * dt == (u * ig) * (LIGHT_SPEED * dt))%Q as E by ring. rewrite E, Qabs_Qmult.
  assert (0 < LIGHT_SPEED * dt)%Q as P by (unfold LIGHT_SPEED; lra). rewrite (Qabs_pos (LIGHT_SPEED * dt)) by lra.
  eapply Qle_trans; [apply Qmult_le_compat_r; [exact H|lra]|]. lra.
Qed.
Lemma slow_ok r : fast_ok r -> slow2 G dt (bare r).
Proof. intros (_ & H1 & H2). destruct (ok_t D OK) as (T1 & T2 & T3). split; apply one_cell_ok; auto. Qed.
Lemma charge_density q h lo len a b r : 0 <= a < Nx -> 0 <= b < Ny -> covers lo len (X2 G dt h (bare r)) -> covers lo len (Y2 G dt h (bare r)) ->
  (density2 G dt q lo len h a b (bare r) == charge_of D q h a b r)%Q.
Proof.
  intros Ha Hb Cx Cy. destruct cells_pos as [P1 P2]. destruct (ok_d D OK) as [D1 D2]. unfold density2, charge_of. cbv zeta. cbn [whole g_nx g_ny g_dx g_dy].
  rewrite (periodic_share_any Nx a _ lo len Ha Cx), (periodic_share_any Ny b _ lo len Hb Cy).
  assert (forall x : Q, ~ (dx == 0)%Q /\ ~ (dy == 0)%Q) as NZ by (intros _; split; lra). destruct (NZ 0%Q) as [Z1 Z2].
  rewrite (periodic_share_eq Nx a ((val (px _ r) + h * (b_ux (other _ r) * LIGHT_SPEED * b_ig (other _ r)) * dt) / dx) (X2 G dt h (bare r)) P1).
  2:{ unfold X2, scaled. cbn [whole g_x0 g_dx bare load l_p p_x p_ux p_ig M_PartSync.row]. field. exact Z1. }
  rewrite (periodic_share_eq Ny b ((val (py _ r) + h * (b_uy (other _ r) * LIGHT_SPEED * b_ig (other _ r)) * dt) / dy) (Y2 G dt h (bare r)) P2).
  2:{ unfold Y2, scaled. cbn [whole g_y0 g_dy bare load l_p p_y p_uy p_ig M_PartSync.row]. field. exact Z2. }
  reflexivity.
Qed.
Lemma list_eqb2 (x y a b : Z) : list_eqb [x; y] [a; b] = (x =? a) && (y =? b).
Proof. unfold list_eqb. destruct (list_eq_dec Z.eq_dec [x; y] [a; b]) as [E|E], (Z.eqb_spec x a), (Z.eqb_spec y b); cbn [andb]; congruence. Qed.
Lemma gdep_kernel sp r f a b : 0 <= a < Nx -> 0 <= b < Ny ->
  (gdep Nx Ny dx dy dt sp r f [a; b] == arrf f (current_deposit_2d G dt (sp_q sp) reset_current (bare r)) (at2 G a b))%Q.
Proof.
  intros Ha Hb. destruct (ok_d D OK) as [D1 D2]. destruct cells_pos as [P1 P2]. rewrite (kernel_events G dt (sp_q sp) (bare r) reset_current D1 D2).
  rewrite add_evs_f. assert (arrf f reset_current (at2 G a b) == 0)%Q as E0 by (destruct f as [|[|[|f]]]; reflexivity). rewrite E0, Qplus_0_l.
  unfold gdep, hit. apply qsum_ext. intros e _. rewrite list_eqb2. unfold wrap_index, at2. cbn [whole g_nx g_ny].
  set (u := (k_ix _ _ _ + _) mod Nx). set (v := (k_iy _ _ _ + _) mod Ny).
  assert (0 <= u < Nx) by (apply Z.mod_pos_bound; exact P1). assert (0 <= v < Ny) by (apply Z.mod_pos_bound; exact P2). clearbody u v.
  destruct (Z.eqb_spec (v + u * Ny) (b + a * Ny)) as [E|E].
  - assert (u = a) by nia. assert (v = b) by nia. subst. rewrite !Z.eqb_refl. reflexivity.
  - destruct (Z.eqb_spec u a) as [->|]; [|reflexivity]. destruct (Z.eqb_spec v b) as [->|]; [congruence|reflexivity].
Qed.
Lemma alive_one r : fast_ok r -> S_Deposit.alive [bare r] = [bare r].
Proof. intros ((x & y & E1 & E2) & _). destruct (bare_flags r x y E1 E2) as [F1 F2]. rewrite alive_cons, F1, F2. reflexivity. Qed.
Lemma deposit_one q A r : fast_ok r -> current_deposition_cpu_2d G dt q A [bare r] = current_deposit_2d G dt q A (bare r).
Proof. intros ((x & y & E1 & E2) & _). destruct (bare_flags r x y E1 E2) as [F1 F2]. unfold current_deposition_cpu_2d. rewrite deposit_cons, F1, F2. reflexivity. Qed.
Lemma window r : exists lo len, covers2 G dt lo len (bare r).
Proof.
  destruct (covering [X2 G dt (1#2) (bare r); X2 G dt (-1#2) (bare r); Y2 G dt (1#2) (bare r); Y2 G dt (-1#2) (bare r)]) as (lo & len & H).
  exists lo, len. intros h [->| ->]; split; apply H; cbn [In]; auto.
Qed.
Lemma not_zero_dt : ~ (dt == 0)%Q.
Proof. destruct (ok_t D OK) as (T1 & _). lra. Qed.
Lemma particle_rho sp r a b : fast_ok r -> 0 <= a < Nx -> 0 <= b < Ny -> (gdep Nx Ny dx dy dt sp r 3 [a; b] == charge_of D (sp_q sp) (1#2) a b r)%Q.
Proof.
  intros F Ha Hb. rewrite gdep_kernel by assumption. cbn [arrf]. rewrite <- deposit_one by exact F. destruct (window r) as (lo & len & C).
  rewrite (list2_rho G dt (sp_q sp) (current_deposition_cpu_2d G dt (sp_q sp)) [bare r] whole_ok not_zero_dt (or_introl eq_refl)) with (lo := lo) (len := len); auto.
  - rewrite alive_one by exact F. rewrite qsum_cons. cbn [qsum fold_right reset_current a_rho]. destruct (C (1#2) (or_introl eq_refl)) as [C1 C2].
    rewrite (charge_density (sp_q sp) (1#2) lo len a b r Ha Hb C1 C2). ring.
  - rewrite alive_one by exact F. intros p [<-|[]]. apply slow_ok. exact F.
  - rewrite alive_one by exact F. intros p [<-|[]]. exact C.
Qed.
Lemma particle_continuity sp r a b : fast_ok r -> 0 <= a < Nx -> 0 <= b < Ny ->
  let j f a b := gdep Nx Ny dx dy dt sp r f [a; b] in
  (charge_of D (sp_q sp) (1#2) a b r - charge_of D (sp_q sp) (-1#2) a b r
   + dt * ((j 0%nat a b - j 0%nat ((a - 1) mod Nx) b) / dx + (j 1%nat a b - j 1%nat a ((b - 1) mod Ny)) / dy) == 0)%Q.
Proof.
  intros F Ha Hb j. unfold j. clear j. destruct cells_pos as [P1 P2].
  assert (0 <= (a - 1) mod Nx < Nx) by (apply Z.mod_pos_bound; exact P1). assert (0 <= (b - 1) mod Ny < Ny) by (apply Z.mod_pos_bound; exact P2).
  rewrite !gdep_kernel by assumption. cbn [arrf]. rewrite <- deposit_one by exact F. destruct (window r) as (lo & len & C).
  pose proof (list2_continuity G dt (sp_q sp) (current_deposition_cpu_2d G dt (sp_q sp)) [bare r] whole_ok not_zero_dt (or_introl eq_refl)) as K.
  rewrite alive_one in K by exact F.
  specialize (K ltac:(intros p [<-|[]]; apply slow_ok; exact F) lo len ltac:(intros p [<-|[]]; exact C) reset_current a b Ha Hb). cbv zeta in K.
  rewrite !qsum_cons in K. cbn [qsum fold_right reset_current a_jx a_jy whole g_nx g_ny g_dx g_dy] in K.
  destruct (C (1#2) (or_introl eq_refl)) as [C1 C2]. destruct (C (-1#2) (or_intror eq_refl)) as [C3 C4].
  rewrite (charge_density (sp_q sp) (1#2) lo len a b r Ha Hb C1 C2), (charge_density (sp_q sp) (-1#2) lo len a b r Ha Hb C3 C4) in K.
  unfold Qdiv in *. cbn [whole g_nx g_ny] in K. lra.
Qed.
(** ** the charge density under the operations of a step *)
Lemma charge_of_rw q h i j r r' u : (b_w (other _ r) == b_w (other _ r'))%Q ->
  (val (px _ r) + h * (b_ux (other _ r) * LIGHT_SPEED * b_ig (other _ r)) * dt == val (px _ r') + u * (b_ux (other _ r') * LIGHT_SPEED * b_ig (other _ r')) * dt)%Q ->
  (val (py _ r) + h * (b_uy (other _ r) * LIGHT_SPEED * b_ig (other _ r)) * dt == val (py _ r') + u * (b_uy (other _ r') * LIGHT_SPEED * b_ig (other _ r')) * dt)%Q ->
  (charge_of D q h i j r == charge_of D q u i j r')%Q.
Proof.
  intros E1 E2 E3. destruct cells_pos as [P1 P2]. unfold charge_of. cbv zeta. rewrite E1.
  match goal with |- (_ * periodic_share Nx i ?X * periodic_share Ny j ?Y == _ * periodic_share Nx i ?X' * periodic_share Ny j ?Y')%Q =>
    rewrite (periodic_share_eq Nx i X' X P1), (periodic_share_eq Ny j Y' Y P2); [reflexivity| |] end.
  - unfold Qdiv. rewrite E3. reflexivity.
  - unfold Qdiv. rewrite E2. reflexivity.
Qed.
Lemma charge_of_eq q h i j r r' : canon r = canon r' -> (charge_of D q h i j r == charge_of D q h i j r')%Q.
Proof.
  intro E. destruct (canon_load r r' E) as [P _]. destruct P as (E1 & E2 & E3 & E4 & E5 & E6 & E7 & E8 & _).
  cbn [load l_p p_x p_y p_ux p_uy p_ig p_w M_PartSync.row] in *. apply charge_of_rw; [exact E8|rewrite E1, E4, E7; reflexivity|rewrite E2, E5, E7; reflexivity].
Qed.
Lemma charge_of_mod q h i j r : charge_of D q h (i mod Nx) (j mod Ny) r = charge_of D q h i j r.
Proof. unfold charge_of. rewrite !periodic_share_mod. reflexivity. Qed.
Lemma wrap1_share W d v s : (0 < W) -> ~ (d == 0)%Q -> forall a, (periodic_share W a ((wrap1 W d v + s) / d) == periodic_share W a ((v + s) / d))%Q.
Proof.
  intros HW Hd a. unfold wrap1. destruct (negb (Qle_bool v _)); [|destruct (negb _)]; [| |reflexivity].
  - apply (periodic_share_shift W a _ _ (-1) HW). rewrite inject_Z_mult. field. exact Hd.
  - apply (periodic_share_shift W a _ _ 1 HW). rewrite inject_Z_mult. field. exact Hd.
Qed.
Lemma charge_of_gwrap q h i j r : (exists x y, px _ r = Some x /\ py _ r = Some y) -> (charge_of D q h i j (gwrap Nx Ny dx dy r) == charge_of D q h i j r)%Q.
Proof.
  intros (x & y & E1 & E2). destruct cells_pos as [P1 P2]. destruct (ok_d D OK) as [D1 D2]. unfold charge_of. cbv zeta. cbn [gwrap px py other]. rewrite E1, E2. cbn [option_map val].
  rewrite (wrap1_share Nx dx x _ P1 ltac:(lra)), (wrap1_share Ny dy y _ P2 ltac:(lra)). reflexivity.
Qed.
Lemma charge_of_grow rsqrt sp FE FB q i j r : (exists x y, px _ r = Some x /\ py _ r = Some y) ->
  (charge_of D q (-1#2) i j (grow rsqrt Nx Ny dx dy dt sp FE FB r) == charge_of D q (1#2) i j r)%Q.
Proof.
  intros (x & y & E1 & E2). unfold grow, gslot, one.
  assert (skipped (load (live r)) = false) as S.
  { unfold skipped, load. cbn [l_p p_dead p_nan M_PartSync.row M_PartSync.dead]. rewrite E1, E2. reflexivity. }
  rewrite S. cbv zeta. unfold ginterp at 1. cbn [obind].
  unfold push_momentum. cbv zeta. cbn [l_p l_f]. destruct (boris_inline _ _ _ _ _ _ _ _) as [[[ux uy] uz] ig].
  apply charge_of_rw; unfold rowof, store; cbn [l_p l_f M_PartSync.row px py other b_w b_ux b_uy b_ig val push_position_2d p_x p_y p_ux p_uy p_ig load]; rewrite ?E1, ?E2; cbn [isnan val].
  - reflexivity.
  - ring.
  - ring.
Qed.
End Particle.
