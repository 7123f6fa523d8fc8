(** Gauss' law with open sides, part 2: charge and current of particles on the whole grid. *)
From Coq Require Import QArith Qabs Qround Qcanon Permutation Lqa.
From Verif Require Import Base M_Layout S_Layout M_PartSync S_PartSync M_FieldSync S_FieldSync M_Maxwell S_Maxwell M_Cpml S_Cpml M_Deposit S_Deposit M_Push S_Push P_Layout P_FieldGeo P_Maxwell P_Maxwell3 P_Deposit P_Deposit2 P_Deposit5 P_Push M_Step S_Step M_StepO S_StepO P_Step1 P_Step2 P_Step3 P_Step4 P_Step5 P_Step6 P_Step7 P_Step8 S_Gauss S_GaussO P_Gauss1 P_Gauss2 P_StepO1 P_StepO2 P_StepO3 P_StepO4 P_GaussO1.
Local Open Scope list_scope.
Local Open Scope Z_scope.

(** * One axis: an open axis is like a very long periodic one *)
Definition long (a : M_Layout.axis) (W M : Z) : Z := if is_open a then M else W.
Lemma axis_hit a m M i x : 0 <= x < ax_n a * m -> Z.abs i + ax_n a * m < M ->
  match place1 a m 0 i with Some g => g =? x | None => false end = (i mod long a (ax_n a * m) M =? x).
Proof.
  intros Hx HM. unfold place1, long, is_open. cbv zeta. rewrite Z.mul_0_l, Z.add_0_l. set (W := ax_n a * m) in *. clearbody W. destruct (ax_lo a); cbn [bc_eqb].
  - assert (i mod M = x <-> i = x) as E.
    { split; [intro E|intros ->; apply Z.mod_small; lia]. pose proof (Z.div_mod i M ltac:(lia)) as DM. rewrite E in DM. set (q := i / M) in *. clearbody q. clear E. assert (q = 0) by nia. subst q. lia. }
    destruct (Z.eqb_spec (i mod M) x) as [E1|E1].
    + apply E in E1. subst. destruct (Z.leb_spec 0 x), (Z.ltb_spec x W); try lia. cbn [andb]. apply Z.eqb_refl.
    + destruct (_ && _); [|reflexivity]. apply Z.eqb_neq. intro E2. apply E1, E. exact E2.
  - destruct (Z.leb_spec 0 i); cbn [andb]; [destruct (Z.ltb_spec i W)|]; try reflexivity. rewrite Z.mod_small by lia. reflexivity.
Qed.
Lemma long_share M a X : 0 <= a -> Z.abs (Qfloor X) + a + 10 < M -> (periodic_share M a X == spline (inject_Z a - X))%Q.
Proof.
  intros Ha HM. unfold periodic_share. rewrite Z.mod_small by lia. unfold share. set (lo := Qfloor X - 2).
  assert (forall l, (forall i, In i l -> lo <= i < lo + 6) -> NoDup l -> (qsum (fun i => if i mod M =? a then spline (inject_Z i - X) else 0) l == if existsb (Z.eqb a) l then spline (inject_Z a - X) else 0)%Q) as S.
  { induction l as [|i l IH]; intros B N; [reflexivity|]. rewrite qsum_cons. cbn [existsb]. inversion N as [|? ? N1 N2]; subst. rewrite (IH (fun k I => B k (or_intror I)) N2).
    specialize (B i (or_introl eq_refl)). assert (i mod M = a <-> a = i) as E.
    { unfold lo in B. clear - B HM Ha. set (f := Qfloor X) in *. clearbody f. split; [intro E|intros <-; apply Z.mod_small; lia].
      pose proof (Z.div_mod i M ltac:(lia)) as DM. rewrite E in DM. set (q := i / M) in *. clearbody q. clear E. assert (q = 0) by nia. subst q. lia. }
    destruct (Z.eqb_spec (i mod M) a) as [E1|E1], (Z.eqb_spec a i) as [E2|E2]; try (exfalso; tauto); cbn [orb].
    - subst i. destruct (existsb (Z.eqb a) l) eqn:X1; [|ring]. apply existsb_exists in X1. destruct X1 as (k & I & E3). apply Z.eqb_eq in E3. subst k. contradiction.
    - ring. }
  assert (forall i, In i (zfrom lo 6) <-> lo <= i < lo + 6) as Z6.
  { intro i. unfold zfrom. rewrite in_map_iff. split.
    - intros (k & <- & I). apply in_seq in I. lia.
    - intro H. exists (Z.to_nat (i - lo)). split; [lia|]. apply in_seq. lia. }
  rewrite S; [|intros i I; apply Z6; exact I|].
  2:{ unfold zfrom. apply FinFun.Injective_map_NoDup; [intros x y E; lia|apply seq_NoDup]. }
  destruct (existsb (Z.eqb a) (zfrom lo 6)) eqn:X1; [reflexivity|]. symmetry. apply spline_out.
  assert (a < lo \/ lo + 6 <= a) as H.
  { destruct (Z.lt_ge_cases a lo); [left; assumption|]. destruct (Z.lt_ge_cases a (lo + 6)); [|right; lia]. exfalso.
    assert (existsb (Z.eqb a) (zfrom lo 6) = true) as T by (apply existsb_exists; exists a; split; [apply Z6; lia|apply Z.eqb_refl]). congruence. }
  destruct (covers_here X) as [C1 C2]. fold lo in C1, C2. change (Z.of_nat 6) with 6 in C2. destruct H as [H|H].
  - left. assert (a <= lo - 1) as H' by lia. rewrite Zle_Qle in H'. unfold Z.sub in H'. rewrite inject_Z_plus in H'. unfold inject_Z in *. cbn [Z.opp] in H'. lra.
  - right. rewrite Zle_Qle in H. lra.
Qed.
Lemma axis_share a W M x X : 0 <= x < W -> Z.abs (Qfloor X) + W + 10 < M -> (spread a W x X == periodic_share (long a W M) x X)%Q.
Proof.
  intros Hx HM. unfold spread, long, is_open. destruct (bc_eqb (ax_lo a) Pml); [|reflexivity]. symmetry. apply long_share; lia.
Qed.
Lemma spread_comp a W i X Y : 0 < W -> (X == Y)%Q -> (spread a W i X == spread a W i Y)%Q.
Proof. intros HW E. unfold spread. destruct (bc_eqb _ _); [apply spline_comp; rewrite E; reflexivity|apply periodic_share_eq; [exact HW|exact E]]. Qed.

(** * One particle *)
Definition big (D : domain2) (M : Z) : domain2 :=
  mkDomain2 (mkAxis 1 Periodic Periodic) (mkAxis 1 Periodic Periodic) (long (d_ax D) (cells_x D) M) (long (d_ay D) (cells_y D) M) (d_ng D) (d_dx D) (d_dy D) (d_dt D).
Lemma big_x D M : cells_x (big D M) = long (d_ax D) (cells_x D) M. Proof. unfold cells_x at 1. cbn [big d_ax d_nx ax_n]. apply Z.mul_1_l. Qed.
Lemma big_y D M : cells_y (big D M) = long (d_ay D) (cells_y D) M. Proof. unfold cells_y at 1. cbn [big d_ay d_ny ax_n]. apply Z.mul_1_l. Qed.

Section Particle.
Variable K : layer Qc. Variable D : domain2. Variable pmls : nat -> list pml_side.
Hypothesis OK : open_ok K D pmls.
Local Notation Nx := (cells_x D). Local Notation Ny := (cells_y D). Local Notation dx := (d_dx D). Local Notation dy := (d_dy D). Local Notation dt := (d_dt D). Local Notation th := (thick K).
Local Notation dep := (odep (PL D) dx dy dt).
Local Notation CO q h i j r := (charge_of_o D q h i j r).
Lemma big_ok M : d_ng D <= M -> domain_ok (big D M).
Proof.
  intro HM. destruct (oo_n K D pmls OK) as [N1 N2]. destruct (oo_g K D pmls OK) as (G1 & G2 & G3).
  assert (d_ng D <= Nx) by (unfold cells_x; nia). assert (d_ng D <= Ny) by (unfold cells_y; nia).
  constructor; cbn [big d_ax d_ay d_nx d_ny d_ng d_dx d_dy d_dt ax_n ax_lo ax_hi]; auto; try lia.
  - unfold long. destruct (is_open (d_ax D)), (is_open (d_ay D)); lia.
  - exact (oo_d K D pmls OK).
  - exact (oo_t K D pmls OK).
Qed.
Lemma odep_big M sp r f a b : 0 <= a < Nx -> 0 <= b < Ny ->
  Z.abs (k_ix (whole 0 0 dx dy) dt (bare r)) + Nx + 10 < M -> Z.abs (k_iy (whole 0 0 dx dy) dt (bare r)) + Ny + 10 < M ->
  (dep sp r f [a; b] == gdep (cells_x (big D M)) (cells_y (big D M)) dx dy dt sp r f [a; b])%Q.
Proof.
  intros Ha Hb M1 M2. rewrite big_x, big_y. destruct (oo_d K D pmls OK) as [D1 D2]. set (X := long (d_ax D) Nx M). set (Y := long (d_ay D) Ny M).
  destruct (kernel_shift (whole 0 0 dx dy) (whole X Y dx dy) dt (sp_q sp) (bare r) (bare r) 0 0) as (K1 & K2 & F);
    [repeat (split; [reflexivity|]); reflexivity|reflexivity|reflexivity|exact D1|exact D2|cbn [whole g_x0 g_dx]; ring|cbn [whole g_y0 g_dy]; ring|].
  unfold odep, gdep. rewrite K1, K2, !Z.add_0_r. apply (qsum_forall2 ev_eq); [exact F|]. intros e e' I H. pose proof H as (Ei & Ej & _). destruct (kevs_in _ _ _ _ _ I) as [I1 I2]. rewrite <- Ei, <- Ej.
  set (i := k_ix (whole 0 0 dx dy) dt (bare r)) in *. set (j := k_iy (whole 0 0 dx dy) dt (bare r)) in *. rewrite list_eqb2.
  set (u := i + (Z.of_nat (e_i e) - 2)). set (v := j + (Z.of_nat (e_j e) - 2)).
  pose proof (axis_hit (d_ax D) (d_nx D) M u a Ha ltac:(unfold cells_x in M1; unfold u; lia)) as A1. pose proof (axis_hit (d_ay D) (d_ny D) M v b Hb ltac:(unfold cells_y in M2; unfold v; lia)) as A2.
  fold Nx in A1. fold Ny in A2. fold X in A1. fold Y in A2. rewrite <- A1, <- A2. unfold PL. cbn [place].
  destruct (place1 (d_ax D) (d_nx D) 0 u) as [g1|]; cbn [andb]; [|reflexivity]. destruct (place1 (d_ay D) (d_ny D) 0 v) as [g2|]; [|rewrite andb_false_r; reflexivity].
  rewrite list_eqb2. destruct (_ && _); [|reflexivity]. apply prf_eq. exact H.
Qed.
Definition XX (h : Q) (r : prow body) : Q := ((val (px _ r) + h * (b_ux (other _ r) * LIGHT_SPEED * b_ig (other _ r)) * dt) / dx)%Q.
Definition YY (h : Q) (r : prow body) : Q := ((val (py _ r) + h * (b_uy (other _ r) * LIGHT_SPEED * b_ig (other _ r)) * dt) / dy)%Q.
Lemma charge_big M q h a b r : 0 <= a < Nx -> 0 <= b < Ny -> Z.abs (Qfloor (XX h r)) + Nx + 10 < M -> Z.abs (Qfloor (YY h r)) + Ny + 10 < M ->
  (CO q h a b r == charge_of (big D M) q h a b r)%Q.
Proof.
  intros Ha Hb M1 M2. unfold charge_of_o, charge_of. cbv zeta. rewrite big_x, big_y. cbn [big d_dx d_dy d_dt]. fold (XX h r). fold (YY h r).
  rewrite (axis_share (d_ax D) Nx M a (XX h r) Ha M1), (axis_share (d_ay D) Ny M b (YY h r) Hb M2). reflexivity.
Qed.
Lemma size_for r : exists M, d_ng D <= M /\ Z.abs (k_ix (whole 0 0 dx dy) dt (bare r)) + Nx + 10 < M /\ Z.abs (k_iy (whole 0 0 dx dy) dt (bare r)) + Ny + 10 < M /\
  (forall h, h = (1#2)%Q \/ h = (-1#2)%Q -> Z.abs (Qfloor (XX h r)) + Nx + 10 < M /\ Z.abs (Qfloor (YY h r)) + Ny + 10 < M).
Proof.
  exists (Z.abs (d_ng D) + Z.abs Nx + Z.abs Ny + Z.abs (k_ix (whole 0 0 dx dy) dt (bare r)) + Z.abs (k_iy (whole 0 0 dx dy) dt (bare r))
    + Z.abs (Qfloor (XX (1#2) r)) + Z.abs (Qfloor (YY (1#2) r)) + Z.abs (Qfloor (XX (-1#2) r)) + Z.abs (Qfloor (YY (-1#2) r)) + 11).
  split; [lia|]. split; [lia|]. split; [lia|]. intros h [->| ->]; split; lia.
Qed.
Lemma o_rho sp r a b : fast_ok r -> 0 <= a < Nx -> 0 <= b < Ny -> (dep sp r 3 [a; b] == CO (sp_q sp) (1#2) a b r)%Q.
Proof.
  intros F Ha Hb. destruct (size_for r) as (M & M0 & M1 & M2 & M3). destruct (M3 (1#2)%Q (or_introl eq_refl)) as [M4 M5].
  assert (forall W x a, 0 <= x < W -> Z.abs W < M -> x < long a W M) as B by (intros W x ax H1 H2; unfold long; destruct (is_open ax); lia).
  rewrite (odep_big M), (charge_big M) by assumption. apply (particle_rho (big D M) (big_ok M M0)); [exact F| |]; rewrite ?big_x, ?big_y.
  - split; [lia|apply B; lia].
  - split; [lia|apply B; lia].
Qed.
Lemma o_continuity sp r a b : fast_ok r -> 0 <= a < Nx -> 0 <= b < Ny -> (ax_lo (d_ax D) = Pml -> 1 <= a) -> (ax_lo (d_ay D) = Pml -> 1 <= b) ->
  (CO (sp_q sp) (1#2) a b r - CO (sp_q sp) (-1#2) a b r
   + dt * ((dep sp r 0%nat [a; b] - dep sp r 0%nat [(a - 1) mod Nx; b]) / dx + (dep sp r 1%nat [a; b] - dep sp r 1%nat [a; (b - 1) mod Ny]) / dy) == 0)%Q.
Proof.
  intros F Ha Hb Oa Ob. destruct (ocells_pos K D pmls OK) as [P1 P2]. destruct (size_for r) as (M & M0 & M1 & M2 & M3). destruct (M3 (1#2)%Q (or_introl eq_refl)) as [M4 M5]. destruct (M3 (-1#2)%Q (or_intror eq_refl)) as [M6 M7].
  assert (forall W x a, 0 <= x < W -> Z.abs W < M -> x < long a W M) as B by (intros W x ax H1 H2; unfold long; destruct (is_open ax); lia).
  assert (forall W x a, 0 <= x < W -> Z.abs W < M -> (ax_lo a = Pml -> 1 <= x) -> (x - 1) mod long a W M = (x - 1) mod W) as E.
  { intros W x ax H1 H2 H3. unfold long, is_open. destruct (ax_lo ax); cbn [bc_eqb]; [|reflexivity]. specialize (H3 eq_refl). rewrite !Z.mod_small by lia. reflexivity. }
  assert (Z.abs Nx < M) as A1 by lia. assert (Z.abs Ny < M) as A2 by lia.
  assert (0 <= a < cells_x (big D M)) as Ba by (rewrite big_x; split; [lia|apply B; lia]). assert (0 <= b < cells_y (big D M)) as Bb by (rewrite big_y; split; [lia|apply B; lia]).
  pose proof (particle_continuity (big D M) (big_ok M M0) sp r a b F Ba Bb) as C. cbv zeta in C.
  assert ((a - 1) mod cells_x (big D M) = (a - 1) mod Nx) as E1 by (rewrite big_x; exact (E Nx a (d_ax D) Ha A1 Oa)).
  assert ((b - 1) mod cells_y (big D M) = (b - 1) mod Ny) as E2 by (rewrite big_y; exact (E Ny b (d_ay D) Hb A2 Ob)).
  assert (0 <= (a - 1) mod Nx < Nx) by (apply Z.mod_pos_bound; exact P1). assert (0 <= (b - 1) mod Ny < Ny) by (apply Z.mod_pos_bound; exact P2).
  rewrite E1, E2 in C. change (d_dx (big D M)) with dx in C. change (d_dy (big D M)) with dy in C. change (d_dt (big D M)) with dt in C.
  rewrite (odep_big M sp r 0 a b), (odep_big M sp r 0 ((a - 1) mod Nx) b), (odep_big M sp r 1 a b), (odep_big M sp r 1 a ((b - 1) mod Ny)), (charge_big M (sp_q sp) (1#2) a b r), (charge_big M (sp_q sp) (-1#2) a b r) by assumption.
  exact C.
Qed.
(** ** the charge density under the operations of a step *)
Lemma CO_rw q h i j r r' u : (b_w (other _ r) == b_w (other _ r'))%Q ->
  (val (px _ r) + h * (b_ux (other _ r) * LIGHT_SPEED * b_ig (other _ r)) * dt == val (px _ r') + u * (b_ux (other _ r') * LIGHT_SPEED * b_ig (other _ r')) * dt)%Q ->
  (val (py _ r) + h * (b_uy (other _ r) * LIGHT_SPEED * b_ig (other _ r)) * dt == val (py _ r') + u * (b_uy (other _ r') * LIGHT_SPEED * b_ig (other _ r')) * dt)%Q ->
  (CO q h i j r == CO q u i j r')%Q.
Proof.
  intros E1 E2 E3. destruct (ocells_pos K D pmls OK) as [P1 P2]. unfold charge_of_o. cbv zeta. fold (XX h r) (YY h r) (XX u r') (YY u r'). rewrite E1.
  rewrite (spread_comp (d_ax D) Nx i (XX h r) (XX u r') P1), (spread_comp (d_ay D) Ny j (YY h r) (YY u r') P2); [reflexivity| |].
  - unfold YY, Qdiv. rewrite E3. reflexivity.
  - unfold XX, Qdiv. rewrite E2. reflexivity.
Qed.
Lemma CO_eq q h i j r r' : canon r = canon r' -> (CO q h i j r == CO q h i j r')%Q.
Proof.
  intro E. destruct (canon_load r r' E) as [P _]. destruct P as (E1 & E2 & E3 & E4 & E5 & E6 & E7 & E8 & _).
  cbn [load l_p p_x p_y p_ux p_uy p_ig p_w M_PartSync.row] in *. apply CO_rw; [exact E8|rewrite E1, E4, E7; reflexivity|rewrite E2, E5, E7; reflexivity].
Qed.
Lemma spread_mod a W i X : 0 < W -> inr a W i -> spread a W (i mod W) X = spread a W i X.
Proof. intros HW H. unfold spread, inr in *. destruct (ax_lo a); cbn [bc_eqb]; [rewrite Z.mod_small by auto; reflexivity|apply periodic_share_mod]. Qed.
Lemma CO_mod q h i j r : inr (d_ax D) Nx i -> inr (d_ay D) Ny j -> CO q h (i mod Nx) (j mod Ny) r = CO q h i j r.
Proof. intros H1 H2. destruct (ocells_pos K D pmls OK) as [P1 P2]. unfold charge_of_o. rewrite (spread_mod (d_ax D)), (spread_mod (d_ay D)) by assumption. reflexivity. Qed.
Lemma spread_kept a W d v w s i : 0 < W -> ~ (d == 0)%Q -> keep1 (is_open a) th W d v = Some w -> (spread a W i ((w + s) / d) == spread a W i ((v + s) / d))%Q.
Proof.
  intros HW Hd. unfold keep1, spread, is_open. destruct (bc_eqb (ax_lo a) Pml).
  - destruct (_ && _); intro E; [apply some_eq in E; subst; reflexivity|discriminate].
  - intro E. apply some_eq in E. subst w. apply wrap1_share; assumption.
Qed.
Lemma keep1_gone a W d v : keep1 (is_open a) th W d v = None -> ~ clear_of_layers a th W d v.
Proof.
  unfold keep1, is_open, clear_of_layers. destruct (ax_lo a); cbn [bc_eqb]; [|discriminate]. destruct (Qle_bool _ v) eqn:E1; cbn [andb].
  - destruct (Qle_bool v _) eqn:E2; [discriminate|]. intros _ C. destruct (C eq_refl) as [_ C2]. apply Qle_bool_iff in C2. congruence.
  - intros _ C. destruct (C eq_refl) as [C1 _]. apply Qle_bool_iff in C1. congruence.
Qed.
Definition is_gone (r : prow body) : bool := match okept K D r with [] => true | _ => false end.
Lemma gone_in_layers r : is_gone r = true -> in_layers th D r.
Proof.
  unfold is_gone, okept, okeep, in_layers. destruct (px _ r) as [x|]; [|discriminate]. destruct (py _ r) as [y|]; [|discriminate]. intro H. exists x, y. split; [reflexivity|]. split; [reflexivity|].
  intros [C1 C2]. destruct (keep1 (is_open (d_ax D)) th _ dx x) as [x'|] eqn:E1; [|exact (keep1_gone _ _ _ _ E1 C1)].
  destruct (keep1 (is_open (d_ay D)) th _ dy y) as [y'|] eqn:E2; [discriminate|exact (keep1_gone _ _ _ _ E2 C2)].
Qed.
Lemma CO_kept q h i j r : (exists x y, px _ r = Some x /\ py _ r = Some y) ->
  (CO q h i j r == qsum (fun r => CO q h i j r) (okept K D r) + (if is_gone r then CO q h i j r else 0))%Q.
Proof.
  intros (x & y & E1 & E2). destruct (ocells_pos K D pmls OK) as [P1 P2]. destruct (oo_d K D pmls OK) as [D1 D2]. unfold is_gone, okept, okeep. rewrite E1, E2.
  fold Nx Ny. destruct (keep1 (is_open (d_ax D)) th Nx dx x) as [x'|] eqn:X1; [|cbn [qsum fold_right]; ring].
  destruct (keep1 (is_open (d_ay D)) th Ny dy y) as [y'|] eqn:X2; [|cbn [qsum fold_right]; ring].
  cbn [qsum fold_right]. rewrite !Qplus_0_r. unfold charge_of_o. cbv zeta. cbn [px py other]. rewrite E1, E2. cbn [val].
  rewrite (spread_kept (d_ax D) Nx dx x x' _ i P1 ltac:(lra) X1), (spread_kept (d_ay D) Ny dy y y' _ j P2 ltac:(lra) X2). reflexivity.
Qed.
(** a particle in a layer has no charge two cells away *)
Lemma spread_far a W d v s i : (0 < d)%Q -> (Qabs s <= d / 2)%Q -> ~ clear_of_layers a th W d v ->
  (ax_lo a = Pml -> th + 2 <= i < W - th - 2) -> (spread a W i ((v + s) / d) == 0)%Q.
Proof.
  intros Hd Hs C Hi. apply Qabs_Qle_condition in Hs. destruct Hs as [S1 S2]. unfold spread, clear_of_layers in *. destruct (ax_lo a); cbn [bc_eqb]; [|exfalso; apply C; discriminate].
  specialize (Hi eq_refl). apply spline_out.
  assert ((v + s) / d < inject_Z th \/ inject_Z (W - th) - 1 < (v + s) / d)%Q as X.
  { destruct (Qlt_le_dec v (inject_Z th * d - d / 2)) as [L|L].
    - left. apply Qlt_shift_div_r; [exact Hd|]. lra.
    - destruct (Qlt_le_dec (inject_Z (W - th) * d - d / 2) v) as [L'|L']; [|exfalso; apply C; intros _; split; assumption].
      right. apply Qlt_shift_div_l; [exact Hd|]. set (w := inject_Z (W - th)) in *. clearbody w. assert ((w - 1) * d == w * d - d)%Q as -> by ring. set (z := (w * d)%Q) in *. clearbody z. clear - L' S1 Hd. assert (d / 2 == (1#2) * d)%Q as Eh by field. rewrite Eh in *. lra. }
  destruct X as [X|X].
  - right. destruct Hi as [Hi _]. rewrite Zle_Qle, inject_Z_plus in Hi. unfold inject_Z in *. lra.
  - left. destruct Hi as [_ Hi]. assert (i + 3 <= W - th) as H3 by lia. rewrite Zle_Qle, inject_Z_plus in H3. unfold inject_Z in *. lra.
Qed.
Lemma half_move u ig d : (0 < dt)%Q -> (LIGHT_SPEED * dt <= d)%Q -> (Qabs (u * ig) <= 1)%Q -> (Qabs ((1#2) * (u * LIGHT_SPEED * ig) * dt) <= d / 2)%Q.
Proof.
  intros Ht Hd H. assert ((1#2) * (u * LIGHT_SPEED * ig) * dt == (u * ig) * (LIGHT_SPEED * dt * (1#2)))%Q as E by ring. rewrite E, Qabs_Qmult.
  assert (0 < LIGHT_SPEED * dt)%Q as P by (unfold LIGHT_SPEED; lra). rewrite (Qabs_pos (LIGHT_SPEED * dt * (1#2))) by lra.
  eapply Qle_trans; [apply Qmult_le_compat_r; [exact H|lra]|]. assert (d / 2 == (1#2) * d)%Q as -> by field. lra.
Qed.
Lemma CO_far q i j r : fast_ok r -> in_layers th D r -> off_layers th D i j -> (CO q (1#2) i j r == 0)%Q.
Proof.
  intros (_ & V1 & V2) (x & y & E1 & E2 & N) [H1 H2]. destruct (oo_d K D pmls OK) as [D1 D2]. destruct (oo_t K D pmls OK) as (T1 & T2 & T3).
  unfold charge_of_o. cbv zeta. rewrite E1, E2. cbn [val].
  assert (~ clear_of_layers (d_ax D) th Nx dx x \/ ~ clear_of_layers (d_ay D) th Ny dy y) as [C|C].
  { assert (forall a W d v, clear_of_layers a th W d v \/ ~ clear_of_layers a th W d v) as Dec.
    { intros a W d v. destruct (keep1 (is_open a) th W d v) as [w|] eqn:E; [left|right; apply keep1_gone; exact E]. unfold keep1, is_open in E. intro P. rewrite P in E. cbn [bc_eqb] in E.
      destruct (Qle_bool _ v) eqn:Q1; cbn [andb] in E; [|discriminate]. destruct (Qle_bool v _) eqn:Q2; [|discriminate]. apply Qle_bool_iff in Q1, Q2. auto. }
    destruct (Dec (d_ax D) Nx dx x) as [C1|C1]; [|left; exact C1]. right. intro C2. apply N. split; assumption. }
  - rewrite (spread_far (d_ax D) Nx dx x _ i D1 (half_move _ _ _ T1 T2 V1) C H1). ring.
  - rewrite (spread_far (d_ay D) Ny dy y _ j D2 (half_move _ _ _ T1 T3 V2) C H2). ring.
Qed.
Lemma CO_orow rsqrt sp FE FB q i j r : (exists x y, px _ r = Some x /\ py _ r = Some y) ->
  (CO q (-1#2) i j (orow rsqrt (PL D) dx dy dt sp FE FB r) == CO q (1#2) i j r)%Q.
Proof.
  intros (x & y & E1 & E2). unfold orow, oslot, P_Push.one.
  assert (skipped (load (live r)) = false) as S.
  { unfold skipped, load. cbn [l_p p_dead p_nan M_PartSync.row M_PartSync.dead]. rewrite E1, E2. reflexivity. }
  rewrite S. cbv zeta. match goal with |- context [ointerp ?a ?b ?c ?d ?e ?p] => assert (exists f, ointerp a b c d e p = Some f) as [f Hf] by (unfold ointerp; eauto) end. rewrite Hf. cbn [obind].
  unfold push_momentum. cbv zeta. cbn [l_p l_f]. destruct (boris_inline _ _ _ _ _ _ _ _) as [[[ux uy] uz] ig].
  apply CO_rw; unfold rowof, store; cbn [l_p l_f M_PartSync.row px py other b_w b_ux b_uy b_ig val push_position_2d p_x p_y p_ux p_uy p_ig load]; rewrite ?E1, ?E2; cbn [isnan val].
  - reflexivity.
  - ring.
  - ring.
Qed.
End Particle.
