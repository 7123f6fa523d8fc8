(** C123: the laws a run obeys (2D, periodic) do not prefer a place, a direction, an axis or a sign of charge: the image of a
    start under a shift by whole cells, a reversal of x, y or z, an exchange of x and y, a reversal of all charges, or any
    combination, runs as the image of the run. *)
From Coq Require Import QArith Qabs Qcanon Permutation Lqa.
From Verif Require Import Base M_Layout M_PartSync S_PartSync M_FieldSync S_FieldSync M_Maxwell S_Maxwell M_Deposit S_Deposit M_Push S_Push M_Step S_Step S_Gauss S_Cloud S_Sym
  P_Step7 P_Step8 P_Gauss1 P_Gauss2 P_Sym1 P_Sym2 P_Sym3 P_Sym6 Properties_Step Properties_Cloud.
Local Open Scope list_scope.
Local Open Scope Z_scope.

Section S.
Variable rsqrt : Q -> Q.
Hypothesis SUB : subluminal rsqrt.
Variable eps : Qc.

(** ** the image of a run is the run of the image, for any cut of the image into patches *)
Theorem C123_image_run : forall y D D' sps sps' k s s' s1 s1',
  domain_ok D -> domain_ok D' -> image_domain y D D' -> Forall2 (image_species y) sps sps' ->
  ready D sps s -> ready D' sps' s' -> image_state y D D' s s' ->
  steps2 rsqrt eps D sps k s s1 -> steps2 rsqrt eps D' sps' k s' s1' ->
  image_state y D D' s1 s1'.
Proof.
  intros y D D' sps sps' k s s' s1 s1' OK OK' ID SP R R' S T T'. exact (proj1 (image_steps rsqrt SUB eps D D' OK OK' y ID sps sps' SP k s s' s1 s1' R R' S T T')).
Qed.

Lemma read_image y D D' s s' : domain_ok D -> domain_ok D' -> image_domain y D D' -> image_state y D D' s s' ->
  forall f a b, let orig hx hy := let a0 := origin_of (y_fx y) (y_ax y) (Cx D') (hx f) (a mod Cx D') in let b0 := origin_of (y_fy y) (y_ay y) (Cy D') (hy f) (b mod Cy D') in
                  if y_swap y then [b0; a0] else [a0; b0] in
  ((f < 3)%nat -> on_domain D' (t_E s') f [a; b] = (Q2Qc (sgn (sign_E y f)) * on_domain D (t_E s) (comp y f) (orig half_Ex half_Ey))%Qc) /\
  ((f < 3)%nat -> on_domain D' (t_B s') f [a; b] = (Q2Qc (sgn (sign_B y f)) * on_domain D (t_B s) (comp y f) (orig half_Bx half_By))%Qc) /\
  ((f < 4)%nat -> on_domain D' (t_J s') f [a; b] = (Q2Qc (sgn (sign_E y f)) * on_domain D (t_J s) (comp y f) (orig half_Ex half_Ey))%Qc).
Proof using.
  intros OK OK' ID ((FE & E1 & E2) & (FB & B1 & B2) & (FJ & J1 & J2) & _) f a b orig.
  destruct (widths D OK) as [W1 W2]. destruct (widths D' OK') as [W1' W2']. destruct ID as [I _].
  assert (forall rev A N h c, 0 < N -> origin_of rev A N h c mod N = origin_of rev A N h c) as MM by (intros; apply Zmod_mod).
  assert (forall g, (f < g)%nat -> (2 <= g)%nat -> (comp y f < g)%nat) as CC by (intros g Hg Hg'; unfold comp; destruct (y_swap y), f as [|[|f]]; lia).
  unfold orig, image_E, image_B, image in *. clear orig. split; [|split]; intro Hf.
  - rewrite (read_field D' OK' _ _ f a b E2 Hf), shown0 by exact OK'. fold (Cx D') (Cy D'). cbv beta iota zeta. f_equal.
    destruct (y_swap y); rewrite (read_field D OK _ _ _ _ _ E1 (CC 3%nat Hf ltac:(lia))), shown0 by exact OK; destruct I as (I1 & I2 & _ & _); unfold cells_x, cells_y; fold (Cx D) (Cy D); rewrite <- ?I1, <- ?I2, !MM by assumption; reflexivity.
  - rewrite (read_field D' OK' _ _ f a b B2 Hf), shown0 by exact OK'. fold (Cx D') (Cy D'). cbv beta iota zeta. f_equal.
    destruct (y_swap y); rewrite (read_field D OK _ _ _ _ _ B1 (CC 3%nat Hf ltac:(lia))), shown0 by exact OK; destruct I as (I1 & I2 & _ & _); unfold cells_x, cells_y; fold (Cx D) (Cy D); rewrite <- ?I1, <- ?I2, !MM by assumption; reflexivity.
  - rewrite (read_currents D' OK' _ _ f a b J2 Hf), shown0 by exact OK'. fold (Cx D') (Cy D'). cbv beta iota zeta. f_equal.
    destruct (y_swap y); rewrite (read_currents D OK _ _ _ _ _ J1 (CC 4%nat Hf ltac:(lia))), shown0 by exact OK; destruct I as (I1 & I2 & _ & _); unfold cells_x, cells_y; fold (Cx D) (Cy D); rewrite <- ?I1, <- ?I2, !MM by assumption; reflexivity.
Qed.

(** ** read off at a cell of the image: E, B, current and charge densities are those of the cell it came from, turned with the
    axes; components between the grid points go to the nearest place between grid points *)
Theorem C123_image_values : forall y D D' sps sps' k s s' s1 s1' f a b,
  domain_ok D -> domain_ok D' -> image_domain y D D' -> Forall2 (image_species y) sps sps' ->
  ready D sps s -> ready D' sps' s' -> image_state y D D' s s' ->
  steps2 rsqrt eps D sps k s s1 -> steps2 rsqrt eps D' sps' k s' s1' ->
  let orig hx hy := let a0 := origin_of (y_fx y) (y_ax y) (Cx D') (hx f) (a mod Cx D') in let b0 := origin_of (y_fy y) (y_ay y) (Cy D') (hy f) (b mod Cy D') in
                    if y_swap y then [b0; a0] else [a0; b0] in
  ((f < 3)%nat -> on_domain D' (t_E s1') f [a; b] = (Q2Qc (sgn (sign_E y f)) * on_domain D (t_E s1) (comp y f) (orig half_Ex half_Ey))%Qc) /\
  ((f < 3)%nat -> on_domain D' (t_B s1') f [a; b] = (Q2Qc (sgn (sign_B y f)) * on_domain D (t_B s1) (comp y f) (orig half_Bx half_By))%Qc) /\
  ((f < 4)%nat -> on_domain D' (t_J s1') f [a; b] = (Q2Qc (sgn (sign_E y f)) * on_domain D (t_J s1) (comp y f) (orig half_Ex half_Ey))%Qc).
Proof.
  intros y D D' sps sps' k s s' s1 s1' f a b OK OK' ID SP R R' S T T'.
  exact (read_image y D D' s1 s1' OK OK' ID (C123_image_run y D D' sps sps' k s s' s1 s1' OK OK' ID SP R R' S T T') f a b).
Qed.

(** ** a start that is its own image stays its own image *)
Theorem C123_symmetric_start : forall y D sps k s s1, domain_ok D -> image_domain y D D -> y_conj y = false -> ready D sps s ->
  image_state y D D s s -> steps2 rsqrt eps D sps k s s1 -> image_state y D D s1 s1.
Proof.
  intros y D sps k s s1 OK ID C R S T. refine (C123_image_run y D D sps sps k s s s1 s1 OK OK ID _ R R S T T).
  clear - C. induction sps as [|sp l IH]; constructor; [|exact IH]. unfold image_species. rewrite C. cbn [sgn]. split; [ring|reflexivity].
Qed.

(** ** a start that does not change along y (a shift by one cell carries it into itself): E, B and the densities never depend on
    y; likewise along x *)
Definition shifted (i j : Z) : symmetry := mkSym false false false false false i j.
Lemma no_shift i j D : image_domain (shifted i j) D D. Proof using. split; cbn [shifted y_swap]; auto. Qed.
Lemma steps_of_one (G : Z -> Qc) : (forall b, G b = G (b - 1)) -> forall b b', G b = G b'.
Proof using.
  intro H. assert (forall n b, G (b + Z.of_nat n) = G b) as K.
  { induction n as [|n IH]; intro b; [rewrite Z.add_0_r; reflexivity|]. rewrite H. replace (b + Z.of_nat (S n) - 1) with (b + Z.of_nat n) by lia. apply IH. }
  intros b b'. destruct (Z.le_ge_cases b b') as [L|L].
  - replace b' with (b + Z.of_nat (Z.to_nat (b' - b))) by lia. symmetry. apply K.
  - replace b with (b' + Z.of_nat (Z.to_nat (b - b'))) by lia. apply K.
Qed.
Lemma domain_mod D : domain_ok D -> forall m f a b, on_domain D m f [a mod Cx D; b mod Cy D] = on_domain D m f [a; b].
Proof using. intros OK m f a b. unfold on_domain, stored. cbv zeta. unfold cells_x, cells_y. fold (Cx D) (Cy D). rewrite !Zmod_mod. reflexivity. Qed.
Theorem C123_one_dimensional : forall D sps k s s1, domain_ok D -> ready D sps s -> image_state (shifted 0 1) D D s s -> steps2 rsqrt eps D sps k s s1 ->
  forall f a b b', ((f < 3)%nat -> on_domain D (t_E s1) f [a; b] = on_domain D (t_E s1) f [a; b'] /\ on_domain D (t_B s1) f [a; b] = on_domain D (t_B s1) f [a; b']) /\
                   ((f < 4)%nat -> on_domain D (t_J s1) f [a; b] = on_domain D (t_J s1) f [a; b']).
Proof.
  intros D sps k s s1 OK R S T f a b b'.
  pose proof (C123_symmetric_start _ D sps k s s1 OK (no_shift 0 1 D) eq_refl R S T) as S1.
  pose proof (fun c => read_image _ D D s1 s1 OK OK (no_shift 0 1 D) S1 f a c) as V. cbv zeta in V.
  unfold origin_of, shifted, comp, sign_B, sign_E, improper, rev_ in V. cbn [y_swap y_fx y_fy y_fz y_conj y_ax y_ay xorb] in V.
  assert (match f with 0 | 1 | 2 | _ => false end%nat = false) as RF by (destruct f as [|[|[|f]]]; reflexivity).
  rewrite RF in V. cbn [sgn xorb] in V. assert (forall c, (Q2Qc 1 * c)%Qc = c) as O1 by (intro c; apply Qcmult_1_l).
  assert (forall m c, on_domain D m f [(a mod Cx D - 0) mod Cx D; (c mod Cy D - 1) mod Cy D] = on_domain D m f [a; c - 1]) as MM.
  { intros m c. rewrite Z.sub_0_r, Zmod_mod, Zminus_mod_idemp_l. apply domain_mod. exact OK. }
  split; intro Hf; [split|].
  - apply (steps_of_one (fun c => on_domain D (t_E s1) f [a; c])). intro c. destruct (V c) as (V1 & _). rewrite (V1 Hf), O1. apply MM.
  - apply (steps_of_one (fun c => on_domain D (t_B s1) f [a; c])). intro c. destruct (V c) as (_ & V1 & _). rewrite (V1 Hf), O1. apply MM.
  - apply (steps_of_one (fun c => on_domain D (t_J s1) f [a; c])). intro c. destruct (V c) as (_ & _ & V1). rewrite (V1 Hf), O1. apply MM.
Qed.

(** ** a start that equals its mirror image under a reversal of z (say, nothing moves along z, and Ez, Bx, By are zero): Ez, Bx, By
    and jz stay zero *)
Definition z_mirror : symmetry := mkSym false false false true false 0 0.
Lemma opp_self (v : Qc) : v = (Q2Qc (- (1))%Q * v)%Qc -> v = 0%Qc.
Proof using.
  intro H. apply Qc_is_canon. assert (this v == - this v)%Q as E; [|change (this 0%Qc) with 0%Q; lra].
  rewrite H at 1. rewrite this_times. ring.
Qed.
Theorem C123_planar : forall D sps k s s1, domain_ok D -> ready D sps s -> image_state z_mirror D D s s -> steps2 rsqrt eps D sps k s s1 ->
  forall a b, on_domain D (t_E s1) 2 [a; b] = 0%Qc /\ on_domain D (t_B s1) 0 [a; b] = 0%Qc /\ on_domain D (t_B s1) 1 [a; b] = 0%Qc /\ on_domain D (t_J s1) 2 [a; b] = 0%Qc.
Proof.
  intros D sps k s s1 OK R S T a b.
  assert (image_domain z_mirror D D) as ID by (split; cbn [z_mirror y_swap]; auto).
  pose proof (C123_symmetric_start _ D sps k s s1 OK ID eq_refl R S T) as S1.
  pose proof (fun f => read_image _ D D s1 s1 OK OK ID S1 f a b) as V. cbv zeta in V.
  unfold origin_of, z_mirror, comp, sign_B, sign_E, improper, rev_ in V. cbn [y_swap y_fx y_fy y_fz y_conj y_ax y_ay xorb] in V.
  assert (forall m f, on_domain D m f [(a mod Cx D - 0) mod Cx D; (b mod Cy D - 0) mod Cy D] = on_domain D m f [a; b]) as MM.
  { intros m f. rewrite !Z.sub_0_r, !Zmod_mod. apply domain_mod. exact OK. }
  repeat split; apply opp_self.
  - destruct (V 2%nat) as (V1 & _). rewrite (V1 ltac:(lia)) at 1. rewrite MM. reflexivity.
  - destruct (V 0%nat) as (_ & V1 & _). rewrite (V1 ltac:(lia)) at 1. rewrite MM. reflexivity.
  - destruct (V 1%nat) as (_ & V1 & _). rewrite (V1 ltac:(lia)) at 1. rewrite MM. reflexivity.
  - destruct (V 2%nat) as (_ & _ & V1). rewrite (V1 ltac:(lia)) at 1. rewrite MM. reflexivity.
Qed.

(** ** two species of opposite charge and the same mass with the same particles, no fields at the start: no fields, currents or
    charge density ever appear *)
(** no fields recorded with the particle *)
Definition no_record (r : prow body) : Prop := same6 (b_f (other _ r)) (mkSix 0 0 0 0 0 0)%Q.
Definition conjugate : symmetry := mkSym false false false false true 0 0.
Theorem C123_pair_plasma : forall D e p A B k s s1, domain_ok D -> ready D [e; p] s -> t_parts s = [A; B] -> same_particles A B -> (forall st r, In st [A; B] -> In r (particles st) -> no_record r) ->
  (sp_q p == - sp_q e)%Q -> (sp_m p == sp_m e)%Q ->
  field_is D (fun _ _ => Q2Qc 0) (t_E s) -> field_is D (fun _ _ => Q2Qc 0) (t_B s) -> currents_are D (fun _ _ => Q2Qc 0) (t_J s) ->
  steps2 rsqrt eps D [e; p] k s s1 ->
  forall f a b, ((f < 3)%nat -> on_domain D (t_E s1) f [a; b] = 0%Qc /\ on_domain D (t_B s1) f [a; b] = 0%Qc) /\ ((f < 4)%nat -> on_domain D (t_J s1) f [a; b] = 0%Qc).
Proof.
  intros D e p A B k s s1 OK [L F] EP SA NR Hq Hm HE HB HJ T f a b.
  destruct s as [mE mB mJ ps]. cbn [t_E t_B t_J t_parts] in *. subst ps.
  inversion F as [|? ? FA F0]; subst. inversion F0 as [|? ? FB _]; subst.
  set (s2 := mkState2 mE mB mJ [B; A]). set (s3 := mkState2 mE mB mJ [A; B]) in *.
  assert (ready D [p; e] s2) as R2 by (split; [reflexivity|apply Forall_cons; [assumption|apply Forall_cons; [assumption|apply Forall_nil]]]).
  assert (ready D [p; e] s3) as R3 by (split; [reflexivity|apply Forall_cons; [assumption|apply Forall_cons; [assumption|apply Forall_nil]]]).
  assert (forall l, consistent D (mkState2 mE mB mJ l)) as CO by (intro l; split; [|split]; eexists; eassumption).
  destruct (C76_runs_exist rsqrt SUB eps D [p; e] k s2 OK R2 (CO _)) as (t2 & T2 & _).
  destruct (C76_runs_exist rsqrt SUB eps D [p; e] k s3 OK R3 (CO _)) as (t3 & T3 & _).
  assert (same_domain D D) as SD by (unfold same_domain; auto).
  destruct (C122_same_run rsqrt SUB eps D D [e; p] [p; e] k s3 s2 s1 t2 OK OK SD (conj L F) R2) as (((FE & E1 & E2) & (FB_ & B1 & B2) & (FJ & J1 & J2)) & _); [| |exact T|exact T2|].
  { split; [eexists; split; eassumption|]. split; eexists; split; eassumption. }
  { apply C122_species_order. cbn [combine]. apply perm_swap. }
  destruct (C76_decomposition rsqrt SUB eps D D [p; e] [p; e] k s2 s3 t2 t3 OK OK SD) as (((GE & E3 & E4) & (GB & B3 & B4) & (GJ & J3 & J4) & _) & _); [repeat constructor|exact R2|exact R3| |exact T2|exact T3|].
  { split; [eexists; split; eassumption|]. split; [eexists; split; eassumption|]. split; [eexists; split; eassumption|]. cbn [t_parts s2 s3]. constructor; [apply Permutation_sym; exact SA|]. constructor; [exact SA|constructor]. }
  assert (image_domain conjugate D D) as ID by (split; cbn [conjugate y_swap]; auto).
  assert (image_state conjugate D D s1 t3) as S1.
  { refine (C123_image_run conjugate D D [e; p] [p; e] k s3 s3 s1 t3 OK OK ID _ (conj L F) R3 _ T T3).
    - constructor; [|constructor; [|constructor]]; split; cbn [conjugate y_conj sgn]; rewrite ?Hq, ?Hm; ring.
    - assert (forall st, In st [A; B] -> image_particles conjugate D st st) as IP.
      { intros st I. exists (particles st). split; [apply Permutation_refl|]. specialize (fun r => NR st r I). clear - NR. induction (particles st) as [|r l IH]; constructor; [|apply IH; intros; apply NR; right; assumption].
        assert (forall N d x, carried false 0 N d x x) as C1 by (intros N d [x|]; cbn [carried sgn]; [exists 0; change (inject_Z (0 + 0 * N)) with 0%Q; ring|exact I]).
        destruct (NR r (or_introl eq_refl)) as (N1 & N2 & N3 & N4 & N5 & N6). cbn [s_ex s_ey s_ez s_bx s_by s_bz] in *.
        unfold image_row, conjugate. cbv zeta. cbn [y_swap y_fx y_fy y_fz y_conj y_ax y_ay]. split; [apply C1|]. split; [apply C1|]. cbn [sgn].
        split; [ring|]. split; [ring|]. split; [ring|]. split; [reflexivity|]. split; [reflexivity|]. split; [|reflexivity].
        unfold same6, image6, sign_B, sign_E, improper, rev_. cbv zeta. cbn [y_swap y_fx y_fy y_fz y_conj xorb sgn s_ex s_ey s_ez s_bx s_by s_bz]. rewrite N1, N2, N3, N4, N5, N6. repeat split; reflexivity. }
      assert (forall sg hx hy f a b, image conjugate D sg hx hy (fun _ _ => Q2Qc 0) f [a; b] = Q2Qc 0) as IZ.
      { intros sg hx hy f0 a0 b0. unfold image. cbv zeta. destruct (y_swap conjugate); apply Qcmult_0_r. }
      split; [|split; [|split]].
      + exists (fun _ _ => Q2Qc 0). split; [exact HE|]. apply (field_ext2 D OK (fun _ _ => Q2Qc 0)); [|exact HE]. intros. symmetry. apply IZ.
      + exists (fun _ _ => Q2Qc 0). split; [exact HB|]. apply (field_ext2 D OK (fun _ _ => Q2Qc 0)); [|exact HB]. intros. symmetry. apply IZ.
      + exists (fun _ _ => Q2Qc 0). split; [exact HJ|]. apply (currents_ext2 D OK (fun _ _ => Q2Qc 0)); [|exact HJ]. intros. symmetry. apply IZ.
      + cbn [t_parts s3]. constructor; [apply IP; left; reflexivity|]. constructor; [apply IP; right; left; reflexivity|constructor]. }
  pose proof (read_image _ D D s1 t3 OK OK ID S1 f a b) as V. cbv zeta in V.
  unfold origin_of, conjugate, comp, sign_B, sign_E, improper, rev_ in V. cbn [y_swap y_fx y_fy y_fz y_conj y_ax y_ay xorb] in V.
  assert (match f with 0 | 1 | 2 | _ => false end%nat = false) as RF by (destruct f as [|[|[|g]]]; reflexivity).
  rewrite RF in V. cbn [sgn xorb negb] in V. rewrite !Z.sub_0_r, !Zmod_mod, !domain_mod in V by exact OK. destruct V as (V1 & V2 & V3).
  split; intro Hf; [split|]; apply opp_self.
  - rewrite <- (V1 Hf). rewrite (read_field D OK _ _ f a b E1 Hf), <- (read_field D OK _ _ f a b E2 Hf), (read_field D OK _ _ f a b E3 Hf), <- (read_field D OK _ _ f a b E4 Hf). reflexivity.
  - rewrite <- (V2 Hf). rewrite (read_field D OK _ _ f a b B1 Hf), <- (read_field D OK _ _ f a b B2 Hf), (read_field D OK _ _ f a b B3 Hf), <- (read_field D OK _ _ f a b B4 Hf). reflexivity.
  - rewrite <- (V3 Hf). rewrite (read_currents D OK _ _ f a b J1 Hf), <- (read_currents D OK _ _ f a b J2 Hf), (read_currents D OK _ _ f a b J3 Hf), <- (read_currents D OK _ _ f a b J4 Hf). reflexivity.
Qed.
End S.

(** ** what it takes to equal one's mirror image under a reversal of z *)
Theorem C123_planar_start : forall D s FE FB FJ, domain_ok D ->
  field_is D FE (t_E s) -> field_is D FB (t_B s) -> currents_are D FJ (t_J s) ->
  (forall g, FE 2%nat g = 0%Qc /\ FB 0%nat g = 0%Qc /\ FB 1%nat g = 0%Qc /\ FJ 2%nat g = 0%Qc) ->
  (forall st r, In st (t_parts s) -> In r (particles st) -> (b_uz (other _ r) == 0)%Q /\ no_record r) ->
  image_state z_mirror D D s s.
Proof.
  intros D s FE FB FJ OK HE HB HJ Z NR. assert (forall (c d : Qc), c = d -> c = (Q2Qc 1 * d)%Qc) as O1 by (intros c d ->; symmetry; apply Qcmult_1_l).
  assert (forall (c d : Qc), c = 0%Qc -> d = 0%Qc -> c = (Q2Qc (- (1))%Q * d)%Qc) as O2 by (intros c d -> ->; symmetry; apply Qcmult_0_r).
  assert (forall sg hx hy F f a b, 0 <= a < Cx D -> 0 <= b < Cy D -> (sg f = true -> F f [a; b] = 0%Qc) -> F f [a; b] = image z_mirror D sg hx hy F f [a; b]) as K.
  { intros sg hx hy F f a b Ha Hb H. unfold image, origin_of. cbn [z_mirror y_swap y_fx y_fy y_fz y_conj y_ax y_ay comp]. cbv zeta. rewrite !Z.sub_0_r, !Z.mod_small by assumption.
    destruct (sg f); cbn [sgn]; [apply O2; apply H; reflexivity|apply O1; reflexivity]. }
  split; [|split; [|split]].
  - exists FE. split; [exact HE|]. apply (field_ext2 D OK FE); [|exact HE]. intros f a b Hf Ha Hb. apply K; [exact Ha|exact Hb|]. destruct f as [|[|[|f]]]; try discriminate; try lia. intros _. apply Z.
  - exists FB. split; [exact HB|]. apply (field_ext2 D OK FB); [|exact HB]. intros f a b Hf Ha Hb. apply K; [exact Ha|exact Hb|]. destruct f as [|[|[|f]]]; try discriminate; try lia; intros _; apply Z.
  - exists FJ. split; [exact HJ|]. apply (currents_ext2 D OK FJ); [|exact HJ]. intros f a b Hf Ha Hb. apply K; [exact Ha|exact Hb|]. destruct f as [|[|[|f]]]; try discriminate; try lia. intros _. apply Z.
  - revert NR. generalize (t_parts s). induction l as [|st l IH]; intro NR; constructor; [|apply IH; intros; eapply NR; [right; eassumption|assumption]].
    exists (particles st). split; [apply Permutation_refl|]. specialize (fun r => NR st r (or_introl eq_refl)). clear - NR. induction (particles st) as [|r m IH]; constructor; [|apply IH; intros; apply NR; right; assumption].
    assert (forall N d x, carried false 0 N d x x) as C1 by (intros N d [x|]; cbn [carried sgn]; [exists 0; change (inject_Z (0 + 0 * N)) with 0%Q; ring|exact I]).
    destruct (NR r (or_introl eq_refl)) as (UZ & N1 & N2 & N3 & N4 & N5 & N6). cbn [s_ex s_ey s_ez s_bx s_by s_bz] in *.
    unfold image_row, z_mirror. cbv zeta. cbn [y_swap y_fx y_fy y_fz y_conj y_ax y_ay]. split; [apply C1|]. split; [apply C1|]. cbn [sgn].
    split; [ring|]. split; [ring|]. split; [rewrite UZ; ring|]. split; [reflexivity|]. split; [reflexivity|]. split; [|reflexivity].
    unfold same6, image6, sign_B, sign_E, improper, rev_. cbv zeta. cbn [y_swap y_fx y_fy y_fz y_conj xorb sgn s_ex s_ey s_ez s_bx s_by s_bz]. rewrite N1, N2, N3, N4, N5, N6. repeat split; reflexivity.
Qed.

(** ** a case: the two particles of [ex_one] on one patch; their image under everything at once (axes exchanged, x and z
    reversed, charges reversed, shifted by 2 and 5 cells) on two patches *)
Definition ex_all : symmetry := mkSym true true false true true 2 5.
Definition ex_turned (x y uy : Q) (id : Z) : prt :=
  M_PartSync.mkSlot _ (mkRow _ (Some x) (Some y) (Some 0%Q) (mkBody (-(1#3)) uy 0 (3#4) 2 (mkSix 0 0 0 0 0 0)%Q id)) false.
Definition ex_image := ex_state [[ex_turned 0 (42#10) (5#4) 8]; [ex_part true 1 1 1 9; ex_turned 5 (14#10) 1 7]].
Example C123_case : forall k e, exists s1 s1',
  steps2 ex_rsqrt e (ex_dom 1) [mkSpecies (-1) 1 true] k ex_one s1 /\ steps2 ex_rsqrt e (ex_dom 2) [mkSpecies 1 1 false] k ex_image s1' /\ image_state ex_all (ex_dom 1) (ex_dom 2) s1 s1'.
Proof.
  intros k e. pose proof (ex_ok 1 (or_introl eq_refl)) as O1. pose proof (ex_ok 2 (or_intror eq_refl)) as O2.
  assert (R1 : ready (ex_dom 1) [mkSpecies (-1) 1 true] ex_one).
  { split; [reflexivity|]. constructor; [|constructor]. split; [reflexivity|]. intros p r Hp I. assert (p = 0)%nat as -> by (change (npatches2 (ex_dom 1)) with 1%nat in Hp; lia). ex_in I. }
  assert (R2 : ready (ex_dom 2) [mkSpecies 1 1 false] ex_image).
  { split; [reflexivity|]. constructor; [|constructor]. split; [reflexivity|]. intros p r Hp I. change (npatches2 (ex_dom 2)) with 2%nat in Hp.
    destruct p as [|[|p]]; [| |lia]; ex_in I. }
  assert (C : forall D l, consistent D (ex_state l)) by (intros D l; split; [|split]; eexists; try apply ex_field; apply ex_cur).
  destruct (C76_runs_exist ex_rsqrt ex_sub e _ _ k ex_one O1 R1 (C _ _)) as (s1 & T1 & _).
  destruct (C76_runs_exist ex_rsqrt ex_sub e _ _ k ex_image O2 R2 (C _ _)) as (s1' & T2 & _).
  exists s1, s1'. split; [exact T1|]. split; [exact T2|].
  refine (C123_image_run ex_rsqrt ex_sub e ex_all (ex_dom 1) (ex_dom 2) _ _ k ex_one ex_image s1 s1' O1 O2 _ _ R1 R2 _ T1 T2).
  - split; [cbn [ex_all y_swap]; repeat split; reflexivity|reflexivity].
  - constructor; [split; reflexivity|constructor].
  - assert (forall sg hx hy f a b, image ex_all (ex_dom 2) sg hx hy (fun _ _ => Q2Qc 0) f [a; b] = Q2Qc 0) as IZ.
    { intros sg hx hy f0 a0 b0. unfold image. cbv zeta. destruct (y_swap ex_all); apply Qcmult_0_r. }
    split; [|split; [|split]].
    + exists (fun _ _ => Q2Qc 0). split; [apply ex_field|]. apply (field_ext2 _ O2 (fun _ _ => Q2Qc 0)); [|apply ex_field]. intros. symmetry. apply IZ.
    + exists (fun _ _ => Q2Qc 0). split; [apply ex_field|]. apply (field_ext2 _ O2 (fun _ _ => Q2Qc 0)); [|apply ex_field]. intros. symmetry. apply IZ.
    + exists (fun _ _ => Q2Qc 0). split; [apply ex_cur|]. apply (currents_ext2 _ O2 (fun _ _ => Q2Qc 0)); [|apply ex_cur]. intros. symmetry. apply IZ.
    + constructor; [|constructor]. eexists. split; [apply perm_swap|].
      constructor; [|constructor; [|constructor]]; repeat split; try (vm_compute; reflexivity).
      * exists 1. vm_compute. reflexivity.
      * exists (-1). vm_compute. reflexivity.
      * exists 0. vm_compute. reflexivity.
      * exists (-1). vm_compute. reflexivity.
Qed.

Print Assumptions C123_image_run.
Print Assumptions C123_image_values.
Print Assumptions C123_symmetric_start.
Print Assumptions C123_one_dimensional.
Print Assumptions C123_planar.
Print Assumptions C123_pair_plasma.
Print Assumptions C123_planar_start.
Print Assumptions C123_case.
