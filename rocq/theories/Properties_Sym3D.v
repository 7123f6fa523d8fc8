(** C136: C123 in three dimensions: the image of a start under a shift by whole cells, a reversal of x, y or z, a reversal of
    all charges, or any combination, runs as the image of the run. *)
From Coq Require Import QArith Qabs Qcanon Permutation Lqa.
From Verif Require Import Base M_Layout M_PartSync S_PartSync M_FieldSync S_FieldSync M_Maxwell S_Maxwell M_Deposit S_Deposit M_Push S_Push M_Step S_Step S_Sym P_Sym1 P_Sym2 M_Step3D S_Step3D S_Gauss3D S_Cloud3D S_Sym3D
  P_StepD8 P_GaussD1 P_GaussD2 P_SymD1 P_SymD2 P_SymD3 Properties_Step3D Properties_Sym Properties_Cloud3D.
Local Open Scope list_scope.
Local Open Scope Z_scope.

Section S.
Variable rsqrt : Q -> Q.
Hypothesis SUB : subluminal rsqrt.
Variable eps : Qc.

(** ** the image of a run is the run of the image, for any cut of the image into patches *)
Theorem C136_image_run : forall y D D' sps sps' k s s' s1 s1',
  domain3_ok D -> domain3_ok D' -> image3_domain D D' -> Forall2 (image_species (flat y)) sps sps' -> all_fused sps -> all_fused sps' ->
  ready3 D sps s -> ready3 D' sps' s' -> image3_state y D D' s s' ->
  steps3d rsqrt eps D sps k s s1 -> steps3d rsqrt eps D' sps' k s' s1' ->
  image3_state y D D' s1 s1'.
Proof.
  intros y D D' sps sps' k s s' s1 s1' OK OK' ID SP U U' R R' S T T'. exact (proj1 (image_steps3 rsqrt SUB eps D D' OK OK' y ID sps sps' U U' SP k s s' s1 s1' R R' S T T')).
Qed.

Lemma read_image3 y D D' s s' : domain3_ok D -> domain3_ok D' -> image3_domain D D' -> image3_state y D D' s s' ->
  forall f a b c, let orig hx hy hz := [origin_of (z_fx y) (z_ax y) (Ex D') (hx f) (a mod Ex D'); origin_of (z_fy y) (z_ay y) (Ey D') (hy f) (b mod Ey D'); origin_of (z_fz y) (z_az y) (Ez D') (hz f) (c mod Ez D')] in
  ((f < 3)%nat -> on_domain3 D' (t_E s') f [a; b; c] = (Q2Qc (sgn (sign_E (flat y) f)) * on_domain3 D (t_E s) f (orig half_Ex half_Ey half_Ez))%Qc) /\
  ((f < 3)%nat -> on_domain3 D' (t_B s') f [a; b; c] = (Q2Qc (sgn (sign_B (flat y) f)) * on_domain3 D (t_B s) f (orig half_Bx half_By half_Bz))%Qc) /\
  ((f < 4)%nat -> on_domain3 D' (t_J s') f [a; b; c] = (Q2Qc (sgn (sign_E (flat y) f)) * on_domain3 D (t_J s) f (orig half_Ex half_Ey half_Ez))%Qc).
Proof using.
  intros OK OK' (I1 & I2 & I3 & _) ((FE & E1 & E2) & (FB & B1 & B2) & (FJ & J1 & J2) & _) f a b c orig.
  assert (forall rev A N h c, origin_of rev A N h c mod N = origin_of rev A N h c) as MM by (intros; apply Zmod_mod).
  unfold orig, image3_E, image3_B, image3 in *. clear orig. split; [|split]; intro Hf.
  - rewrite (read_field3 D' OK' _ _ f a b c E2 Hf), shown0_3 by exact OK'. f_equal. rewrite (read_field3 D OK _ _ _ _ _ _ E1 Hf), shown0_3 by exact OK. unfold cells3_x, cells3_y, cells3_z. fold (Ex D) (Ey D) (Ez D) (Ex D') (Ey D') (Ez D'). rewrite <- I1, <- I2, <- I3, !MM. reflexivity.
  - rewrite (read_field3 D' OK' _ _ f a b c B2 Hf), shown0_3 by exact OK'. f_equal. rewrite (read_field3 D OK _ _ _ _ _ _ B1 Hf), shown0_3 by exact OK. unfold cells3_x, cells3_y, cells3_z. fold (Ex D) (Ey D) (Ez D) (Ex D') (Ey D') (Ez D'). rewrite <- I1, <- I2, <- I3, !MM. reflexivity.
  - rewrite (read_currents3 D' OK' _ _ f a b c J2 Hf), shown0_3 by exact OK'. f_equal. rewrite (read_currents3 D OK _ _ _ _ _ _ J1 Hf), shown0_3 by exact OK. unfold cells3_x, cells3_y, cells3_z. fold (Ex D) (Ey D) (Ez D) (Ex D') (Ey D') (Ez D'). rewrite <- I1, <- I2, <- I3, !MM. reflexivity.
Qed.

(** ** read off at a cell of the image: E, B, current and charge densities are those of the cell it came from, turned with the
    axes; components between the grid points go to the nearest place between grid points *)
Theorem C136_image_values : forall y D D' sps sps' k s s' s1 s1' f a b c,
  domain3_ok D -> domain3_ok D' -> image3_domain D D' -> Forall2 (image_species (flat y)) sps sps' -> all_fused sps -> all_fused sps' ->
  ready3 D sps s -> ready3 D' sps' s' -> image3_state y D D' s s' ->
  steps3d rsqrt eps D sps k s s1 -> steps3d rsqrt eps D' sps' k s' s1' ->
  let orig hx hy hz := [origin_of (z_fx y) (z_ax y) (Ex D') (hx f) (a mod Ex D'); origin_of (z_fy y) (z_ay y) (Ey D') (hy f) (b mod Ey D'); origin_of (z_fz y) (z_az y) (Ez D') (hz f) (c mod Ez D')] in
  ((f < 3)%nat -> on_domain3 D' (t_E s1') f [a; b; c] = (Q2Qc (sgn (sign_E (flat y) f)) * on_domain3 D (t_E s1) f (orig half_Ex half_Ey half_Ez))%Qc) /\
  ((f < 3)%nat -> on_domain3 D' (t_B s1') f [a; b; c] = (Q2Qc (sgn (sign_B (flat y) f)) * on_domain3 D (t_B s1) f (orig half_Bx half_By half_Bz))%Qc) /\
  ((f < 4)%nat -> on_domain3 D' (t_J s1') f [a; b; c] = (Q2Qc (sgn (sign_E (flat y) f)) * on_domain3 D (t_J s1) f (orig half_Ex half_Ey half_Ez))%Qc).
Proof.
  intros y D D' sps sps' k s s' s1 s1' f a b c OK OK' ID SP U U' R R' S T T'.
  exact (read_image3 y D D' s1 s1' OK OK' ID (C136_image_run y D D' sps sps' k s s' s1 s1' OK OK' ID SP U U' R R' S T T') f a b c).
Qed.

(** ** a start that is its own image stays its own image *)
Theorem C136_symmetric_start : forall y D sps k s s1, domain3_ok D -> z_conj y = false -> all_fused sps -> ready3 D sps s ->
  image3_state y D D s s -> steps3d rsqrt eps D sps k s s1 -> image3_state y D D s1 s1.
Proof.
  intros y D sps k s s1 OK C U R S T. refine (C136_image_run y D D sps sps k s s s1 s1 OK OK _ _ U U R R S T T).
  - unfold image3_domain. auto 10.
  - clear - C. induction sps as [|sp l IH]; constructor; [|exact IH]. unfold image_species. cbn [flat y_conj]. rewrite C. cbn [sgn]. split; [ring|reflexivity].
Qed.

(** ** a start that does not change along z (a shift by one cell carries it into itself): E, B and the densities never depend
    on z *)
Definition up : symmetry3 := mkSym3 false false false false 0 0 1.
Lemma domain_mod3 D : domain3_ok D -> forall m f a b c, on_domain3 D m f [a mod Ex D; b mod Ey D; c mod Ez D] = on_domain3 D m f [a; b; c].
Proof using. intros OK m f a b c. unfold on_domain3, stored3. cbv zeta. unfold cells3_x, cells3_y, cells3_z. fold (Ex D) (Ey D) (Ez D). rewrite !Zmod_mod. reflexivity. Qed.
Theorem C136_two_dimensional : forall D sps k s s1, domain3_ok D -> all_fused sps -> ready3 D sps s -> image3_state up D D s s -> steps3d rsqrt eps D sps k s s1 ->
  forall f a b c c', ((f < 3)%nat -> on_domain3 D (t_E s1) f [a; b; c] = on_domain3 D (t_E s1) f [a; b; c'] /\ on_domain3 D (t_B s1) f [a; b; c] = on_domain3 D (t_B s1) f [a; b; c']) /\
                     ((f < 4)%nat -> on_domain3 D (t_J s1) f [a; b; c] = on_domain3 D (t_J s1) f [a; b; c']).
Proof.
  intros D sps k s s1 OK U R S T f a b c c'.
  pose proof (C136_symmetric_start up D sps k s s1 OK eq_refl U R S T) as S1.
  assert (image3_domain D D) as ID by (unfold image3_domain; auto 10).
  pose proof (fun c => read_image3 _ D D s1 s1 OK OK ID S1 f a b c) as V. cbv zeta in V.
  unfold origin_of, up, sign_B, sign_E, improper, rev_, flat in V. cbn [z_fx z_fy z_fz z_conj z_ax z_ay z_az y_swap y_fx y_fy y_fz y_conj xorb] in V.
  assert (match f with 0 | 1 | 2 | _ => false end%nat = false) as RF by (destruct f as [|[|[|f]]]; reflexivity).
  rewrite RF in V. cbn [sgn xorb] in V. assert (forall c, (Q2Qc 1 * c)%Qc = c) as O1 by (intro; apply Qcmult_1_l).
  assert (forall m c, on_domain3 D m f [(a mod Ex D - 0) mod Ex D; (b mod Ey D - 0) mod Ey D; (c mod Ez D - 1) mod Ez D] = on_domain3 D m f [a; b; c - 1]) as MM.
  { intros m d. rewrite !Z.sub_0_r, !Zmod_mod, Zminus_mod_idemp_l. apply domain_mod3. exact OK. }
  split; intro Hf; [split|].
  - apply (steps_of_one (fun c => on_domain3 D (t_E s1) f [a; b; c])). intro d. destruct (V d) as (V1 & _). rewrite (V1 Hf), O1. apply MM.
  - apply (steps_of_one (fun c => on_domain3 D (t_B s1) f [a; b; c])). intro d. destruct (V d) as (_ & V1 & _). rewrite (V1 Hf), O1. apply MM.
  - apply (steps_of_one (fun c => on_domain3 D (t_J s1) f [a; b; c])). intro d. destruct (V d) as (_ & _ & V1). rewrite (V1 Hf), O1. apply MM.
Qed.

(** ** if it also equals its mirror image under a reversal of z, Ez, Bx, By and jz stay zero, as in a planar 2D run *)
Definition mirror3 : symmetry3 := mkSym3 false false true false 0 0 0.
Theorem C136_planar : forall D sps k s s1, domain3_ok D -> all_fused sps -> ready3 D sps s -> image3_state up D D s s -> image3_state mirror3 D D s s -> steps3d rsqrt eps D sps k s s1 ->
  forall a b c, on_domain3 D (t_E s1) 2 [a; b; c] = 0%Qc /\ on_domain3 D (t_B s1) 0 [a; b; c] = 0%Qc /\ on_domain3 D (t_B s1) 1 [a; b; c] = 0%Qc /\ on_domain3 D (t_J s1) 2 [a; b; c] = 0%Qc.
Proof.
  intros D sps k s s1 OK U R S S' T a b c.
  pose proof (C136_symmetric_start mirror3 D sps k s s1 OK eq_refl U R S' T) as S1.
  assert (image3_domain D D) as ID by (unfold image3_domain; auto 10).
  pose proof (fun f => read_image3 _ D D s1 s1 OK OK ID S1 f a b c) as V. cbv zeta in V.
  unfold origin_of, mirror3, sign_B, sign_E, improper, rev_, flat in V. cbn [z_fx z_fy z_fz z_conj z_ax z_ay z_az y_swap y_fx y_fy y_fz y_conj xorb] in V.
  assert (forall m f c', (forall c c', on_domain3 D m f [a; b; c] = on_domain3 D m f [a; b; c']) -> on_domain3 D m f [(a mod Ex D - 0) mod Ex D; (b mod Ey D - 0) mod Ey D; c' mod Ez D] = on_domain3 D m f [a; b; c]) as MM.
  { intros m f c' H. rewrite !Z.sub_0_r, !Zmod_mod. rewrite domain_mod3 by exact OK. apply H. }
  pose proof (fun f c c' => C136_two_dimensional D sps k s s1 OK U R S T f a b c c') as TD.
  repeat split; apply opp_self.
  - destruct (V 2%nat) as (V1 & _). rewrite (V1 ltac:(lia)) at 1. rewrite MM by (intros; apply TD; lia). reflexivity.
  - destruct (V 0%nat) as (_ & V1 & _). rewrite (V1 ltac:(lia)) at 1. rewrite MM by (intros; apply TD; lia). reflexivity.
  - destruct (V 1%nat) as (_ & V1 & _). rewrite (V1 ltac:(lia)) at 1. rewrite MM by (intros; apply TD; lia). reflexivity.
  - destruct (V 2%nat) as (_ & _ & V1). rewrite (V1 ltac:(lia)) at 1. rewrite MM by (intros; apply TD; lia). reflexivity.
Qed.

(** ** two species of opposite charge and the same mass with the same particles, no fields at the start: no fields, currents or
    charge density ever appear *)
Definition conjugate3 : symmetry3 := mkSym3 false false false true 0 0 0.
Theorem C136_pair_plasma : forall D e p A B k s s1, domain3_ok D -> all_fused [e; p] -> ready3 D [e; p] s -> t_parts s = [A; B] -> same_particles A B -> (forall st r, In st [A; B] -> In r (particles st) -> no_record r) ->
  (sp_q p == - sp_q e)%Q -> (sp_m p == sp_m e)%Q ->
  field3_is D (fun _ _ => Q2Qc 0) (t_E s) -> field3_is D (fun _ _ => Q2Qc 0) (t_B s) -> currents3_are D (fun _ _ => Q2Qc 0) (t_J s) ->
  steps3d rsqrt eps D [e; p] k s s1 ->
  forall f a b c, ((f < 3)%nat -> on_domain3 D (t_E s1) f [a; b; c] = 0%Qc /\ on_domain3 D (t_B s1) f [a; b; c] = 0%Qc) /\ ((f < 4)%nat -> on_domain3 D (t_J s1) f [a; b; c] = 0%Qc).
Proof.
  intros D e p A B k s s1 OK U [L F] EP SA NR Hq Hm HE HB HJ T f a b c.
  destruct s as [mE mB mJ ps]. cbn [t_E t_B t_J t_parts] in *. subst ps.
  inversion F as [|? ? FA F0]; subst. inversion F0 as [|? ? FB _]; subst.
  assert (all_fused [p; e]) as U2 by (unfold all_fused in *; inversion U as [|? ? U1 U0]; subst; inversion U0; subst; repeat constructor; assumption).
  set (s2 := mkState2 mE mB mJ [B; A]). set (s3 := mkState2 mE mB mJ [A; B]) in *.
  assert (ready3 D [p; e] s2) as R2 by (split; [reflexivity|apply Forall_cons; [assumption|apply Forall_cons; [assumption|apply Forall_nil]]]).
  assert (ready3 D [p; e] s3) as R3 by (split; [reflexivity|apply Forall_cons; [assumption|apply Forall_cons; [assumption|apply Forall_nil]]]).
  assert (forall l, consistent3 D (mkState2 mE mB mJ l)) as CO by (intro l; split; [|split]; eexists; eassumption).
  destruct (C98_runs_exist rsqrt SUB eps D [p; e] k s2 OK U2 R2 (CO _)) as (t2 & T2 & _).
  destruct (C98_runs_exist rsqrt SUB eps D [p; e] k s3 OK U2 R3 (CO _)) as (t3 & T3 & _).
  assert (same_domain3 D D) as SD by (unfold same_domain3; auto 10).
  destruct (C135_same_run rsqrt SUB eps D D [e; p] [p; e] k s3 s2 s1 t2 OK OK SD U U2 (conj L F) R2) as (((FE & E1 & E2) & (FB_ & B1 & B2) & (FJ & J1 & J2)) & _); [| |exact T|exact T2|].
  { split; [eexists; split; eassumption|]. split; eexists; split; eassumption. }
  { apply C135_species_order. cbn [combine]. apply perm_swap. }
  destruct (C98_decomposition rsqrt SUB eps D D [p; e] [p; e] k s2 s3 t2 t3 OK OK SD) as (((GE & E3 & E4) & (GB & B3 & B4) & (GJ & J3 & J4) & _) & _); [repeat constructor|exact U2|exact U2|exact R2|exact R3| |exact T2|exact T3|].
  { split; [eexists; split; eassumption|]. split; [eexists; split; eassumption|]. split; [eexists; split; eassumption|]. cbn [t_parts s2 s3]. constructor; [apply Permutation_sym; exact SA|]. constructor; [exact SA|constructor]. }
  assert (image3_domain D D) as ID by (unfold image3_domain; auto 10).
  assert (image3_state conjugate3 D D s1 t3) as S1.
  { refine (C136_image_run conjugate3 D D [e; p] [p; e] k s3 s3 s1 t3 OK OK ID _ U U2 (conj L F) R3 _ T T3).
    - constructor; [|constructor; [|constructor]]; split; cbn [conjugate3 flat z_conj y_conj sgn]; rewrite ?Hq, ?Hm; ring.
    - assert (forall st, In st [A; B] -> image3_particles conjugate3 D st st) as IP.
      { intros st I. exists (particles st). split; [apply Permutation_refl|]. specialize (fun r => NR st r I). clear - NR. induction (particles st) as [|r l IH]; constructor; [|apply IH; intros; apply NR; right; assumption].
        assert (forall N d x, carried false 0 N d x x) as C1 by (intros N d [x|]; cbn [carried sgn]; [exists 0; change (inject_Z (0 + 0 * N)) with 0%Q; ring|exact I]).
        destruct (NR r (or_introl eq_refl)) as (N1 & N2 & N3 & N4 & N5 & N6). cbn [s_ex s_ey s_ez s_bx s_by s_bz] in *.
        unfold image3_row, conjugate3. cbv zeta. cbn [z_fx z_fy z_fz z_conj z_ax z_ay z_az]. split; [apply C1|]. split; [apply C1|]. split; [apply C1|]. cbn [sgn].
        split; [ring|]. split; [ring|]. split; [ring|]. split; [reflexivity|]. split; [reflexivity|]. split; [|reflexivity].
        unfold same6, image6, sign_B, sign_E, improper, rev_, flat. cbv zeta. cbn [z_fx z_fy z_fz z_conj z_ax z_ay z_az y_swap y_fx y_fy y_fz y_conj xorb sgn s_ex s_ey s_ez s_bx s_by s_bz]. rewrite N1, N2, N3, N4, N5, N6. repeat split; reflexivity. }
      assert (forall sg hx hy hz f a b c, image3 conjugate3 D sg hx hy hz (fun _ _ => Q2Qc 0) f [a; b; c] = Q2Qc 0) as IZ by (intros; apply Qcmult_0_r).
      split; [|split; [|split]].
      + exists (fun _ _ => Q2Qc 0). split; [exact HE|]. apply (field_ext3 D OK (fun _ _ => Q2Qc 0)); [|exact HE]. intros. symmetry. apply IZ.
      + exists (fun _ _ => Q2Qc 0). split; [exact HB|]. apply (field_ext3 D OK (fun _ _ => Q2Qc 0)); [|exact HB]. intros. symmetry. apply IZ.
      + exists (fun _ _ => Q2Qc 0). split; [exact HJ|]. apply (currents_ext3b D OK (fun _ _ => Q2Qc 0)); [|exact HJ]. intros. symmetry. apply IZ.
      + cbn [t_parts s3]. constructor; [apply IP; left; reflexivity|]. constructor; [apply IP; right; left; reflexivity|constructor]. }
  pose proof (read_image3 _ D D s1 t3 OK OK ID S1 f a b c) as V. cbv zeta in V.
  unfold origin_of, conjugate3, sign_B, sign_E, improper, rev_, flat in V. cbn [z_fx z_fy z_fz z_conj z_ax z_ay z_az y_swap y_fx y_fy y_fz y_conj xorb] in V.
  assert (match f with 0 | 1 | 2 | _ => false end%nat = false) as RF by (destruct f as [|[|[|g]]]; reflexivity).
  rewrite RF in V. cbn [sgn xorb negb] in V. rewrite !Z.sub_0_r, !Zmod_mod, !domain_mod3 in V by exact OK. destruct V as (V1 & V2 & V3).
  split; intro Hf; [split|]; apply opp_self.
  - rewrite <- (V1 Hf). rewrite (read_field3 D OK _ _ f a b c E1 Hf), <- (read_field3 D OK _ _ f a b c E2 Hf), (read_field3 D OK _ _ f a b c E3 Hf), <- (read_field3 D OK _ _ f a b c E4 Hf). reflexivity.
  - rewrite <- (V2 Hf). rewrite (read_field3 D OK _ _ f a b c B1 Hf), <- (read_field3 D OK _ _ f a b c B2 Hf), (read_field3 D OK _ _ f a b c B3 Hf), <- (read_field3 D OK _ _ f a b c B4 Hf). reflexivity.
  - rewrite <- (V3 Hf). rewrite (read_currents3 D OK _ _ f a b c J1 Hf), <- (read_currents3 D OK _ _ f a b c J2 Hf), (read_currents3 D OK _ _ f a b c J3 Hf), <- (read_currents3 D OK _ _ f a b c J4 Hf). reflexivity.
Qed.
End S.

(** ** a case: the two particles of [ey_one] on one patch; their image under a reversal of x and z, a reversal of the charges and
    a shift by 2, 5 and 1 cells, on two patches *)
Definition ey_all : symmetry3 := mkSym3 true false true true 2 5 1.
Definition ey_turned (x y z ux uz : Q) (id : Z) : prt :=
  M_PartSync.mkSlot _ (mkRow _ (Some x) (Some y) (Some z) (mkBody ux (1#3) uz (3#4) 2 (mkSix 0 0 0 0 0 0)%Q id)) false.
Definition ey_image := ey_state [[ey_part true 1 1 1 1 0 9; ey_turned (-(2#5)) 2 0 (-(1)) 0 7]; [ey_turned (14#5) 1 (9#5) (-(5#4)) (-(1#2)) 8]].
Example C136_case : forall k e, exists s1 s1',
  steps3d ey_rsqrt e (ey_dom 1) ey_species k ey_one s1 /\ steps3d ey_rsqrt e (ey_dom 2) [mkSpecies 1 1 true] k ey_image s1' /\ image3_state ey_all (ey_dom 1) (ey_dom 2) s1 s1'.
Proof.
  intros k e. pose proof (ey_ok 1 (or_introl eq_refl)) as O1. pose proof (ey_ok 2 (or_intror eq_refl)) as O2.
  assert (AF : all_fused ey_species) by (constructor; [reflexivity|constructor]).
  assert (AF2 : all_fused [mkSpecies 1 1 true]) by (constructor; [reflexivity|constructor]).
  assert (R1 : ready3 (ey_dom 1) ey_species ey_one).
  { split; [reflexivity|]. constructor; [|constructor]. split; [reflexivity|]. intros p r Hp I. assert (p = 0)%nat as -> by (change (npatches3 (ey_dom 1)) with 1%nat in Hp; lia). ey_in I. }
  assert (R2 : ready3 (ey_dom 2) [mkSpecies 1 1 true] ey_image).
  { split; [reflexivity|]. constructor; [|constructor]. split; [reflexivity|]. intros p r Hp I. change (npatches3 (ey_dom 2)) with 2%nat in Hp.
    destruct p as [|[|p]]; [| |lia]; ey_in I. }
  assert (C : forall D l, consistent3 D (ey_state l)) by (intros D l; split; [|split]; eexists; try apply ey_field; apply ey_cur).
  destruct (C98_runs_exist ey_rsqrt ey_sub e _ _ k ey_one O1 AF R1 (C _ _)) as (s1 & T1 & _).
  destruct (C98_runs_exist ey_rsqrt ey_sub e _ _ k ey_image O2 AF2 R2 (C _ _)) as (s1' & T2 & _).
  exists s1, s1'. split; [exact T1|]. split; [exact T2|].
  refine (C136_image_run ey_rsqrt ey_sub e ey_all (ey_dom 1) (ey_dom 2) _ _ k ey_one ey_image s1 s1' O1 O2 _ _ AF AF2 R1 R2 _ T1 T2).
  - unfold image3_domain. repeat split; reflexivity.
  - constructor; [split; reflexivity|constructor].
  - assert (forall sg hx hy hz f a b c, image3 ey_all (ey_dom 2) sg hx hy hz (fun _ _ => Q2Qc 0) f [a; b; c] = Q2Qc 0) as IZ by (intros; apply Qcmult_0_r).
    split; [|split; [|split]].
    + exists (fun _ _ => Q2Qc 0). split; [apply ey_field|]. apply (field_ext3 _ O2 (fun _ _ => Q2Qc 0)); [|apply ey_field]. intros. symmetry. apply IZ.
    + exists (fun _ _ => Q2Qc 0). split; [apply ey_field|]. apply (field_ext3 _ O2 (fun _ _ => Q2Qc 0)); [|apply ey_field]. intros. symmetry. apply IZ.
    + exists (fun _ _ => Q2Qc 0). split; [apply ey_cur|]. apply (currents_ext3b _ O2 (fun _ _ => Q2Qc 0)); [|apply ey_cur]. intros. symmetry. apply IZ.
    + constructor; [|constructor]. eexists. split; [apply Permutation_refl|].
      constructor; [|constructor; [|constructor]]; repeat split; try (vm_compute; reflexivity).
      * exists 0. vm_compute. reflexivity.
      * exists (-1). vm_compute. reflexivity.
      * exists 0. vm_compute. reflexivity.
      * exists 1. vm_compute. reflexivity.
      * exists (-1). vm_compute. reflexivity.
      * exists 1. vm_compute. reflexivity.
Qed.

(** ** the same particle in every plane of constant z, no motion along z: the run is planar *)
Definition ey_column := ey_state [[ey_part false (12#5) 3 0 1 0 7; ey_part false (12#5) 3 1 1 0 7; ey_part true 0 0 0 0 0 0; ey_part false (12#5) 3 2 1 0 7]].
Lemma ey_column_image y : (y = up \/ y = mirror3) -> image3_state y (ey_dom 1) (ey_dom 1) ey_column ey_column.
Proof.
  intro Y. assert (forall sg hx hy hz f a b c, image3 y (ey_dom 1) sg hx hy hz (fun _ _ => Q2Qc 0) f [a; b; c] = Q2Qc 0) as IZ by (intros; apply Qcmult_0_r).
  pose proof (ey_ok 1 (or_introl eq_refl)) as O1. split; [|split; [|split]].
  - exists (fun _ _ => Q2Qc 0). split; [apply ey_field|]. apply (field_ext3 _ O1 (fun _ _ => Q2Qc 0)); [|apply ey_field]. intros. symmetry. apply IZ.
  - exists (fun _ _ => Q2Qc 0). split; [apply ey_field|]. apply (field_ext3 _ O1 (fun _ _ => Q2Qc 0)); [|apply ey_field]. intros. symmetry. apply IZ.
  - exists (fun _ _ => Q2Qc 0). split; [apply ey_cur|]. apply (currents_ext3b _ O1 (fun _ _ => Q2Qc 0)); [|apply ey_cur]. intros. symmetry. apply IZ.
  - constructor; [|constructor]. destruct Y as [-> | ->].
    + eexists. split; [eapply perm_trans; [apply perm_swap|apply perm_skip, perm_swap]|].
      constructor; [|constructor; [|constructor; [|constructor]]]; repeat split; try (vm_compute; reflexivity); try (exists 0; vm_compute; reflexivity); exists (-1); vm_compute; reflexivity.
    + eexists. split; [apply perm_skip, perm_swap|].
      constructor; [|constructor; [|constructor; [|constructor]]]; repeat split; try (vm_compute; reflexivity); try (exists 0; vm_compute; reflexivity); exists 1; vm_compute; reflexivity.
Qed.
Example C136_planar_case : forall k e, exists s1, steps3d ey_rsqrt e (ey_dom 1) ey_species k ey_column s1 /\
  forall a b c c', on_domain3 (ey_dom 1) (t_E s1) 0 [a; b; c] = on_domain3 (ey_dom 1) (t_E s1) 0 [a; b; c'] /\ on_domain3 (ey_dom 1) (t_E s1) 2 [a; b; c] = 0%Qc.
Proof.
  intros k e. pose proof (ey_ok 1 (or_introl eq_refl)) as O1.
  assert (AF : all_fused ey_species) by (constructor; [reflexivity|constructor]).
  assert (R1 : ready3 (ey_dom 1) ey_species ey_column).
  { split; [reflexivity|]. constructor; [|constructor]. split; [reflexivity|]. intros p r Hp I. assert (p = 0)%nat as -> by (change (npatches3 (ey_dom 1)) with 1%nat in Hp; lia). ey_in I. }
  assert (C : consistent3 (ey_dom 1) ey_column) by (split; [|split]; eexists; try apply ey_field; apply ey_cur).
  destruct (C98_runs_exist ey_rsqrt ey_sub e _ _ k ey_column O1 AF R1 C) as (s1 & T1 & _).
  exists s1. split; [exact T1|]. intros a b c c'. split.
  - apply (C136_two_dimensional ey_rsqrt ey_sub e (ey_dom 1) ey_species k ey_column s1 O1 AF R1 (ey_column_image up (or_introl eq_refl)) T1 0 a b c c'). lia.
  - apply (C136_planar ey_rsqrt ey_sub e (ey_dom 1) ey_species k ey_column s1 O1 AF R1 (ey_column_image up (or_introl eq_refl)) (ey_column_image mirror3 (or_intror eq_refl)) T1 a b c).
Qed.

Print Assumptions C136_image_run.
Print Assumptions C136_image_values.
Print Assumptions C136_symmetric_start.
Print Assumptions C136_two_dimensional.
Print Assumptions C136_planar.
Print Assumptions C136_pair_plasma.
Print Assumptions C136_case.
Print Assumptions C136_planar_case.
