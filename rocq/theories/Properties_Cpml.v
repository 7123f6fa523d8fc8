(** C72, C74, C75: the field solver with absorbing layers. *)
From Coq Require Import Field_theory QArith Qcanon.
From Verif Require Import Base M_Layout S_Layout M_PartSync S_PartSync M_FieldSync S_FieldSync M_Maxwell S_Maxwell M_Cpml S_Cpml.
From Verif Require Import P_Layout P_PartSync P_PartSync2 P_PartSync3 P_Threads P_FieldGeo P_FieldPar P_FieldSync P_FieldSync2 P_FieldSync3 P_FieldSync4 P_FieldSync5 P_Maxwell P_Maxwell2 P_Maxwell3 P_Cpml P_Cpml2 P_Cpml3 P_Cpml4 P_Cpml5.
From Verif Require Properties_FieldSync Properties_Maxwell.
Local Open Scope Z_scope.

Section Any.
Context {V : Type} (A : arith V) (K : layer V) (zero : V).

(** C72: cut one grid with open or periodic axes into patches in two ways, let the simulation add the absorbing layers to
    both, start both from the same fields of the whole grid with fresh layers and perform the same updates with the same
    currents: both runs show the same fields of the whole grid, guard cells included (exact arithmetic). *)
Theorem C72_same_fields_2d : forall ax ay nx ny ng pmls ax' ay' nx' ny' ng' pmls' dx dy l l' mE mB pE pB mE' mB' pE' pB' FE FB s s',
  exact_arith A zero (one_ K) ->
  paired [ax; ay] -> 1 <= ax_n ax -> 1 <= ax_n ay -> 0 < ng -> ng <= nx -> ng <= ny ->
  layers_fit (thick K) [ax; ay] [nx; ny] -> layers2 ax ay nx ny (thick K) pmls ->
  paired [ax'; ay'] -> 1 <= ax_n ax' -> 1 <= ax_n ay' -> 0 < ng' -> ng' <= nx' -> ng' <= ny' ->
  layers_fit (thick K) [ax'; ay'] [nx'; ny'] -> layers2 ax' ay' nx' ny' (thick K) pmls' ->
  same_grid [ax; ay] [nx; ny] [ax'; ay'] [nx'; ny'] ->
  Forall2 (same_op (shows_inside zero [ax; ay] [nx; ny] ng (npatch2 ax ay) (position2 ax)) (shows_inside zero [ax'; ay'] [nx'; ny'] ng' (npatch2 ax' ay') (position2 ax'))) l l' ->
  shows zero [ax; ay] [nx; ny] ng (npatch2 ax ay) (position2 ax) FE mE -> shows zero [ax; ay] [nx; ny] ng (npatch2 ax ay) (position2 ax) FB mB ->
  fresh_layers zero pE -> fresh_layers zero pB ->
  shows zero [ax'; ay'] [nx'; ny'] ng' (npatch2 ax' ay') (position2 ax') FE mE' -> shows zero [ax'; ay'] [nx'; ny'] ng' (npatch2 ax' ay') (position2 ax') FB mB' ->
  fresh_layers zero pE' -> fresh_layers zero pB' ->
  phistory (solver_e2 A K nx ny ng dx dy (npatch2 ax ay) pmls) (solver_b2 A K nx ny ng dx dy (npatch2 ax ay) pmls)
    (guards_exchanged bounds2 [nx; ny] ng (npatch2 ax ay) (nbr2 ax ay) 3) l (mkPS mE mB pE pB) s ->
  phistory (solver_e2 A K nx' ny' ng' dx dy (npatch2 ax' ay') pmls') (solver_b2 A K nx' ny' ng' dx dy (npatch2 ax' ay') pmls')
    (guards_exchanged bounds2 [nx'; ny'] ng' (npatch2 ax' ay') (nbr2 ax' ay') 3) l' (mkPS mE' mB' pE' pB') s' ->
  exists GE GB,
    shows zero [ax; ay] [nx; ny] ng (npatch2 ax ay) (position2 ax) GE (ps_E s) /\ shows zero [ax; ay] [nx; ny] ng (npatch2 ax ay) (position2 ax) GB (ps_B s) /\
    shows zero [ax'; ay'] [nx'; ny'] ng' (npatch2 ax' ay') (position2 ax') GE (ps_E s') /\ shows zero [ax'; ay'] [nx'; ny'] ng' (npatch2 ax' ay') (position2 ax') GB (ps_B s').
Proof.
  intros ax ay nx ny ng pmls ax' ay' nx' ny' ng' pmls' dx dy l l' mE mB pE pB mE' mB' pE' pB' FE FB s s' (inv & Fth) Hpa Nx Ny Hg Hx Hy Hfit HL Hpa' Nx' Ny' Hg' Hx' Hy' Hfit' HL' HS HO E B XE XB E' B' XE' XB' H H'.
  refine (phistory_same zero A K [dx; dy] sides2 (KE2 A dx dy) (KB2 A dx dy) 2 (local_KE2 A dx dy) (local_KB2 A dx dy)
    (k_KE2 A dx dy) (k_KB2 A dx dy) _ _ _ _ _ _ _ _ _ pmls _ _ _ _ _ _ _ _ _ _ pmls' _ _
    (setting2 A K zero inv Fth ax ay nx ny ng dx dy pmls Hpa Nx Ny Hg Hx Hy (fit_opens _ [ax; ay] [nx; ny] Hfit eq_refl) HL)
    (setting2 A K zero inv Fth ax' ay' nx' ny' ng' dx dy pmls' Hpa' Nx' Ny' Hg' Hx' Hy' (fit_opens _ [ax'; ay'] [nx'; ny'] Hfit' eq_refl) HL')
    HS l l' HO mE mB pE pB mE' mB' pE' pB' FE FB (fun _ _ _ => zero) (fun _ _ _ => zero) s s' E B _ _ E' B' _ _ H H').
  - intros t I. cbn in I. repeat (destruct I as [<-|I]; [cbn; lia|]). contradiction.
  - intros t f p c _ _ _ _. apply XE.
  - intros t f p c _ _ _ _. apply XB.
  - intros t f p c _ _ _ _. apply XE'.
  - intros t f p c _ _ _ _. apply XB'.
Qed.
(** the same in three dimensions; initialisation does not reject a single patch between two layers there (C75), so at least
    two patches along every open axis are assumed *)
Theorem C72_same_fields_3d : forall ax ay az nx ny nz ng pmls ax' ay' az' nx' ny' nz' ng' pmls' dx dy dz l l' mE mB pE pB mE' mB' pE' pB' FE FB s s',
  exact_arith A zero (one_ K) ->
  paired [ax; ay; az] -> 1 <= ax_n ax -> 1 <= ax_n ay -> 1 <= ax_n az -> 0 < ng -> ng <= nx -> ng <= ny -> ng <= nz ->
  layers_fit (thick K) [ax; ay; az] [nx; ny; nz] -> split_open [ax; ay; az] -> layers3 ax ay az nx ny (thick K) pmls ->
  paired [ax'; ay'; az'] -> 1 <= ax_n ax' -> 1 <= ax_n ay' -> 1 <= ax_n az' -> 0 < ng' -> ng' <= nx' -> ng' <= ny' -> ng' <= nz' ->
  layers_fit (thick K) [ax'; ay'; az'] [nx'; ny'; nz'] -> split_open [ax'; ay'; az'] -> layers3 ax' ay' az' nx' ny' (thick K) pmls' ->
  same_grid [ax; ay; az] [nx; ny; nz] [ax'; ay'; az'] [nx'; ny'; nz'] ->
  Forall2 (same_op (shows_inside zero [ax; ay; az] [nx; ny; nz] ng (npatch3 ax ay az) (position3 ax ay))
                   (shows_inside zero [ax'; ay'; az'] [nx'; ny'; nz'] ng' (npatch3 ax' ay' az') (position3 ax' ay'))) l l' ->
  shows zero [ax; ay; az] [nx; ny; nz] ng (npatch3 ax ay az) (position3 ax ay) FE mE -> shows zero [ax; ay; az] [nx; ny; nz] ng (npatch3 ax ay az) (position3 ax ay) FB mB ->
  fresh_layers zero pE -> fresh_layers zero pB ->
  shows zero [ax'; ay'; az'] [nx'; ny'; nz'] ng' (npatch3 ax' ay' az') (position3 ax' ay') FE mE' -> shows zero [ax'; ay'; az'] [nx'; ny'; nz'] ng' (npatch3 ax' ay' az') (position3 ax' ay') FB mB' ->
  fresh_layers zero pE' -> fresh_layers zero pB' ->
  phistory (solver_e3 A K nx ny nz ng dx dy dz (npatch3 ax ay az) pmls) (solver_b3 A K nx ny nz ng dx dy dz (npatch3 ax ay az) pmls)
    (guards_exchanged bounds3 [nx; ny; nz] ng (npatch3 ax ay az) (nbr3 ax ay az) 3) l (mkPS mE mB pE pB) s ->
  phistory (solver_e3 A K nx' ny' nz' ng' dx dy dz (npatch3 ax' ay' az') pmls') (solver_b3 A K nx' ny' nz' ng' dx dy dz (npatch3 ax' ay' az') pmls')
    (guards_exchanged bounds3 [nx'; ny'; nz'] ng' (npatch3 ax' ay' az') (nbr3 ax' ay' az') 3) l' (mkPS mE' mB' pE' pB') s' ->
  exists GE GB,
    shows zero [ax; ay; az] [nx; ny; nz] ng (npatch3 ax ay az) (position3 ax ay) GE (ps_E s) /\ shows zero [ax; ay; az] [nx; ny; nz] ng (npatch3 ax ay az) (position3 ax ay) GB (ps_B s) /\
    shows zero [ax'; ay'; az'] [nx'; ny'; nz'] ng' (npatch3 ax' ay' az') (position3 ax' ay') GE (ps_E s') /\ shows zero [ax'; ay'; az'] [nx'; ny'; nz'] ng' (npatch3 ax' ay' az') (position3 ax' ay') GB (ps_B s').
Proof.
  intros ax ay az nx ny nz ng pmls ax' ay' az' nx' ny' nz' ng' pmls' dx dy dz l l' mE mB pE pB mE' mB' pE' pB' FE FB s s' (inv & Fth) Hpa Nx Ny Nz Hg Hx Hy Hz Hfit Hsp HL Hpa' Nx' Ny' Nz' Hg' Hx' Hy' Hz' Hfit' Hsp' HL' HS HO E B XE XB E' B' XE' XB' H H'.
  refine (phistory_same zero A K [dx; dy; dz] sides3 (KE3 A dx dy dz) (KB3 A dx dy dz) 3 (local_KE3 A dx dy dz) (local_KB3 A dx dy dz)
    (k_KE3 A dx dy dz) (k_KB3 A dx dy dz) _ _ _ _ _ _ _ _ _ pmls _ _ _ _ _ _ _ _ _ _ pmls' _ _
    (setting3 A K zero inv Fth ax ay az nx ny nz ng dx dy dz pmls Hpa Nx Ny Nz Hg Hx Hy Hz (fit_opens _ [ax; ay; az] [nx; ny; nz] Hfit eq_refl) (split_opens _ Hsp) HL)
    (setting3 A K zero inv Fth ax' ay' az' nx' ny' nz' ng' dx dy dz pmls' Hpa' Nx' Ny' Nz' Hg' Hx' Hy' Hz' (fit_opens _ [ax'; ay'; az'] [nx'; ny'; nz'] Hfit' eq_refl) (split_opens _ Hsp') HL')
    HS l l' HO mE mB pE pB mE' mB' pE' pB' FE FB (fun _ _ _ => zero) (fun _ _ _ => zero) s s' E B _ _ E' B' _ _ H H').
  - intros t I. cbn in I. repeat (destruct I as [<-|I]; [cbn; lia|]). contradiction.
  - intros t f p c _ _ _ _. apply XE.
  - intros t f p c _ _ _ _. apply XB.
  - intros t f p c _ _ _ _. apply XE'.
  - intros t f p c _ _ _ _. apply XB'.
Qed.
(** the histories of C72 exist: any sequence of updates can be carried out from any state *)
Theorem C72_histories_exist_2d : forall ax ay nx ny ng dx dy pmls, 0 < ng -> ng <= nx -> ng <= ny -> forall l s, exists s',
  phistory (solver_e2 A K nx ny ng dx dy (npatch2 ax ay) pmls) (solver_b2 A K nx ny ng dx dy (npatch2 ax ay) pmls)
    (guards_exchanged bounds2 [nx; ny] ng (npatch2 ax ay) (nbr2 ax ay) 3) l s s'.
Proof.
  intros ax ay nx ny ng dx dy pmls Hg Hx Hy.
  assert (X : forall m : addr -> V, exists m', guards_exchanged bounds2 [nx; ny] ng (npatch2 ax ay) (nbr2 ax ay) 3 m m').
  { intro m. set (T := guard_tasks (extents [nx; ny] ng) (local_guard2 nx ny ng) (nbr2 ax ay) (npatch2 ax ay) 3).
    destruct (Properties_FieldSync.C07_completes zero (plus_ A) (extents [nx; ny] ng) (local_guard2 nx ny ng) (nbr2 ax ay) (npatch2 ax ay) 3
      (flat_map (fun t => repeat t (length (nth t T []))) (seq 0 (npatch2 ax ay * 3))) m) as [m' E]; [intros t Ht; apply (Properties_Maxwell.turns (fun t => length (nth t T []))); exact Ht|].
    exists m'. exact (Properties_FieldSync.C07_guard_2d zero (plus_ A) nx ny ng _ _ _ _ m m' Hg Hx Hy E). }
  induction l as [|[dt mJ|dt] l IH]; intros [mE mB pE pB].
  - eexists. constructor.
  - destruct (solver_e2 A K nx ny ng dx dy (npatch2 ax ay) pmls dt mB mJ (mE, pE)) as [mE1 pE1] eqn:U. destruct (X mE1) as [mE2 E1]. destruct (IH (mkPS mE2 mB pE1 pB)) as [s' H]. exists s'. econstructor; eauto.
  - destruct (solver_b2 A K nx ny ng dx dy (npatch2 ax ay) pmls dt mE (mB, pB)) as [mB1 pB1] eqn:U. destruct (X mB1) as [mB2 E1]. destruct (IH (mkPS mE mB2 pE pB1)) as [s' H]. exists s'. econstructor; eauto.
Qed.
Theorem C72_histories_exist_3d : forall ax ay az nx ny nz ng dx dy dz pmls, 0 < ng -> ng <= nx -> ng <= ny -> ng <= nz -> forall l s, exists s',
  phistory (solver_e3 A K nx ny nz ng dx dy dz (npatch3 ax ay az) pmls) (solver_b3 A K nx ny nz ng dx dy dz (npatch3 ax ay az) pmls)
    (guards_exchanged bounds3 [nx; ny; nz] ng (npatch3 ax ay az) (nbr3 ax ay az) 3) l s s'.
Proof.
  intros ax ay az nx ny nz ng dx dy dz pmls Hg Hx Hy Hz.
  assert (X : forall m : addr -> V, exists m', guards_exchanged bounds3 [nx; ny; nz] ng (npatch3 ax ay az) (nbr3 ax ay az) 3 m m').
  { intro m. set (T := guard_tasks (extents [nx; ny; nz] ng) (local_guard3 nx ny nz ng) (nbr3 ax ay az) (npatch3 ax ay az) 3).
    destruct (Properties_FieldSync.C07_completes zero (plus_ A) (extents [nx; ny; nz] ng) (local_guard3 nx ny nz ng) (nbr3 ax ay az) (npatch3 ax ay az) 3
      (flat_map (fun t => repeat t (length (nth t T []))) (seq 0 (npatch3 ax ay az * 3))) m) as [m' E]; [intros t Ht; apply (Properties_Maxwell.turns (fun t => length (nth t T []))); exact Ht|].
    exists m'. exact (Properties_FieldSync.C07_guard_3d zero (plus_ A) nx ny nz ng _ _ _ _ m m' Hg Hx Hy Hz E). }
  induction l as [|[dt mJ|dt] l IH]; intros [mE mB pE pB].
  - eexists. constructor.
  - destruct (solver_e3 A K nx ny nz ng dx dy dz (npatch3 ax ay az) pmls dt mB mJ (mE, pE)) as [mE1 pE1] eqn:U. destruct (X mE1) as [mE2 E1]. destruct (IH (mkPS mE2 mB pE1 pB)) as [s' H]. exists s'. econstructor; eauto.
  - destruct (solver_b3 A K nx ny nz ng dx dy dz (npatch3 ax ay az) pmls dt mE (mB, pB)) as [mB1 pB1] eqn:U. destruct (X mB1) as [mB2 E1]. destruct (IH (mkPS mE mB2 pE pB1)) as [s' H]. exists s'. econstructor; eauto.
Qed.

(** C74: whatever layers the patches have and whatever they remember, an update gives every cell outside the layers of its
    patch exactly the value the solver without layers gives it (exact arithmetic). *)
Theorem C74_outside_the_layers_2d : forall nx ny ng dx dy n pmls dt mB mE mJ psi,
  exact_arith A zero (one_ K) -> 0 < ng -> ng <= nx -> ng <= ny -> 0 <= thick K -> (forall p, (p < n)%nat -> NoDup (pmls p)) ->
  forall f p c, (f < 3)%nat -> (p < n)%nat -> interior [nx; ny] c ->
  (outside_layers true (thick K) (pmls p) [nx; ny] c ->
   fst (solver_e2 A K nx ny ng dx dy n pmls dt mB mJ (mE, psi)) (cell [nx; ny] ng f p c) = update_efield2 A nx ny ng dx dy n dt mB mJ mE (cell [nx; ny] ng f p c)) /\
  (outside_layers false (thick K) (pmls p) [nx; ny] c ->
   fst (solver_b2 A K nx ny ng dx dy n pmls dt mE (mB, psi)) (cell [nx; ny] ng f p c) = update_bfield2 A nx ny ng dx dy n dt mE mB (cell [nx; ny] ng f p c)).
Proof.
  intros nx ny ng dx dy n pmls dt mB mE mJ psi (inv & Fth) Hg Hx Hy Ht NL f p c Hf Hp Hc. split; intro Ho.
  - rewrite (layered_off A K _ _ _ _ _ _ _ _ _ _ _ p f c (solver_e2_ok A K zero inv Fth nx ny ng dx dy n pmls NL Hg Hx Hy dt mB mJ mE psi) Ht Hp Hf Hc Ho). cbn [fst].
    rewrite (one_KE2 A _ _ _ Fth) by (now apply kappa_outside). symmetry. apply (update_efield2_ok A nx ny ng n dx dy dt mB mJ mE Hg Hx Hy); auto.
  - rewrite (layered_off A K _ _ _ _ _ _ _ _ _ _ _ p f c (solver_b2_ok A K zero inv Fth nx ny ng dx dy n pmls NL Hg Hx Hy dt mE mE mB psi) Ht Hp Hf Hc Ho). cbn [fst].
    rewrite (one_KB2 A _ _ _ Fth) by (now apply kappa_outside). symmetry. apply (update_bfield2_ok A nx ny ng n dx dy dt mE mE mB Hg Hx Hy); auto.
Qed.
Theorem C74_outside_the_layers_3d : forall nx ny nz ng dx dy dz n pmls dt mB mE mJ psi,
  exact_arith A zero (one_ K) -> 0 < ng -> ng <= nx -> ng <= ny -> ng <= nz -> 0 <= thick K -> (forall p, (p < n)%nat -> NoDup (pmls p)) ->
  forall f p c, (f < 3)%nat -> (p < n)%nat -> interior [nx; ny; nz] c ->
  (outside_layers true (thick K) (pmls p) [nx; ny; nz] c ->
   fst (solver_e3 A K nx ny nz ng dx dy dz n pmls dt mB mJ (mE, psi)) (cell [nx; ny; nz] ng f p c) = update_efield3 A nx ny nz ng dx dy dz n dt mB mJ mE (cell [nx; ny; nz] ng f p c)) /\
  (outside_layers false (thick K) (pmls p) [nx; ny; nz] c ->
   fst (solver_b3 A K nx ny nz ng dx dy dz n pmls dt mE (mB, psi)) (cell [nx; ny; nz] ng f p c) = update_bfield3 A nx ny nz ng dx dy dz n dt mE mB (cell [nx; ny; nz] ng f p c)).
Proof.
  intros nx ny nz ng dx dy dz n pmls dt mB mE mJ psi (inv & Fth) Hg Hx Hy Hz Ht NL f p c Hf Hp Hc. split; intro Ho.
  - rewrite (layered_off A K _ _ _ _ _ _ _ _ _ _ _ p f c (solver_e3_ok A K zero inv Fth nx ny nz ng dx dy dz n pmls NL Hg Hx Hy Hz dt mB mJ mE psi) Ht Hp Hf Hc Ho). cbn [fst].
    rewrite (one_KE3 A _ _ _ Fth) by (now apply kappa_outside). symmetry. apply (update_efield3_ok A nx ny nz ng n dx dy dz dt mB mJ mE Hg Hx Hy Hz); auto.
  - rewrite (layered_off A K _ _ _ _ _ _ _ _ _ _ _ p f c (solver_b3_ok A K zero inv Fth nx ny nz ng dx dy dz n pmls NL Hg Hx Hy Hz dt mE mE mB psi) Ht Hp Hf Hc Ho). cbn [fst].
    rewrite (one_KB3 A _ _ _ Fth) by (now apply kappa_outside). symmetry. apply (update_bfield3_ok A nx ny nz ng n dx dy dz dt mE mE mB Hg Hx Hy Hz); auto.
Qed.

(** C75: the coefficient (kappa) by which differences across a layer are divided. A patch with at most one layer per axis
    divides, in each layer, by the coefficient of that layer and by one elsewhere. Missing: patches between two layers
    (see below). *)
Theorem C75_own_coefficient_partial : forall e l s n i, NoDup (map axis_of l) -> In s l ->
  kappa_list A K e l (axis_of s) n i = if in_range K e s n i then kappa_in A K e s n i else one_ K.
Proof.
  intros e l s n i ND Hs. destruct l as [|s0 l]; [contradiction|]. unfold kappa_list. set (k0 := kappa_arr A K e s0 (axis_of s) n). clearbody k0.
  revert k0. induction (s0 :: l) as [|t l' IH]; [contradiction|]. intro k0. cbn [map] in ND. apply NoDup_cons_iff in ND as [N1 N2]. cbn [fold_left]. destruct Hs as [->|Hs].
  - rewrite Nat.eqb_refl. assert (X : forall l2 k, ~ In (axis_of s) (map axis_of l2) -> fold_left (fun k t => if (axis_of t =? axis_of s)%nat then kappa_arr A K e t (axis_of s) n else k) l2 k i = k i).
    { induction l2 as [|u l2 IH2]; intros k Hn; [reflexivity|]. cbn [map In] in Hn. cbn [fold_left]. rewrite IH2 by tauto. destruct (Nat.eqb_spec (axis_of u) (axis_of s)) as [E|E]; [tauto|reflexivity]. }
    rewrite X by exact N1. unfold kappa_arr. rewrite Nat.eqb_refl. reflexivity.
  - apply IH; auto.
Qed.
(** the layers of a two-dimensional domain, and of a three-dimensional one with two or more patches along the open axes,
    are of that kind *)
Theorem C75_layers_2d_partial : forall ax ay nx ny th pmls p, paired [ax; ay] -> 1 <= ax_n ax -> 1 <= ax_n ay -> layers2 ax ay nx ny th pmls ->
  (p < npatch2 ax ay)%nat -> NoDup (map axis_of (pmls p)).
Proof.
  intros ax ay nx ny th pmls p Hpa Nx Ny HL Hp. pose proof (layers2_many ax ay nx ny th pmls Hpa Nx Ny HL) as HM. rewrite (layers2_filter ax ay nx ny th pmls Hpa HL p Hp).
  pose proof (HM 0%nat ltac:(lia)) as H0. pose proof (HM 1%nat ltac:(lia)) as H1. cbn [nth] in H0, H1. cbn [filter sides2]. unfold present, opens in * . cbn [axis_of is_min map nth] in * .
  set (u := nth 0 (position2 ax p) 0). set (v := nth 1 (position2 ax p) 0). clearbody u v.
  destruct (open_ ax); cbn [andb]; [specialize (H0 eq_refl)|clear H0]; (destruct (open_ ay); cbn [andb]; [specialize (H1 eq_refl)|clear H1]);
  repeat match goal with |- context [?x =? ?y] => destruct (Z.eqb_spec x y) end; try lia; cbn [map axis_of]; repeat constructor; cbn; intuition lia.
Qed.
Theorem C75_layers_3d_partial : forall ax ay az nx ny th pmls p, paired [ax; ay; az] -> split_open [ax; ay; az] -> layers3 ax ay az nx ny th pmls ->
  (p < npatch3 ax ay az)%nat -> NoDup (map axis_of (pmls p)).
Proof.
  intros ax ay az nx ny th pmls p Hpa Hsp HL Hp. rewrite (layers3_filter ax ay az nx ny th pmls Hpa HL p Hp). pose proof (split_opens _ Hsp) as HM.
  pose proof (HM 0%nat ltac:(cbn; lia)) as H0. pose proof (HM 1%nat ltac:(cbn; lia)) as H1. pose proof (HM 2%nat ltac:(cbn; lia)) as H2. cbn [nth] in H0, H1, H2. clear HM Hsp HL Hpa. cbn [filter sides3]. unfold present, opens in * . cbn [axis_of is_min map nth] in * .
  set (u := nth 0 (position3 ax ay p) 0). set (v := nth 1 (position3 ax ay p) 0). set (w := nth 2 (position3 ax ay p) 0). clearbody u v w.
  destruct (open_ ax); cbn [andb]; [specialize (H0 eq_refl)|clear H0]; (destruct (open_ ay); cbn [andb]; [specialize (H1 eq_refl)|clear H1]); (destruct (open_ az); cbn [andb]; [specialize (H2 eq_refl)|clear H2]);
  repeat match goal with |- context [?x =? ?y] => destruct (Z.eqb_spec x y) end; try lia; cbn [map axis_of]; repeat constructor; cbn; intuition lia.
Qed.
(** in three dimensions a single patch between the two layers of an open axis is accepted, and the coefficient of the near
    layer is lost: its cells are updated with the coefficient one *)
Theorem C75_single_patch_forgets_near_layer : forall ax ay az nx ny th l e i, th = thick K ->
  ax_n ax = 1 -> ax_lo ax = Pml -> ax_hi ax = Pml -> ax_lo ay = Periodic -> ax_hi ay = Periodic -> ax_lo az = Periodic -> ax_hi az = Periodic ->
  init_pml3 ax ay az nx ny th 0 0 0 = Some l -> In PXmin l /\ (i < l_start K e PXmax nx -> kappa_list A K e l 0 nx i = one_ K).
Proof.
  intros ax ay az nx ny th l e i Et N1 Lx Hx Ly Hy Lz Hz H. unfold init_pml3 in H. rewrite N1, Lx, Hx, Ly, Hy, Lz, Hz in H. rewrite !andb_false_r in H. cbn [when andb bc_eqb] in H.
  change (0 =? 1 - 1) with true in H. change (0 =? 0) with true in H. cbn [when andb] in H. unfold add_pml3 in H.
  destruct ((th <=? nx) && (th <=? ny)); [|discriminate]. cbn in H. assert (El : l = [PXmin; PXmax]) by congruence. subst l.
  split; [now left|]. intro Hi. cbn [kappa_list fold_left axis_of]. rewrite Nat.eqb_refl. unfold kappa_arr. cbn [axis_of]. rewrite Nat.eqb_refl. unfold in_range. replace (l_start K e PXmax nx <=? i) with false by lia. reflexivity.
Qed.
End Any.

(** ** concrete cases *)
Definition QA : arith Qc := {| plus_ := Qcplus; minus_ := Qcminus; times_ := Qcmult; over_ := Qcdiv; minus1_ := Qcopp; csq := 1%Qc; eps0 := 1%Qc |}.
Definition QK (th : Z) : layer Qc := {| one_ := 1%Qc; half_ := Q2Qc (1 # 2); ofZ_ := fun z => Q2Qc (inject_Z z); exp_ := fun _ => Q2Qc (1 # 3); thick := th; kmax := Q2Qc 20; amax := Q2Qc (1 # 4); smax := Q2Qc 3 |}.
Theorem C75_near_layer_coefficient_lost_refuted : exists ax ay az nx ny l i,
  paired [ax; ay; az] /\ init_pml3 ax ay az nx ny (thick (QK 2)) 0 0 0 = Some l /\ In PXmin l /\ layers_fit (thick (QK 2)) [ax; ay; az] [nx; ny; 6] /\
  in_range (QK 2) true PXmin nx i = true /\ kappa_list QA (QK 2) true l 0 nx i <> kappa_in QA (QK 2) true PXmin nx i.
Proof.
  exists (mkAxis 1 Pml Pml), (mkAxis 2 Periodic Periodic), (mkAxis 2 Periodic Periodic), 6, 6, [PXmin; PXmax], 0.
  split; [repeat constructor|]. split; [reflexivity|]. split; [now left|]. split; [repeat constructor; cbn; try discriminate; intros; lia|]. split; [reflexivity|].
  intro E. apply (f_equal this) in E. vm_compute in E. discriminate.
Qed.
(** the hypotheses of C72 are met: a domain open along x, periodic along y, cut 2 x 1 and 4 x 2 *)
Definition two_by_one (p : nat) : list pml_side := match p with 0%nat => [PXmin] | _ => [PXmax] end.
Definition four_by_two (p : nat) : list pml_side := match p with 0%nat | 4%nat => [PXmin] | 3%nat | 7%nat => [PXmax] | _ => [] end.
Example ex_C72 : exact_arith QA 0%Qc (one_ (QK 2)) /\ paired [mkAxis 2 Pml Pml; mkAxis 1 Periodic Periodic] /\
  layers2 (mkAxis 2 Pml Pml) (mkAxis 1 Periodic Periodic) 8 8 (thick (QK 2)) two_by_one /\
  layers2 (mkAxis 4 Pml Pml) (mkAxis 2 Periodic Periodic) 4 4 (thick (QK 2)) four_by_two /\
  layers_fit (thick (QK 2)) [mkAxis 2 Pml Pml; mkAxis 1 Periodic Periodic] [8; 8] /\ layers_fit (thick (QK 2)) [mkAxis 4 Pml Pml; mkAxis 2 Periodic Periodic] [4; 4] /\
  same_grid [mkAxis 2 Pml Pml; mkAxis 1 Periodic Periodic] [8; 8] [mkAxis 4 Pml Pml; mkAxis 2 Periodic Periodic] [4; 4] /\
  layers3 (mkAxis 2 Pml Pml) (mkAxis 2 Pml Pml) (mkAxis 1 Periodic Periodic) 6 6 (thick (QK 2)) (fun p => match p with 0%nat => [PXmin; PYmin] | 1%nat => [PXmax; PYmin] | 2%nat => [PXmin; PYmax] | _ => [PXmax; PYmax] end).
Proof.
  split; [exists Qcinv; exact Qcft|]. split; [repeat constructor|].
  split; [intros p Hp; do 2 (destruct p as [|p]; [reflexivity|]); cbn in Hp; lia|].
  split; [intros p Hp; do 8 (destruct p as [|p]; [reflexivity|]); cbn in Hp; lia|].
  split; [repeat constructor; cbn; try discriminate; intros; lia|]. split; [repeat constructor; cbn; try discriminate; intros; lia|].
  split; [repeat constructor|].
  intros p Hp; do 4 (destruct p as [|p]; [reflexivity|]); cbn in Hp; lia.
Qed.
(** a layer does change the cells inside it: with the ordinary value v, C74 does not extend to the layer *)
Definition ramp (a : addr) : Qc := match a with Fld 2 _ i => Q2Qc (inject_Z (i * i)) | _ => 0%Qc end.
Example ex_C74 : outside_layers true (thick (QK 2)) [PXmin] [6; 6] [2; 0] /\
  fst (solver_e2 QA (QK 2) 6 6 1 1%Qc 1%Qc 1 (fun _ => [PXmin]) 1%Qc ramp (fun _ => 0%Qc) (fun _ => 0%Qc, fun _ _ => 0%Qc)) (cell [6; 6] 1 1 0 [0; 2]) <>
  update_efield2 QA 6 6 1 1%Qc 1%Qc 1 1%Qc ramp (fun _ => 0%Qc) (fun _ => 0%Qc) (cell [6; 6] 1 1 0 [0; 2]).
Proof.
  split; [intros s [<-|[]]; cbn; lia|]. intro E. apply (f_equal this) in E. vm_compute in E. discriminate.
Qed.
Print Assumptions C72_same_fields_2d.
Print Assumptions C72_same_fields_3d.
Print Assumptions C72_histories_exist_2d.
Print Assumptions C72_histories_exist_3d.
Print Assumptions C74_outside_the_layers_2d.
Print Assumptions C74_outside_the_layers_3d.
Print Assumptions C75_own_coefficient_partial.
Print Assumptions C75_layers_2d_partial.
Print Assumptions C75_layers_3d_partial.
Print Assumptions C75_single_patch_forgets_near_layer.
Print Assumptions C75_near_layer_coefficient_lost_refuted.
