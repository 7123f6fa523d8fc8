(** C79 - C86: laser injection. *)
From Coq Require Import Field_theory QArith Qcanon.
From Verif Require Import Base M_Layout S_Layout M_PartSync S_PartSync M_FieldSync S_FieldSync M_Maxwell S_Maxwell M_Cpml S_Cpml M_Deposit M_Push M_Laser S_Laser.
From Verif Require Import P_Layout P_PartSync P_PartSync2 P_PartSync3 P_Threads P_FieldGeo P_FieldPar P_FieldSync P_FieldSync2 P_FieldSync3 P_FieldSync4 P_FieldSync5 P_Maxwell P_Maxwell2 P_Maxwell3 P_Cpml P_Cpml2 P_Cpml3 P_Cpml4 P_Cpml5.
From Verif Require Import P_Laser P_Laser2 P_Laser3 P_Laser4 P_Laser5 P_Laser6 P_Laser7 P_Laser8.
From Verif Require Properties_FieldSync Properties_Maxwell Properties_Cpml.
Local Open Scope list_scope.
Local Open Scope Z_scope.

Section Any.
Context {V : Type} (A : arith V) (K : layer V) (cl zero : V).
Local Notation "x +. y" := (plus_ A x y) (at level 50, left associativity).
Local Notation "x *. y" := (times_ A x y) (at level 40, left associativity).
Local Notation "x /. y" := (over_ A x y) (at level 40, left associativity).
(** the plane through which the pulse enters *)
Local Notation lp := (thick K + 2).

(** C79: let the lasers of all processes act, exchange the guard cells of B and advance E by half a time step.  Then, in every
    row of the left edge outside the layers across y, the wave that travels to the right through the plane of the laser is
    twice the requested field plus the wave that was at the left boundary (two dimensions; exact arithmetic).  The field Ez
    of the lowest row of a patch additionally needs a guard value that the exchange does not change (see C80). *)
Theorem C79_injected_2d : forall ax ay nx ny ng dx dy qdy pmls nproc rank l time dt mE mJ dis mB dis1 mB1 mB2 psi mE' psi',
  numbers A K cl zero -> dx <> zero -> dy <> zero -> cl <> zero -> cl *. dt /. dx +. one_ K <> zero ->
  paired [ax; ay] -> 1 <= ax_n ax -> 1 <= ax_n ay -> 0 < ng -> ng <= nx -> ng <= ny ->
  layers2 ax ay nx ny (thick K) pmls -> 0 <= thick K -> thick K + 3 <= nx -> ax_lo ax = Pml ->
  running time l -> centred l ->
  laser_stage_2d A K cl ax ay nx ny ng dx dy qdy pmls nproc rank l time dt mE mJ (dis, mB) = (dis1, mB1) ->
  guards_exchanged bounds2 [nx; ny] ng (npatch2 ax ay) (nbr2 ax ay) 3 mB1 mB2 ->
  solver_e2 A K nx ny ng dx dy (npatch2 ax ay) pmls (half_ K *. dt) mB2 mJ (mE, psi) = (mE', psi') ->
  forall p j, (p < npatch2 ax ay)%nat -> (rank p < nproc)%nat -> dis (rank p) = false -> Z.of_nat p mod ax_n ax = 0 -> 0 <= j < ny ->
  outside_layers true (thick K) (pmls p) [nx; ny] [lp; j] ->
  let y := (inject_Z (Z.of_nat p / ax_n ax * ny + j) * qdy)%Q in let Ly := (inject_Z (ax_n ay * ny) * qdy)%Q in
  wave_y A K cl [nx; ny] ng mE' mB2 p [lp; j] = ofZ_ K 2 *. requested_y A zero Ly 0 qdy 0 false time l y 0 +. wave_y A K cl [nx; ny] ng mE mB p [0; j] /\
  (0 < j \/ mB2 (cell [nx; ny] ng 0 p [lp; j - 1]) = mB (cell [nx; ny] ng 0 p [lp; j - 1]) ->
   wave_z A K cl [nx; ny] ng mE' mB2 p [lp; j] = ofZ_ K 2 *. requested_z A zero Ly 0 qdy 0 false time l y 0 +. wave_z A K cl [nx; ny] ng mE mB p [0; j]).
Proof.
  intros ax ay nx ny ng dx dy qdy pmls nproc rank l time dt mE mJ dis mB dis1 mB1 mB2 psi mE' psi' ((inv & Fth) & Hhalf & H2 & H4 & Hc & He) Hdx Hdy Hcl Hcfl Hpa Nx Ny Hg Hx Hy HL Hth Hfit HP HR HC ES GX EE p j Hp Hr Hd Hl Hj Ho.
  assert (Hlp : lp < nx + ng) by lia. rewrite <- (f_equal snd ES : snd (laser_stage_2d _ _ _ _ _ _ _ _ _ _ _ _ _ _ _ _ _ _ _ _) = mB1) in GX.
  pose proof (injected2 A K cl zero ax ay nx ny ng dx dy qdy pmls nproc rank l time dt mE mJ Hpa Nx Ny HL Hg Hx Hy Hth Hlp HP HR HC (monoid_of A _ _ _ Fth) inv Fth Hhalf H2 H4 Hc He Hdx Hdy Hcl Hcfl Hfit dis mB mB2 psi p j GX Hp Hr Hd Hl Hj Ho) as X.
  cbv zeta in X. rewrite EE in X. exact X.
Qed.
(** the same in three dimensions; the lowest column of a patch needs a current guard value for Ey in the same way *)
Theorem C79_injected_3d : forall ax ay az nx ny nz ng dx dy dz qdy qdz pmls nproc rank l time dt mE mJ dis mB dis1 mB1 mB2 psi mE' psi',
  numbers A K cl zero -> dx <> zero -> dy <> zero -> dz <> zero -> cl <> zero -> cl *. dt /. dx +. one_ K <> zero ->
  paired [ax; ay; az] -> 1 <= ax_n ax -> 1 <= ax_n ay -> 1 <= ax_n az -> 0 < ng -> ng <= nx -> ng <= ny -> ng <= nz ->
  layers3 ax ay az nx ny (thick K) pmls -> 0 <= thick K -> thick K + 3 <= nx -> ax_lo ax = Pml ->
  running time l -> centred l ->
  laser_stage_3d A K cl ax ay az nx ny nz ng dx dy dz qdy qdz pmls nproc rank l time dt mE mJ (dis, mB) = (dis1, mB1) ->
  guards_exchanged bounds3 [nx; ny; nz] ng (npatch3 ax ay az) (nbr3 ax ay az) 3 mB1 mB2 ->
  solver_e3 A K nx ny nz ng dx dy dz (npatch3 ax ay az) pmls (half_ K *. dt) mB2 mJ (mE, psi) = (mE', psi') ->
  forall p j k, (p < npatch3 ax ay az)%nat -> (rank p < nproc)%nat -> dis (rank p) = false -> Z.of_nat p mod ax_n ax = 0 -> 0 <= j < ny -> 0 <= k < nz ->
  outside_layers true (thick K) (pmls p) [nx; ny; nz] [lp; j; k] ->
  let y := (inject_Z (Z.of_nat p / ax_n ax mod ax_n ay * ny + j) * qdy)%Q in let Ly := (inject_Z (ax_n ay * ny) * qdy)%Q in
  let z := (inject_Z (Z.of_nat p / ax_n ax / ax_n ay * nz + k) * qdz)%Q in let Lz := (inject_Z (ax_n az * nz) * qdz)%Q in
  (0 < k \/ mB2 (cell [nx; ny; nz] ng 0 p [lp; j; k - 1]) = mB (cell [nx; ny; nz] ng 0 p [lp; j; k - 1]) ->
   wave_y A K cl [nx; ny; nz] ng mE' mB2 p [lp; j; k] = ofZ_ K 2 *. requested_y A zero Ly Lz qdy qdz true time l y z +. wave_y A K cl [nx; ny; nz] ng mE mB p [0; j; k]) /\
  (0 < j \/ mB2 (cell [nx; ny; nz] ng 0 p [lp; j - 1; k]) = mB (cell [nx; ny; nz] ng 0 p [lp; j - 1; k]) ->
   wave_z A K cl [nx; ny; nz] ng mE' mB2 p [lp; j; k] = ofZ_ K 2 *. requested_z A zero Ly Lz qdy qdz true time l y z +. wave_z A K cl [nx; ny; nz] ng mE mB p [0; j; k]).
Proof.
  intros ax ay az nx ny nz ng dx dy dz qdy qdz pmls nproc rank l time dt mE mJ dis mB dis1 mB1 mB2 psi mE' psi' ((inv & Fth) & Hhalf & H2 & H4 & Hc & He) Hdx Hdy Hdz Hcl Hcfl Hpa Nx Ny Nz Hg Hx Hy Hz HL Hth Hfit HP HR HC ES GX EE p j k Hp Hr Hd Hl Hj Hk Ho.
  assert (Hlp : lp < nx + ng) by lia. rewrite <- (f_equal snd ES : snd (laser_stage_3d _ _ _ _ _ _ _ _ _ _ _ _ _ _ _ _ _ _ _ _ _ _ _ _) = mB1) in GX.
  pose proof (injected3 A K cl zero ax ay az nx ny nz ng dx dy dz qdy qdz pmls nproc rank l time dt mE mJ Hpa Nx Ny Nz HL Hg Hx Hy Hz Hth Hlp HP HR HC (monoid_of A _ _ _ Fth) inv Fth Hhalf H2 H4 Hc He Hdx Hdy Hdz Hcl Hcfl Hfit dis mB mB2 psi p j k GX Hp Hr Hd Hl Hj Hk Ho) as X.
  cbv zeta in X. rewrite EE in X. exact X.
Qed.
(** the laser touches nothing but the magnetic field half a cell left of its plane, in the patches of the left edge and
    outside the layers across y *)
Theorem C79_footprint_2d : forall ax ay nx ny ng dx dy qdy pmls nproc rank l time dt mE mJ dis mB a,
  exact_arith A zero (one_ K) -> paired [ax; ay] -> 0 < ng -> ng <= nx -> ng <= ny ->
  layers2 ax ay nx ny (thick K) pmls -> 0 <= thick K -> thick K + 3 <= nx -> ax_lo ax = Pml -> running time l -> centred l ->
  (forall f p j, (f < 3)%nat -> (p < npatch2 ax ay)%nat -> Z.of_nat p mod ax_n ax = 0 -> 0 <= j < ny ->
     (forall s, In s (pmls p) -> axis_of s = 1%nat -> outside_layer true (thick K) s ny j) -> a <> cell [nx; ny] ng f p [lp - 1; j]) ->
  snd (laser_stage_2d A K cl ax ay nx ny ng dx dy qdy pmls nproc rank l time dt mE mJ (dis, mB)) a = mB a.
Proof.
  intros ax ay nx ny ng dx dy qdy pmls nproc rank l time dt mE mJ dis mB a (inv & Fth) Hpa Hg Hx Hy HL Hth Hfit HP HR HC Ha. assert (Hlp : lp < nx + ng) by lia.
  apply (stage2_frame A K cl zero ax ay nx ny ng dx dy qdy pmls nproc rank l time dt mE mJ Hpa HL Hg Hx Hy Hth Hlp HP HR HC (monoid_of A _ _ _ Fth)).
  intros p f j Hp Hl Hf (Hj & H1 & H2). apply Ha; auto. intros s Is E. unfold outside_layer. destruct s; cbn in E |- *; try discriminate; auto.
Qed.
(** in three dimensions likewise; the component Bx is moved for whole columns, guard cells and layers across z included *)
Theorem C79_footprint_3d : forall ax ay az nx ny nz ng dx dy dz qdy qdz pmls nproc rank l time dt mE mJ dis mB a,
  exact_arith A zero (one_ K) -> paired [ax; ay; az] -> 0 < ng -> ng <= nx -> ng <= ny -> ng <= nz ->
  layers3 ax ay az nx ny (thick K) pmls -> 0 <= thick K -> thick K + 3 <= nx -> ax_lo ax = Pml -> running time l -> centred l ->
  (forall f p j k, (f < 3)%nat -> (p < npatch3 ax ay az)%nat -> Z.of_nat p mod ax_n ax = 0 -> 0 <= j < ny ->
     (forall s, In s (pmls p) -> axis_of s = 1%nat -> outside_layer true (thick K) s ny j) ->
     (f = 0%nat /\ - ng <= k < nz + ng) \/ (0 <= k < nz /\ forall s, In s (pmls p) -> axis_of s = 2%nat -> outside_layer true (thick K) s nz k) ->
     a <> cell [nx; ny; nz] ng f p [lp - 1; j; k]) ->
  snd (laser_stage_3d A K cl ax ay az nx ny nz ng dx dy dz qdy qdz pmls nproc rank l time dt mE mJ (dis, mB)) a = mB a.
Proof.
  intros ax ay az nx ny nz ng dx dy dz qdy qdz pmls nproc rank l time dt mE mJ dis mB a (inv & Fth) Hpa Hg Hx Hy Hz HL Hth Hfit HP HR HC Ha. assert (Hlp : lp < nx + ng) by lia.
  apply (stage3_frame A K cl zero ax ay az nx ny nz ng dx dy dz qdy qdz pmls nproc rank l time dt mE mJ Hpa HL Hg Hx Hy Hz Hth Hlp HP HR HC (monoid_of A _ _ _ Fth)).
  intros p f j k Hp Hl Hf (Hj & H1 & H2) Hk Hc. apply Ha; auto.
  - intros s Is E. unfold outside_layer. destruct s; cbn in E |- *; try discriminate; auto.
  - destruct Hc as [->|(Hk' & H3 & H4)]; [left; auto|right]. split; [exact Hk'|]. intros s Is E. unfold outside_layer. destruct s; cbn in E |- *; try discriminate; auto.
Qed.

(** C80: whoever owns the patches and however the grid is cut, the laser turns the same fields of the whole grid into the
    same field, provided that the guard cells it reads are current. *)
Theorem C80_same_injection_2d : forall ax ay nx ny ng pmls nproc rank ax' ay' nx' ny' ng' pmls' nproc' rank' dx dy qdy l time dt
    mE mJ dis mB dis1 mB1 mB2 mE' mJ' dis' mB' dis1' mB1' mB2' FE FJ FB,
  exact_arith A zero (one_ K) -> 0 <= thick K ->
  paired [ax; ay] -> 1 <= ax_n ax -> 1 <= ax_n ay -> 0 < ng -> ng <= nx -> ng <= ny ->
  layers_fit (thick K) [ax; ay] [nx; ny] -> layers2 ax ay nx ny (thick K) pmls -> thick K + 3 <= nx ->
  paired [ax'; ay'] -> 1 <= ax_n ax' -> 1 <= ax_n ay' -> 0 < ng' -> ng' <= nx' -> ng' <= ny' ->
  layers_fit (thick K) [ax'; ay'] [nx'; ny'] -> layers2 ax' ay' nx' ny' (thick K) pmls' -> thick K + 3 <= nx' ->
  same_grid [ax; ay] [nx; ny] [ax'; ay'] [nx'; ny'] -> ax_lo ax = Pml -> running time l -> centred l ->
  (forall p, (p < npatch2 ax ay)%nat -> (rank p < nproc)%nat) -> (forall p, (p < npatch2 ax ay)%nat -> dis (rank p) = false) ->
  (forall p, (p < npatch2 ax' ay')%nat -> (rank' p < nproc')%nat) -> (forall p, (p < npatch2 ax' ay')%nat -> dis' (rank' p) = false) ->
  shows zero [ax; ay] [nx; ny] ng (npatch2 ax ay) (position2 ax) FE mE -> shows_inside zero [ax; ay] [nx; ny] ng (npatch2 ax ay) (position2 ax) FJ mJ ->
  shows zero [ax; ay] [nx; ny] ng (npatch2 ax ay) (position2 ax) FB mB ->
  shows zero [ax'; ay'] [nx'; ny'] ng' (npatch2 ax' ay') (position2 ax') FE mE' -> shows_inside zero [ax'; ay'] [nx'; ny'] ng' (npatch2 ax' ay') (position2 ax') FJ mJ' ->
  shows zero [ax'; ay'] [nx'; ny'] ng' (npatch2 ax' ay') (position2 ax') FB mB' ->
  laser_stage_2d A K cl ax ay nx ny ng dx dy qdy pmls nproc rank l time dt mE mJ (dis, mB) = (dis1, mB1) ->
  guards_exchanged bounds2 [nx; ny] ng (npatch2 ax ay) (nbr2 ax ay) 3 mB1 mB2 ->
  laser_stage_2d A K cl ax' ay' nx' ny' ng' dx dy qdy pmls' nproc' rank' l time dt mE' mJ' (dis', mB') = (dis1', mB1') ->
  guards_exchanged bounds2 [nx'; ny'] ng' (npatch2 ax' ay') (nbr2 ax' ay') 3 mB1' mB2' ->
  exists GB, shows zero [ax; ay] [nx; ny] ng (npatch2 ax ay) (position2 ax) GB mB2 /\ shows zero [ax'; ay'] [nx'; ny'] ng' (npatch2 ax' ay') (position2 ax') GB mB2'.
Proof.
  intros ax ay nx ny ng pmls nproc rank ax' ay' nx' ny' ng' pmls' nproc' rank' dx dy qdy l time dt mE mJ dis mB dis1 mB1 mB2 mE' mJ' dis' mB' dis1' mB1' mB2' FE FJ FB (inv & Fth) Hth
    Hpa Nx Ny Hg Hx Hy HF HL Hfit Hpa' Nx' Ny' Hg' Hx' Hy' HF' HL' Hfit' HS HP HR HC Hr Hd Hr' Hd' SE SJ SB SE' SJ' SB' E X E' X'.
  assert (HP' : ax_lo ax' = Pml). { inversion HS as [|? ? ? ? [_ Q] _]; subst. cbn in Q. congruence. }
  assert (Ty : ax_lo ay = Pml -> thick K <= ny). { intro Q. inversion HF as [|? ? _ F]; subst. inversion F as [|? ? F1 _]; subst. cbn in F1. specialize (F1 Q). lia. }
  assert (Ty' : ax_lo ay' = Pml -> thick K <= ny'). { intro Q. inversion HF' as [|? ? _ F]; subst. inversion F as [|? ? F1 _]; subst. cbn in F1. specialize (F1 Q). lia. }
  exists (grid_inject2 A K cl zero ax ay nx ny dx dy qdy l time dt FE FJ FB).
  apply (f_equal snd) in E. apply (f_equal snd) in E'. cbn [snd] in E, E'. subst mB1 mB1'. split.
  - apply (stage2_shows A K cl zero ax ay nx ny ng dx dy qdy pmls nproc rank l time dt mE mJ Hpa Nx Ny HL Hg Hx Hy Hth Ty Hfit HP HR HC (monoid_of A _ _ _ Fth) dis mB mB2 FE FJ FB); auto.
  - eapply shows_ext; [|apply (stage2_shows A K cl zero ax' ay' nx' ny' ng' dx dy qdy pmls' nproc' rank' l time dt mE' mJ' Hpa' Nx' Ny' HL' Hg' Hx' Hy' Hth Ty' Hfit' HP' HR HC (monoid_of A _ _ _ Fth) dis' mB' mB2' FE FJ FB); auto].
    intros f g. symmetry. now apply grid_inject2_ext.
Qed.
Theorem C80_same_injection_3d : forall ax ay az nx ny nz ng pmls nproc rank ax' ay' az' nx' ny' nz' ng' pmls' nproc' rank' dx dy dz qdy qdz l time dt
    mE mJ dis mB dis1 mB1 mB2 mE' mJ' dis' mB' dis1' mB1' mB2' FE FJ FB,
  exact_arith A zero (one_ K) -> 0 <= thick K ->
  paired [ax; ay; az] -> 1 <= ax_n ax -> 1 <= ax_n ay -> 1 <= ax_n az -> 0 < ng -> ng <= nx -> ng <= ny -> ng <= nz ->
  layers_fit (thick K) [ax; ay; az] [nx; ny; nz] -> layers3 ax ay az nx ny (thick K) pmls -> thick K + 3 <= nx ->
  paired [ax'; ay'; az'] -> 1 <= ax_n ax' -> 1 <= ax_n ay' -> 1 <= ax_n az' -> 0 < ng' -> ng' <= nx' -> ng' <= ny' -> ng' <= nz' ->
  layers_fit (thick K) [ax'; ay'; az'] [nx'; ny'; nz'] -> layers3 ax' ay' az' nx' ny' (thick K) pmls' -> thick K + 3 <= nx' ->
  same_grid [ax; ay; az] [nx; ny; nz] [ax'; ay'; az'] [nx'; ny'; nz'] -> ax_lo ax = Pml -> running time l -> centred l ->
  (forall p, (p < npatch3 ax ay az)%nat -> (rank p < nproc)%nat) -> (forall p, (p < npatch3 ax ay az)%nat -> dis (rank p) = false) ->
  (forall p, (p < npatch3 ax' ay' az')%nat -> (rank' p < nproc')%nat) -> (forall p, (p < npatch3 ax' ay' az')%nat -> dis' (rank' p) = false) ->
  shows zero [ax; ay; az] [nx; ny; nz] ng (npatch3 ax ay az) (position3 ax ay) FE mE -> shows_inside zero [ax; ay; az] [nx; ny; nz] ng (npatch3 ax ay az) (position3 ax ay) FJ mJ ->
  shows zero [ax; ay; az] [nx; ny; nz] ng (npatch3 ax ay az) (position3 ax ay) FB mB ->
  shows zero [ax'; ay'; az'] [nx'; ny'; nz'] ng' (npatch3 ax' ay' az') (position3 ax' ay') FE mE' -> shows_inside zero [ax'; ay'; az'] [nx'; ny'; nz'] ng' (npatch3 ax' ay' az') (position3 ax' ay') FJ mJ' ->
  shows zero [ax'; ay'; az'] [nx'; ny'; nz'] ng' (npatch3 ax' ay' az') (position3 ax' ay') FB mB' ->
  laser_stage_3d A K cl ax ay az nx ny nz ng dx dy dz qdy qdz pmls nproc rank l time dt mE mJ (dis, mB) = (dis1, mB1) ->
  guards_exchanged bounds3 [nx; ny; nz] ng (npatch3 ax ay az) (nbr3 ax ay az) 3 mB1 mB2 ->
  laser_stage_3d A K cl ax' ay' az' nx' ny' nz' ng' dx dy dz qdy qdz pmls' nproc' rank' l time dt mE' mJ' (dis', mB') = (dis1', mB1') ->
  guards_exchanged bounds3 [nx'; ny'; nz'] ng' (npatch3 ax' ay' az') (nbr3 ax' ay' az') 3 mB1' mB2' ->
  exists GB, shows zero [ax; ay; az] [nx; ny; nz] ng (npatch3 ax ay az) (position3 ax ay) GB mB2 /\ shows zero [ax'; ay'; az'] [nx'; ny'; nz'] ng' (npatch3 ax' ay' az') (position3 ax' ay') GB mB2'.
Proof.
  intros ax ay az nx ny nz ng pmls nproc rank ax' ay' az' nx' ny' nz' ng' pmls' nproc' rank' dx dy dz qdy qdz l time dt mE mJ dis mB dis1 mB1 mB2 mE' mJ' dis' mB' dis1' mB1' mB2' FE FJ FB (inv & Fth) Hth
    Hpa Nx Ny Nz Hg Hx Hy Hz HF HL Hfit Hpa' Nx' Ny' Nz' Hg' Hx' Hy' Hz' HF' HL' Hfit' HS HP HR HC Hr Hd Hr' Hd' SE SJ SB SE' SJ' SB' E X E' X'.
  assert (HP' : ax_lo ax' = Pml). { inversion HS as [|? ? ? ? [_ Q] _]; subst. cbn in Q. congruence. }
  assert (T : forall a b c na nb nc, layers_fit (thick K) [a; b; c] [na; nb; nc] -> (ax_lo b = Pml -> thick K <= nb) /\ (ax_lo c = Pml -> thick K <= nc)).
  { intros a b c na nb nc F. inversion F as [|? ? _ F']; subst. inversion F' as [|? ? F1 F'']; subst. inversion F'' as [|? ? F2 _]; subst. cbn in F1, F2. split; intro Q; [specialize (F1 Q)|specialize (F2 Q)]; lia. }
  destruct (T _ _ _ _ _ _ HF) as [Ty Tz]. destruct (T _ _ _ _ _ _ HF') as [Ty' Tz'].
  exists (grid_inject3 A K cl zero ax ay az nx ny nz dx dy dz qdy qdz l time dt FE FJ FB).
  apply (f_equal snd) in E. apply (f_equal snd) in E'. cbn [snd] in E, E'. subst mB1 mB1'. split.
  - apply (stage3_shows A K cl zero ax ay az nx ny nz ng dx dy dz qdy qdz pmls nproc rank l time dt mE mJ Hpa Nx Ny Nz HL Hg Hx Hy Hz Hth Ty Tz Hfit HP HR HC (monoid_of A _ _ _ Fth) dis mB mB2 FE FJ FB); auto.
  - eapply shows_ext; [|apply (stage3_shows A K cl zero ax' ay' az' nx' ny' nz' ng' dx dy dz qdy qdz pmls' nproc' rank' l time dt mE' mJ' Hpa' Nx' Ny' Nz' HL' Hg' Hx' Hy' Hz' Hth Ty' Tz' Hfit' HP' HR HC (monoid_of A _ _ _ Fth) dis' mB' mB2' FE FJ FB); auto].
    intros f g. symmetry. now apply grid_inject3_ext.
Qed.

(** C81: adding two lasers with + asks for the sum of their fields (with C79: the sum is injected) *)
Theorem C81_sum : forall Ly Lz dy dz three time a b y z, exact_arith A zero (one_ K) ->
  requested_y A zero Ly Lz dy dz three time (Both a b) y z = requested_y A zero Ly Lz dy dz three time a y z +. requested_y A zero Ly Lz dy dz three time b y z /\
  requested_z A zero Ly Lz dy dz three time (Both a b) y z = requested_z A zero Ly Lz dy dz three time a y z +. requested_z A zero Ly Lz dy dz three time b y z.
Proof.
  intros Ly Lz dy dz three time a b y z (inv & Fth). unfold requested_y, requested_z. cbn [pulses]. rewrite !map_app. split; apply (total_app A zero (monoid_of A _ _ _ Fth)).
Qed.
Theorem C81_sum_runs : forall time (a b : laser (V := V)), (running time (Both a b) <-> running time a \/ running time b) /\ (centred (Both a b) <-> centred a /\ centred b).
Proof.
  intros time a b. split.
  - unfold running. cbn [pulses]. split.
    + intros (u & I1 & H). apply in_app_iff in I1 as [I1|I1]; [left|right]; exists u; auto.
    + intros [(u & I1 & H)|(u & I1 & H)]; exists u; split; auto; apply in_app_iff; auto.
  - unfold centred. cbn [pulses]. apply Forall_app.
Qed.
Theorem C81_injected_sum_2d : forall ax ay nx ny ng dx dy qdy pmls nproc rank a b time dt mE mJ dis mB dis1 mB1 mB2 psi mE' psi',
  numbers A K cl zero -> dx <> zero -> dy <> zero -> cl <> zero -> cl *. dt /. dx +. one_ K <> zero ->
  paired [ax; ay] -> 1 <= ax_n ax -> 1 <= ax_n ay -> 0 < ng -> ng <= nx -> ng <= ny ->
  layers2 ax ay nx ny (thick K) pmls -> 0 <= thick K -> thick K + 3 <= nx -> ax_lo ax = Pml ->
  running time a \/ running time b -> centred a -> centred b ->
  laser_stage_2d A K cl ax ay nx ny ng dx dy qdy pmls nproc rank (Both a b) time dt mE mJ (dis, mB) = (dis1, mB1) ->
  guards_exchanged bounds2 [nx; ny] ng (npatch2 ax ay) (nbr2 ax ay) 3 mB1 mB2 ->
  solver_e2 A K nx ny ng dx dy (npatch2 ax ay) pmls (half_ K *. dt) mB2 mJ (mE, psi) = (mE', psi') ->
  forall p j, (p < npatch2 ax ay)%nat -> (rank p < nproc)%nat -> dis (rank p) = false -> Z.of_nat p mod ax_n ax = 0 -> 0 <= j < ny ->
  outside_layers true (thick K) (pmls p) [nx; ny] [lp; j] ->
  let y := (inject_Z (Z.of_nat p / ax_n ax * ny + j) * qdy)%Q in let Ly := (inject_Z (ax_n ay * ny) * qdy)%Q in
  wave_y A K cl [nx; ny] ng mE' mB2 p [lp; j] =
    ofZ_ K 2 *. (requested_y A zero Ly 0 qdy 0 false time a y 0 +. requested_y A zero Ly 0 qdy 0 false time b y 0) +. wave_y A K cl [nx; ny] ng mE mB p [0; j] /\
  (0 < j \/ mB2 (cell [nx; ny] ng 0 p [lp; j - 1]) = mB (cell [nx; ny] ng 0 p [lp; j - 1]) ->
   wave_z A K cl [nx; ny] ng mE' mB2 p [lp; j] =
    ofZ_ K 2 *. (requested_z A zero Ly 0 qdy 0 false time a y 0 +. requested_z A zero Ly 0 qdy 0 false time b y 0) +. wave_z A K cl [nx; ny] ng mE mB p [0; j]).
Proof.
  intros ax ay nx ny ng dx dy qdy pmls nproc rank a b time dt mE mJ dis mB dis1 mB1 mB2 psi mE' psi' HN Hdx Hdy Hcl Hcfl Hpa Nx Ny Hg Hx Hy HL Hth Hfit HP HR HCa HCb ES GX EE p j Hp Hr Hd Hl Hj Ho y Ly.
  pose proof (C81_sum Ly 0 qdy 0 false time a b y 0 (proj1 HN)) as [<- <-].
  apply (C79_injected_2d ax ay nx ny ng dx dy qdy pmls nproc rank (Both a b) time dt mE mJ dis mB dis1 mB1 mB2 psi mE' psi'); auto; apply (C81_sum_runs time); auto.
Qed.
Theorem C81_injected_sum_3d : forall ax ay az nx ny nz ng dx dy dz qdy qdz pmls nproc rank a b time dt mE mJ dis mB dis1 mB1 mB2 psi mE' psi',
  numbers A K cl zero -> dx <> zero -> dy <> zero -> dz <> zero -> cl <> zero -> cl *. dt /. dx +. one_ K <> zero ->
  paired [ax; ay; az] -> 1 <= ax_n ax -> 1 <= ax_n ay -> 1 <= ax_n az -> 0 < ng -> ng <= nx -> ng <= ny -> ng <= nz ->
  layers3 ax ay az nx ny (thick K) pmls -> 0 <= thick K -> thick K + 3 <= nx -> ax_lo ax = Pml ->
  running time a \/ running time b -> centred a -> centred b ->
  laser_stage_3d A K cl ax ay az nx ny nz ng dx dy dz qdy qdz pmls nproc rank (Both a b) time dt mE mJ (dis, mB) = (dis1, mB1) ->
  guards_exchanged bounds3 [nx; ny; nz] ng (npatch3 ax ay az) (nbr3 ax ay az) 3 mB1 mB2 ->
  solver_e3 A K nx ny nz ng dx dy dz (npatch3 ax ay az) pmls (half_ K *. dt) mB2 mJ (mE, psi) = (mE', psi') ->
  forall p j k, (p < npatch3 ax ay az)%nat -> (rank p < nproc)%nat -> dis (rank p) = false -> Z.of_nat p mod ax_n ax = 0 -> 0 <= j < ny -> 0 <= k < nz ->
  outside_layers true (thick K) (pmls p) [nx; ny; nz] [lp; j; k] ->
  let y := (inject_Z (Z.of_nat p / ax_n ax mod ax_n ay * ny + j) * qdy)%Q in let Ly := (inject_Z (ax_n ay * ny) * qdy)%Q in
  let z := (inject_Z (Z.of_nat p / ax_n ax / ax_n ay * nz + k) * qdz)%Q in let Lz := (inject_Z (ax_n az * nz) * qdz)%Q in
  (0 < k \/ mB2 (cell [nx; ny; nz] ng 0 p [lp; j; k - 1]) = mB (cell [nx; ny; nz] ng 0 p [lp; j; k - 1]) ->
   wave_y A K cl [nx; ny; nz] ng mE' mB2 p [lp; j; k] =
     ofZ_ K 2 *. (requested_y A zero Ly Lz qdy qdz true time a y z +. requested_y A zero Ly Lz qdy qdz true time b y z) +. wave_y A K cl [nx; ny; nz] ng mE mB p [0; j; k]) /\
  (0 < j \/ mB2 (cell [nx; ny; nz] ng 0 p [lp; j - 1; k]) = mB (cell [nx; ny; nz] ng 0 p [lp; j - 1; k]) ->
   wave_z A K cl [nx; ny; nz] ng mE' mB2 p [lp; j; k] =
     ofZ_ K 2 *. (requested_z A zero Ly Lz qdy qdz true time a y z +. requested_z A zero Ly Lz qdy qdz true time b y z) +. wave_z A K cl [nx; ny; nz] ng mE mB p [0; j; k]).
Proof.
  intros ax ay az nx ny nz ng dx dy dz qdy qdz pmls nproc rank a b time dt mE mJ dis mB dis1 mB1 mB2 psi mE' psi' HN Hdx Hdy Hdz Hcl Hcfl Hpa Nx Ny Nz Hg Hx Hy Hz HL Hth Hfit HP HR HCa HCb ES GX EE p j k Hp Hr Hd Hl Hj Hk Ho y Ly z Lz.
  pose proof (C81_sum Ly Lz qdy qdz true time a b y z (proj1 HN)) as [<- <-].
  apply (C79_injected_3d ax ay az nx ny nz ng dx dy dz qdy qdz pmls nproc rank (Both a b) time dt mE mJ dis mB dis1 mB1 mB2 psi mE' psi'); auto; apply (C81_sum_runs time); auto.
Qed.

(** C82: where the beam is centred.  Asking for the coordinate zero is the same as not asking: the beam goes to the middle
    of the domain, for every profile, in both dimensions *)
Theorem C82_zero_is_middle_2d : forall ax ay nx ny ng dx dy qdy pmls nproc rank t z0 f time dt mE mJ s y0, (y0 == 0)%Q ->
  laser_stage_2d A K cl ax ay nx ny ng dx dy qdy pmls nproc rank (Pulse t (Some y0) z0 f) time dt mE mJ s =
  laser_stage_2d A K cl ax ay nx ny ng dx dy qdy pmls nproc rank (Pulse t None z0 f) time dt mE mJ s.
Proof.
  intros ax ay nx ny ng dx dy qdy pmls nproc rank t z0 f time dt mE mJ s y0 H. unfold laser_stage_2d, laser_call_2d, sources2. cbn [bound_fields tstop_of].
  unfold centre at 1. replace (Qeq_bool y0 0) with true by (symmetry; now apply Qeq_bool_iff). reflexivity.
Qed.

(** C83: the life of a laser.  When every pulse is over, nothing is written and the laser of every process is switched off *)
Theorem C83_stops_2d : forall ax ay nx ny ng dx dy qdy pmls nproc rank l time dt mE mJ dis mB dis1 mB1,
  laser_stage_2d A K cl ax ay nx ny ng dx dy qdy pmls nproc rank l time dt mE mJ (dis, mB) = (dis1, mB1) -> ~ running time l ->
  (forall r, (r < nproc)%nat -> dis1 r = true) /\ (forall a, mB1 a = mB a).
Proof. intros ax ay nx ny ng dx dy qdy pmls nproc rank l time dt mE mJ dis mB dis1 mB1 E H. pose proof (stops2 A K cl ax ay nx ny ng dx dy qdy pmls nproc rank l time dt mE mJ dis mB H) as X. rewrite E in X. exact X. Qed.
Theorem C83_stops_3d : forall ax ay az nx ny nz ng dx dy dz qdy qdz pmls nproc rank l time dt mE mJ dis mB dis1 mB1,
  laser_stage_3d A K cl ax ay az nx ny nz ng dx dy dz qdy qdz pmls nproc rank l time dt mE mJ (dis, mB) = (dis1, mB1) -> ~ running time l ->
  (forall r, (r < nproc)%nat -> dis1 r = true) /\ (forall a, mB1 a = mB a).
Proof. intros ax ay az nx ny nz ng dx dy dz qdy qdz pmls nproc rank l time dt mE mJ dis mB dis1 mB1 E H. pose proof (stops3 A K cl ax ay az nx ny nz ng dx dy dz qdy qdz pmls nproc rank l time dt mE mJ dis mB H) as X. rewrite E in X. exact X. Qed.
(** a laser switched off on one process stays off there and writes to none of its patches *)
Theorem C83_stays_off_2d : forall ax ay nx ny ng dx dy qdy pmls nproc rank l time dt mE mJ dis mB dis1 mB1 r,
  laser_stage_2d A K cl ax ay nx ny ng dx dy qdy pmls nproc rank l time dt mE mJ (dis, mB) = (dis1, mB1) -> dis r = true ->
  dis1 r = true /\ (forall p f o, rank p = r -> mB1 (Fld f p o) = mB (Fld f p o)).
Proof. intros ax ay nx ny ng dx dy qdy pmls nproc rank l time dt mE mJ dis mB dis1 mB1 r E H. pose proof (stays2 A K cl ax ay nx ny ng dx dy qdy pmls nproc rank l time dt mE mJ dis mB r H) as X. rewrite E in X. exact X. Qed.
Theorem C83_stays_off_3d : forall ax ay az nx ny nz ng dx dy dz qdy qdz pmls nproc rank l time dt mE mJ dis mB dis1 mB1 r,
  laser_stage_3d A K cl ax ay az nx ny nz ng dx dy dz qdy qdz pmls nproc rank l time dt mE mJ (dis, mB) = (dis1, mB1) -> dis r = true ->
  dis1 r = true /\ (forall p f o, rank p = r -> mB1 (Fld f p o) = mB (Fld f p o)).
Proof. intros ax ay az nx ny nz ng dx dy dz qdy qdz pmls nproc rank l time dt mE mJ dis mB dis1 mB1 r E H. pose proof (stays3 A K cl ax ay az nx ny nz ng dx dy dz qdy qdz pmls nproc rank l time dt mE mJ dis mB r H) as X. rewrite E in X. exact X. Qed.
(** while a pulse is running and the left boundary is open, no process is switched off *)
Theorem C83_stays_on_2d : forall ax ay nx ny ng dx dy qdy pmls nproc rank l time dt mE mJ dis mB dis1 mB1 r,
  paired [ax; ay] -> layers2 ax ay nx ny (thick K) pmls -> ax_lo ax = Pml -> running time l ->
  laser_stage_2d A K cl ax ay nx ny ng dx dy qdy pmls nproc rank l time dt mE mJ (dis, mB) = (dis1, mB1) -> dis1 r = dis r.
Proof.
  intros ax ay nx ny ng dx dy qdy pmls nproc rank l time dt mE mJ dis mB dis1 mB1 r Hpa HL HP HR E.
  pose proof (stage2_is A K cl ax ay nx ny ng dx dy qdy pmls nproc rank l time dt mE mJ dis mB) as (S1 & _ & _). specialize (S1 r). rewrite E in S1. cbn [fst] in S1. rewrite S1.
  destruct (r <? nproc)%nat; [|reflexivity]. now apply (P_Laser4.running_off K ax ay nx ny pmls rank l time Hpa HL).
Qed.
Theorem C83_stays_on_3d : forall ax ay az nx ny nz ng dx dy dz qdy qdz pmls nproc rank l time dt mE mJ dis mB dis1 mB1 r,
  paired [ax; ay; az] -> layers3 ax ay az nx ny (thick K) pmls -> ax_lo ax = Pml -> running time l ->
  laser_stage_3d A K cl ax ay az nx ny nz ng dx dy dz qdy qdz pmls nproc rank l time dt mE mJ (dis, mB) = (dis1, mB1) -> dis1 r = dis r.
Proof.
  intros ax ay az nx ny nz ng dx dy dz qdy qdz pmls nproc rank l time dt mE mJ dis mB dis1 mB1 r Hpa HL HP HR E.
  pose proof (stage3_is A K cl ax ay az nx ny nz ng dx dy dz qdy qdz pmls nproc rank l time dt mE mJ dis mB) as (S1 & _ & _). specialize (S1 r). rewrite E in S1. cbn [fst] in S1. rewrite S1.
  destruct (r <? nproc)%nat; [|reflexivity]. now apply (P_Laser5.running_off K ax ay az nx ny pmls rank l time Hpa HL).
Qed.
(** without an open left boundary nothing is injected *)
Theorem C83_no_layer_2d : forall ax ay nx ny ng dx dy qdy pmls nproc rank l time dt mE mJ dis mB dis1 mB1,
  paired [ax; ay] -> layers2 ax ay nx ny (thick K) pmls -> ax_lo ax <> Pml -> (forall p, (p < npatch2 ax ay)%nat -> (rank p < nproc)%nat) ->
  laser_stage_2d A K cl ax ay nx ny ng dx dy qdy pmls nproc rank l time dt mE mJ (dis, mB) = (dis1, mB1) -> forall a, mB1 a = mB a.
Proof. intros ax ay nx ny ng dx dy qdy pmls nproc rank l time dt mE mJ dis mB dis1 mB1 Hpa HL HP HR E a. pose proof (no_layer2 A K cl ax ay nx ny ng dx dy qdy pmls nproc rank l time dt mE mJ Hpa HL dis mB a HP HR) as X. rewrite E in X. exact X. Qed.
Theorem C83_no_layer_3d : forall ax ay az nx ny nz ng dx dy dz qdy qdz pmls nproc rank l time dt mE mJ dis mB dis1 mB1,
  paired [ax; ay; az] -> layers3 ax ay az nx ny (thick K) pmls -> ax_lo ax <> Pml -> (forall p, (p < npatch3 ax ay az)%nat -> (rank p < nproc)%nat) ->
  laser_stage_3d A K cl ax ay az nx ny nz ng dx dy dz qdy qdz pmls nproc rank l time dt mE mJ (dis, mB) = (dis1, mB1) -> forall a, mB1 a = mB a.
Proof. intros ax ay az nx ny nz ng dx dy dz qdy qdz pmls nproc rank l time dt mE mJ dis mB dis1 mB1 Hpa HL HP HR E a. pose proof (no_layer3 A K cl ax ay az nx ny nz ng dx dy dz qdy qdz pmls nproc rank l time dt mE mJ Hpa HL dis mB a HP HR) as X. rewrite E in X. exact X. Qed.

(** C84: patches of thickness + 1 cells are accepted, but the plane of the laser then lies in guard cells: after the exchange
    of the guard cells the field is the one without any laser, whatever the laser *)
Theorem C84_narrow_patch_loses_pulse : forall ax ay nx ny ng dx dy qdy pmls nproc rank l time dt mE mJ dis mB dis1 mB1 mB2,
  exact_arith A zero (one_ K) -> paired [ax; ay] -> 1 <= ax_n ax -> 1 <= ax_n ay -> 2 <= ng -> ng <= nx -> ng <= ny ->
  layers2 ax ay nx ny (thick K) pmls -> 0 <= thick K -> nx = thick K + 1 -> ax_lo ax = Pml -> running time l -> centred l ->
  laser_stage_2d A K cl ax ay nx ny ng dx dy qdy pmls nproc rank l time dt mE mJ (dis, mB) = (dis1, mB1) ->
  guards_exchanged bounds2 [nx; ny] ng (npatch2 ax ay) (nbr2 ax ay) 3 mB1 mB2 ->
  guards_exchanged bounds2 [nx; ny] ng (npatch2 ax ay) (nbr2 ax ay) 3 mB mB2.
Proof.
  intros ax ay nx ny ng dx dy qdy pmls nproc rank l time dt mE mJ dis mB dis1 mB1 mB2 (inv & Fth) Hpa Nx Ny Hg Hx Hy HL Hth Hn HP HR HC E GX.
  apply (f_equal snd) in E. cbn [snd] in E. subst mB1. exact (lost2 A K cl zero ax ay nx ny ng dx dy qdy pmls nproc rank l time dt mE mJ dis mB mB2 (monoid_of A _ _ _ Fth) Hpa Nx Ny Hg Hx Hy HL Hth Hn HP HR HC GX).
Qed.
(** C86: two lasers registered one after the other do not add up: the first leaves no trace (outside the layers, away from the
    lowest row of a patch), for every two lasers that are still running *)
Theorem C86_second_replaces_first : forall ax ay nx ny ng dx dy qdy pmls nproc rank l1 l2 time dt mE mJ dis dis' mB mBa dis1 dis2 mB1 mB2 psi mE' psi',
  numbers A K cl zero -> dx <> zero -> dy <> zero -> cl <> zero -> cl *. dt /. dx +. one_ K <> zero ->
  paired [ax; ay] -> 1 <= ax_n ax -> 1 <= ax_n ay -> 0 < ng -> ng <= nx -> ng <= ny ->
  layers2 ax ay nx ny (thick K) pmls -> 0 <= thick K -> thick K + 3 <= nx -> ax_lo ax = Pml ->
  running time l1 -> centred l1 -> running time l2 -> centred l2 ->
  laser_stage_2d A K cl ax ay nx ny ng dx dy qdy pmls nproc rank l1 time dt mE mJ (dis, mB) = (dis1, mBa) ->
  laser_stage_2d A K cl ax ay nx ny ng dx dy qdy pmls nproc rank l2 time dt mE mJ (dis', mBa) = (dis2, mB1) ->
  guards_exchanged bounds2 [nx; ny] ng (npatch2 ax ay) (nbr2 ax ay) 3 mB1 mB2 ->
  solver_e2 A K nx ny ng dx dy (npatch2 ax ay) pmls (half_ K *. dt) mB2 mJ (mE, psi) = (mE', psi') ->
  forall p j, (p < npatch2 ax ay)%nat -> (rank p < nproc)%nat -> dis' (rank p) = false -> Z.of_nat p mod ax_n ax = 0 -> 0 < j < ny ->
  outside_layers true (thick K) (pmls p) [nx; ny] [lp; j] ->
  let y := (inject_Z (Z.of_nat p / ax_n ax * ny + j) * qdy)%Q in let Ly := (inject_Z (ax_n ay * ny) * qdy)%Q in
  wave_y A K cl [nx; ny] ng mE' mB2 p [lp; j] = ofZ_ K 2 *. requested_y A zero Ly 0 qdy 0 false time l2 y 0 +. wave_y A K cl [nx; ny] ng mE mB p [0; j] /\
  wave_z A K cl [nx; ny] ng mE' mB2 p [lp; j] = ofZ_ K 2 *. requested_z A zero Ly 0 qdy 0 false time l2 y 0 +. wave_z A K cl [nx; ny] ng mE mB p [0; j].
Proof.
  intros ax ay nx ny ng dx dy qdy pmls nproc rank l1 l2 time dt mE mJ dis dis' mB mBa dis1 dis2 mB1 mB2 psi mE' psi' HN Hdx Hdy Hcl Hcfl Hpa Nx Ny Hg Hx Hy HL Hth Hfit HP HR1 HC1 HR HC ES1 ES GX EE p j Hp Hr Hd Hl Hj Ho y Ly.
  destruct (C79_injected_2d ax ay nx ny ng dx dy qdy pmls nproc rank l2 time dt mE mJ dis' mBa dis2 mB1 mB2 psi mE' psi' HN Hdx Hdy Hcl Hcfl Hpa Nx Ny Hg Hx Hy HL Hth Hfit HP HR HC ES GX EE p j Hp Hr Hd Hl ltac:(lia) Ho) as [Wy Wz].
  specialize (Wz (or_introl (proj1 Hj))). fold y in Wy, Wz. fold Ly in Wy, Wz. rewrite Wy, Wz.
  apply (f_equal snd) in ES1. cbn [snd] in ES1. subst mBa.
  assert (U : forall f i, i = 0 \/ i = -1 -> snd (laser_stage_2d A K cl ax ay nx ny ng dx dy qdy pmls nproc rank l1 time dt mE mJ (dis, mB)) (cell [nx; ny] ng f p [i; j]) = mB (cell [nx; ny] ng f p [i; j])).
  { intros f i Hi. apply C79_footprint_2d; auto; [apply HN|]. intros f' q k _ _ _ Hk _ E. pose proof (geometry2 nx ny ng Hg Hx Hy) as G.
    apply (cell_inj [nx; ny] ng bounds2 opp2 G) in E as (_ & _ & E); [injection E; lia| |]; repeat constructor; lia. }
  unfold wave_y, wave_z, one_left. change (0 - 1) with (-1). rewrite !(U 1%nat), !(U 2%nat) by auto. auto.
Qed.

(** the exchanges in these statements can always be carried out *)
Theorem C79_exchange_exists_2d : forall ax ay nx ny ng (m : addr -> V), 0 < ng -> ng <= nx -> ng <= ny -> exists m', guards_exchanged bounds2 [nx; ny] ng (npatch2 ax ay) (nbr2 ax ay) 3 m m'.
Proof.
  intros ax ay nx ny ng m Hg Hx Hy. set (T := guard_tasks (extents [nx; ny] ng) (local_guard2 nx ny ng) (nbr2 ax ay) (npatch2 ax ay) 3).
  destruct (Properties_FieldSync.C07_completes zero (plus_ A) (extents [nx; ny] ng) (local_guard2 nx ny ng) (nbr2 ax ay) (npatch2 ax ay) 3
    (flat_map (fun t => repeat t (length (nth t T []))) (seq 0 (npatch2 ax ay * 3))) m) as [m' E]; [intros t Ht; apply (Properties_Maxwell.turns (fun t => length (nth t T []))); exact Ht|].
  exists m'. exact (Properties_FieldSync.C07_guard_2d zero (plus_ A) nx ny ng _ _ _ _ m m' Hg Hx Hy E).
Qed.
Theorem C79_exchange_exists_3d : forall ax ay az nx ny nz ng (m : addr -> V), 0 < ng -> ng <= nx -> ng <= ny -> ng <= nz -> exists m', guards_exchanged bounds3 [nx; ny; nz] ng (npatch3 ax ay az) (nbr3 ax ay az) 3 m m'.
Proof.
  intros ax ay az nx ny nz ng m Hg Hx Hy Hz. set (T := guard_tasks (extents [nx; ny; nz] ng) (local_guard3 nx ny nz ng) (nbr3 ax ay az) (npatch3 ax ay az) 3).
  destruct (Properties_FieldSync.C07_completes zero (plus_ A) (extents [nx; ny; nz] ng) (local_guard3 nx ny nz ng) (nbr3 ax ay az) (npatch3 ax ay az) 3
    (flat_map (fun t => repeat t (length (nth t T []))) (seq 0 (npatch3 ax ay az * 3))) m) as [m' E]; [intros t Ht; apply (Properties_Maxwell.turns (fun t => length (nth t T []))); exact Ht|].
  exists m'. exact (Properties_FieldSync.C07_guard_3d zero (plus_ A) nx ny nz ng _ _ _ _ m m' Hg Hx Hy Hz E).
Qed.
End Any.

(** ** concrete cases *)
Import Properties_Cpml.
Local Notation X2 := (mkAxis 2 Pml Pml).
Local Notation Y1 := (mkAxis 1 Periodic Periodic).
Local Notation Y2 := (mkAxis 2 Periodic Periodic).
Definition none_off (r : nat) : bool := false.
Definition zeros_ (a : addr) : Qc := 0%Qc.
Lemma QA_numbers th : numbers QA (QK th) 1%Qc 0%Qc.
Proof.
  split; [exists Qcinv; exact Qcft|]. split; [apply Qc_is_canon; reflexivity|]. split; [apply Qc_is_canon; reflexivity|]. split; [apply Qc_is_canon; reflexivity|]. split; [apply Qc_is_canon; reflexivity|].
  intro E. apply (f_equal this) in E. discriminate.
Qed.
(** a pulse whose fields grow with the distance from its centre *)
Definition sloped (y0 : option Q) : laser (V := Qc) := Pulse 1 y0 None (fun _ y _ => (Q2Qc y, Q2Qc (2 * y))).
(** the hypotheses of C79 and C81 are met: two patches along x of 4 x 4 cells with layers of one cell, one process *)
Lemma the_layers : layers2 X2 Y1 4 4 (thick (QK 1)) two_by_one.
Proof. intros p Hp. do 2 (destruct p as [|p]; [reflexivity|]). cbn in Hp. lia. Qed.
Lemma is_running y0 : running 0 (sloped y0).
Proof. eexists. split; [now left|]. reflexivity. Qed.
Example ex_C79 : numbers QA (QK 1) 1%Qc 0%Qc /\ paired [X2; Y1] /\ layers2 X2 Y1 4 4 (thick (QK 1)) two_by_one /\ thick (QK 1) + 3 <= 4 /\
  running 0 (sloped None) /\ centred (sloped None) /\ outside_layers true (thick (QK 1)) (two_by_one 0) [4; 4] [3; 3] /\
  requested_y QA 0%Qc (inject_Z 4 * 1) 0 1 0 false 0 (sloped None) (inject_Z 3 * 1) 0 <> 0%Qc.
Proof.
  split; [apply QA_numbers|]. split; [repeat constructor|]. split; [apply the_layers|]. split; [cbn; lia|]. split; [apply is_running|]. split; [repeat constructor|].
  split; [intros s [<-|[]]; cbn; lia|]. intro E. apply (f_equal this) in E. vm_compute in E. discriminate.
Qed.
Lemma nz1 : (1%Qc <> 0%Qc). Proof. intro E. apply (f_equal this) in E. discriminate. Qed.
Lemma nz2 : plus_ QA (over_ QA (times_ QA 1%Qc 1%Qc) 1%Qc) (one_ (QK 1)) <> 0%Qc. Proof. intro E. apply (f_equal this) in E. vm_compute in E. discriminate. Qed.

(** C82: asked to be centred at the lower edge, the pulse is not what is injected there *)
Theorem C82_edge_centre_refuted : exists (l : laser (V := Qc)), running 0 l /\ pulses l <> [] /\
  forall dis1 mB1 mB2 psi mE' psi',
  laser_stage_2d QA (QK 1) 1%Qc X2 Y1 4 4 1 1%Qc 1%Qc 1 two_by_one 1 (fun _ => 0%nat) l 0 1%Qc zeros_ zeros_ (none_off, zeros_) = (dis1, mB1) ->
  guards_exchanged bounds2 [4; 4] 1 (npatch2 X2 Y1) (nbr2 X2 Y1) 3 mB1 mB2 ->
  solver_e2 QA (QK 1) 4 4 1 1%Qc 1%Qc (npatch2 X2 Y1) two_by_one (times_ QA (half_ (QK 1)) 1%Qc) mB2 zeros_ (zeros_, psi) = (mE', psi') ->
  wave_y QA (QK 1) 1%Qc [4; 4] 1 mE' mB2 0 [3; 3] <>
    plus_ QA (times_ QA (ofZ_ (QK 1) 2) (requested_y QA 0%Qc (inject_Z 4 * 1) 0 1 0 false 0 l (inject_Z 3 * 1) 0)) (wave_y QA (QK 1) 1%Qc [4; 4] 1 zeros_ zeros_ 0 [0; 3]).
Proof.
  exists (sloped (Some 0%Q)). split; [apply is_running|]. split; [discriminate|]. intros dis1 mB1 mB2 psi mE' psi' ES GX EE.
  unfold sloped in ES. rewrite C82_zero_is_middle_2d in ES by reflexivity.
  destruct (C79_injected_2d QA (QK 1) 1%Qc 0%Qc X2 Y1 4 4 1 1%Qc 1%Qc 1 two_by_one 1 (fun _ => 0%nat) (sloped None) 0 1%Qc zeros_ zeros_ none_off zeros_ dis1 mB1 mB2 psi mE' psi'
    (QA_numbers 1) nz1 nz1 nz1 nz2 ltac:(repeat constructor) ltac:(cbn; lia) ltac:(cbn; lia) ltac:(lia) ltac:(lia) ltac:(lia) the_layers ltac:(cbn; lia) ltac:(cbn; lia) eq_refl (is_running None) ltac:(repeat constructor) ES GX EE
    0%nat 3 ltac:(cbn; lia) (le_n 1) eq_refl eq_refl ltac:(lia)) as [Wy _]; [intros s [<-|[]]; cbn; lia|].
  change (thick (QK 1) + 2) with 3 in Wy. rewrite Wy. intro E. apply (f_equal this) in E. vm_compute in E. discriminate.
Qed.

(** C84: an accepted set-up (patches of two cells, layers of one cell, two guard cells) in which a running pulse is lost *)
Theorem C84_narrow_patch_refuted : exists (l : laser (V := Qc)), running 0 l /\ centred l /\
  requested_y QA 0%Qc (inject_Z 4 * 1) 0 1 0 false 0 l (inject_Z 3 * 1) 0 <> 0%Qc /\
  layers2 X2 Y1 2 4 (thick (QK 1)) two_by_one /\ layers_fit (thick (QK 1)) [X2; Y1] [2; 4] /\
  forall dt mE mJ mB dis1 mB1 mB2,
  laser_stage_2d QA (QK 1) 1%Qc X2 Y1 2 4 2 1%Qc 1%Qc 1 two_by_one 1 (fun _ => 0%nat) l 0 dt mE mJ (none_off, mB) = (dis1, mB1) ->
  guards_exchanged bounds2 [2; 4] 2 (npatch2 X2 Y1) (nbr2 X2 Y1) 3 mB1 mB2 -> guards_exchanged bounds2 [2; 4] 2 (npatch2 X2 Y1) (nbr2 X2 Y1) 3 mB mB2.
Proof.
  assert (HL : layers2 X2 Y1 2 4 (thick (QK 1)) two_by_one) by (intros p Hp; do 2 (destruct p as [|p]; [reflexivity|]); cbn in Hp; lia).
  exists (sloped None). split; [apply is_running|]. split; [repeat constructor|]. split; [intro E; apply (f_equal this) in E; vm_compute in E; discriminate|].
  split; [exact HL|]. split; [repeat constructor; cbn; try discriminate; intros; lia|]. intros dt mE mJ mB dis1 mB1 mB2 ES GX.
  apply (C84_narrow_patch_loses_pulse QA (QK 1) 1%Qc 0%Qc X2 Y1 2 4 2 1%Qc 1%Qc 1 two_by_one 1 (fun _ => 0%nat) (sloped None) 0 dt mE mJ none_off mB dis1 mB1 mB2); auto;
    try (cbn; lia); try apply is_running; try (repeat constructor; fail). exists Qcinv; exact Qcft.
Qed.

(** C86: two equal pulses, registered separately, inject one of them *)
Theorem C86_separate_lasers_refuted : exists (l : laser (V := Qc)), running 0 l /\ centred l /\
  forall dis1 mBa dis2 mB1 mB2 psi mE' psi',
  laser_stage_2d QA (QK 1) 1%Qc X2 Y1 4 4 1 1%Qc 1%Qc 1 two_by_one 1 (fun _ => 0%nat) l 0 1%Qc zeros_ zeros_ (none_off, zeros_) = (dis1, mBa) ->
  laser_stage_2d QA (QK 1) 1%Qc X2 Y1 4 4 1 1%Qc 1%Qc 1 two_by_one 1 (fun _ => 0%nat) l 0 1%Qc zeros_ zeros_ (none_off, mBa) = (dis2, mB1) ->
  guards_exchanged bounds2 [4; 4] 1 (npatch2 X2 Y1) (nbr2 X2 Y1) 3 mB1 mB2 ->
  solver_e2 QA (QK 1) 4 4 1 1%Qc 1%Qc (npatch2 X2 Y1) two_by_one (times_ QA (half_ (QK 1)) 1%Qc) mB2 zeros_ (zeros_, psi) = (mE', psi') ->
  wave_y QA (QK 1) 1%Qc [4; 4] 1 mE' mB2 0 [3; 3] <>
    plus_ QA (times_ QA (ofZ_ (QK 1) 2) (requested_y QA 0%Qc (inject_Z 4 * 1) 0 1 0 false 0 (Both l l) (inject_Z 3 * 1) 0)) (wave_y QA (QK 1) 1%Qc [4; 4] 1 zeros_ zeros_ 0 [0; 3]).
Proof.
  exists (sloped None). split; [apply is_running|]. split; [repeat constructor|]. intros dis1 mBa dis2 mB1 mB2 psi mE' psi' ES1 ES GX EE.
  destruct (C86_second_replaces_first QA (QK 1) 1%Qc 0%Qc X2 Y1 4 4 1 1%Qc 1%Qc 1 two_by_one 1 (fun _ => 0%nat) (sloped None) (sloped None) 0 1%Qc zeros_ zeros_ none_off none_off zeros_ mBa dis1 dis2 mB1 mB2 psi mE' psi'
    (QA_numbers 1) nz1 nz1 nz1 nz2 ltac:(repeat constructor) ltac:(cbn; lia) ltac:(cbn; lia) ltac:(lia) ltac:(lia) ltac:(lia) the_layers ltac:(cbn; lia) ltac:(cbn; lia) eq_refl (is_running None) ltac:(repeat constructor) (is_running None) ltac:(repeat constructor) ES1 ES GX EE
    0%nat 3 ltac:(cbn; lia) (le_n 1) eq_refl eq_refl ltac:(lia)) as [Wy _]; [intros s [<-|[]]; cbn; lia|].
  change (thick (QK 1) + 2) with 3 in Wy. rewrite Wy. intro E. apply (f_equal this) in E. vm_compute in E. discriminate.
Qed.

(** C85: in a run the guard cells are not current: the laser acts after the first half step of the magnetic field and before
    its guard cells are exchanged (simulation.py:1090-1105) *)
(** arrays that show a given field of the whole grid *)
Definition paint (axes : list axis) (ns : list Z) (ng : Z) (n : nat) (position : nat -> list Z) (F : nat -> list Z -> Qc) (a : addr) : Qc :=
  match find (fun fpc => addr_eqb a (cell ns ng (fst fpc) (fst (snd fpc)) (snd (snd fpc)))) (list_prod (seq 0 3) (list_prod (seq 0 n) (all_cells ng ns))) with
  | Some (f, (p, c)) => shown 0%Qc axes ns position F p f c | None => 0%Qc end.
Lemma paint_shows axes ns ng n position F bounds opp : geometry ns ng bounds opp -> shows 0%Qc axes ns ng n position F (paint axes ns ng n position F).
Proof.
  intros G f p c Hf Hp Hc. unfold paint. destruct (find _ _) as [[f' [p' c']]|] eqn:E.
  - apply find_some in E as [I1 E]. cbn [fst snd] in E. apply addr_eqb_eq in E. apply in_prod_iff in I1 as [_ I1]. apply in_prod_iff in I1 as [_ I1]. apply all_cells_in in I1.
    apply (cell_inj ns ng bounds opp G) in E as (-> & -> & ->); auto.
  - exfalso. assert (X : addr_eqb (cell ns ng f p c) (cell ns ng f p c) = false).
    { apply (find_none _ _ E (f, (p, c))). apply in_prod_iff. split; [apply in_seq; lia|]. apply in_prod_iff. split; [apply in_seq; lia|]. now apply all_cells_in. }
    assert (Y : addr_eqb (cell ns ng f p c) (cell ns ng f p c) = true) by now apply addr_eqb_eq. congruence.
Qed.
(** Ez is one in one cell of the plane of the laser, in the row below the border of two patches; no other field *)
Definition spike (f : nat) (g : list Z) : Qc := match f, g with 2%nat, [3; 1] => 1%Qc | _, _ => 0%Qc end.
Definition fresh (s : pml_side) (a : addr) : Qc := 0%Qc.
Definition two_by_two (p : nat) : list pml_side := match p with 0%nat | 2%nat => [PXmin] | _ => [PXmax] end.
Theorem C85_loop_order_refuted : exists (l : laser (V := Qc)) mE mE', running 0 l /\ centred l /\
  layers2 X2 Y1 4 4 (thick (QK 1)) two_by_one /\ layers2 X2 Y2 4 2 (thick (QK 1)) two_by_two /\ same_grid [X2; Y1] [4; 4] [X2; Y2] [4; 2] /\
  shows 0%Qc [X2; Y1] [4; 4] 1 (npatch2 X2 Y1) (position2 X2) spike mE /\ shows 0%Qc [X2; Y2] [4; 2] 1 (npatch2 X2 Y2) (position2 X2) spike mE' /\
  forall mB psiB dis1 mB1 mB2 mB' psiB' dis1' mB1' mB2',
  solver_b2 QA (QK 1) 4 4 1 1%Qc 1%Qc (npatch2 X2 Y1) two_by_one (half_ (QK 1)) mE (zeros_, fresh) = (mB, psiB) ->
  laser_stage_2d QA (QK 1) 1%Qc X2 Y1 4 4 1 1%Qc 1%Qc 1 two_by_one 1 (fun _ => 0%nat) l 0 1%Qc mE zeros_ (none_off, mB) = (dis1, mB1) ->
  guards_exchanged bounds2 [4; 4] 1 (npatch2 X2 Y1) (nbr2 X2 Y1) 3 mB1 mB2 ->
  solver_b2 QA (QK 1) 4 2 1 1%Qc 1%Qc (npatch2 X2 Y2) two_by_two (half_ (QK 1)) mE' (zeros_, fresh) = (mB', psiB') ->
  laser_stage_2d QA (QK 1) 1%Qc X2 Y2 4 2 1 1%Qc 1%Qc 1 two_by_two 1 (fun _ => 0%nat) l 0 1%Qc mE' zeros_ (none_off, mB') = (dis1', mB1') ->
  guards_exchanged bounds2 [4; 2] 1 (npatch2 X2 Y2) (nbr2 X2 Y2) 3 mB1' mB2' ->
  ~ exists GB, shows 0%Qc [X2; Y1] [4; 4] 1 (npatch2 X2 Y1) (position2 X2) GB mB2 /\ shows 0%Qc [X2; Y2] [4; 2] 1 (npatch2 X2 Y2) (position2 X2) GB mB2'.
Proof.
  exists (sloped None), (paint [X2; Y1] [4; 4] 1 (npatch2 X2 Y1) (position2 X2) spike), (paint [X2; Y2] [4; 2] 1 (npatch2 X2 Y2) (position2 X2) spike).
  split; [apply is_running|]. split; [repeat constructor|]. split; [apply the_layers|].
  split; [intros p Hp; do 4 (destruct p as [|p]; [reflexivity|]); cbn in Hp; lia|]. split; [repeat constructor|].
  split; [eapply paint_shows; apply geometry2; lia|]. split; [eapply paint_shows; apply geometry2; lia|].
  intros mB psiB dis1 mB1 mB2 mB' psiB' dis1' mB1' mB2' EB ES [GX _] EB' ES' [GX' _] (GB & S1 & S2).
  assert (I1 : interior [4; 4] [2; 2]) by (repeat constructor; lia). assert (I2 : interior [4; 2] [2; 0]) by (repeat constructor; lia).
  assert (W1 : within 1 [4; 4] [2; 2]) by (repeat constructor; lia). assert (W2 : within 1 [4; 2] [2; 0]) by (repeat constructor; lia).
  assert (P0 : (0 < npatch2 X2 Y1)%nat) by (cbn; lia). assert (P2 : (2 < npatch2 X2 Y2)%nat) by (cbn; lia).
  specialize (S1 1%nat 0%nat [2; 2] ltac:(lia) P0 W1). specialize (S2 1%nat 2%nat [2; 0] ltac:(lia) P2 W2).
  rewrite (GX 1%nat 0%nat [2; 2] ltac:(lia) P0 W1) in S1. rewrite (GX' 1%nat 2%nat [2; 0] ltac:(lia) P2 W2) in S2.
  unfold guard_result in S1, S2. rewrite (facing_interior [4; 4] 1 bounds2 opp2 (geometry2 4 4 1 ltac:(lia) ltac:(lia) ltac:(lia)) _ _ _ I1) in S1.
  rewrite (facing_interior [4; 2] 1 bounds2 opp2 (geometry2 4 2 1 ltac:(lia) ltac:(lia) ltac:(lia)) _ _ _ I2) in S2.
  change (shown 0%Qc [X2; Y1] [4; 4] (position2 X2) GB 0 1 [2; 2]) with (GB 1%nat [2; 2]) in S1. change (shown 0%Qc [X2; Y2] [4; 2] (position2 X2) GB 2 1 [2; 0]) with (GB 1%nat [2; 2]) in S2.
  rewrite <- S2 in S1. clear S2 GX GX' I1 I2 W1 W2 P0 P2.
  apply (f_equal fst) in EB, EB'. apply (f_equal snd) in ES, ES'. cbn [fst snd] in EB, EB', ES, ES'. subst mB mB' mB1 mB1'.
  apply (f_equal this) in S1. vm_compute in S1. discriminate.
Qed.

(** the hypotheses of C80 are met by the two decompositions of C85, with current guard cells *)
Example ex_C80 : layers_fit (thick (QK 1)) [X2; Y1] [4; 4] /\ layers_fit (thick (QK 1)) [X2; Y2] [4; 2] /\ thick (QK 1) + 3 <= 4 /\
  shows 0%Qc [X2; Y1] [4; 4] 1 (npatch2 X2 Y1) (position2 X2) spike (paint [X2; Y1] [4; 4] 1 (npatch2 X2 Y1) (position2 X2) spike) /\
  shows 0%Qc [X2; Y2] [4; 2] 1 (npatch2 X2 Y2) (position2 X2) spike (paint [X2; Y2] [4; 2] 1 (npatch2 X2 Y2) (position2 X2) spike) /\ spike 2 [3; 1] <> 0%Qc.
Proof.
  split; [repeat constructor; cbn; try discriminate; intros; lia|]. split; [repeat constructor; cbn; try discriminate; intros; lia|]. split; [cbn; lia|].
  split; [eapply paint_shows; apply geometry2; lia|]. split; [eapply paint_shows; apply geometry2; lia|]. apply nz1.
Qed.
(** the pulse of C79 runs at time 0 and is over at time 1 *)
Example ex_C83 : running 0 (sloped None) /\ ~ running 1 (sloped None).
Proof. split; [apply is_running|]. intros (u & [<-|[]] & H). vm_compute in H. discriminate. Qed.
Print Assumptions C79_injected_2d.
Print Assumptions C79_injected_3d.
Print Assumptions C79_footprint_2d.
Print Assumptions C79_footprint_3d.
Print Assumptions C80_same_injection_2d.
Print Assumptions C80_same_injection_3d.
Print Assumptions C81_sum.
Print Assumptions C81_sum_runs.
Print Assumptions C81_injected_sum_2d.
Print Assumptions C81_injected_sum_3d.
Print Assumptions C82_zero_is_middle_2d.
Print Assumptions C83_stops_2d.
Print Assumptions C83_stops_3d.
Print Assumptions C83_stays_off_2d.
Print Assumptions C83_stays_off_3d.
Print Assumptions C83_stays_on_2d.
Print Assumptions C83_stays_on_3d.
Print Assumptions C83_no_layer_2d.
Print Assumptions C83_no_layer_3d.
Print Assumptions C84_narrow_patch_loses_pulse.
Print Assumptions C86_second_replaces_first.
Print Assumptions C79_exchange_exists_2d.
Print Assumptions C79_exchange_exists_3d.
Print Assumptions C82_edge_centre_refuted.
Print Assumptions C84_narrow_patch_refuted.
Print Assumptions C86_separate_lasers_refuted.
Print Assumptions C85_loop_order_refuted.
