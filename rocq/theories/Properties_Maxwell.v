(** C28, C59: the field solver. *)
From Coq Require Import Field_theory QArith Qcanon.
From Verif Require Import Base M_Layout S_Layout M_PartSync S_PartSync M_FieldSync S_FieldSync M_Maxwell S_Maxwell.
From Verif Require Import P_Layout P_PartSync P_PartSync2 P_PartSync3 P_Threads P_FieldGeo P_FieldPar P_FieldSync P_FieldSync2 P_FieldSync3 P_FieldSync4 P_FieldSync5 P_Maxwell P_Maxwell2 P_Maxwell3.
From Verif Require Properties_FieldSync.
Local Open Scope Z_scope.

Section Any.
Context {V : Type} (A : arith V) (zero : V).

(** the histories of C28 and C59 exist: from any fields, any sequence of updates can be carried out, the exchange being that
    of one process (C07) *)
Lemma turns (K : nat -> nat) N t : (t < N)%nat -> (K t <= count_occ Nat.eq_dec (flat_map (fun t => repeat t (K t)) (seq 0 N)) t)%nat.
Proof.
  intro H. assert (I : In t (seq 0 N)) by (apply in_seq; lia). clear H. induction (seq 0 N) as [|x l IH]; [contradiction|]. cbn [flat_map]. rewrite count_occ_app.
  destruct I as [->|I]; [|specialize (IH I); lia]. rewrite count_occ_repeat_eq by reflexivity. lia.
Qed.
Theorem C28_histories_exist_2d : forall ax ay nx ny ng dx dy, 0 < ng -> ng <= nx -> ng <= ny -> forall l s, exists s',
  history (update_efield2 A nx ny ng dx dy (npatch2 ax ay)) (update_bfield2 A nx ny ng dx dy (npatch2 ax ay))
    (guards_exchanged bounds2 [nx; ny] ng (npatch2 ax ay) (nbr2 ax ay) 3) l s s'.
Proof.
  intros ax ay nx ny ng dx dy Hg Hx Hy.
  assert (X : forall m : addr -> V, exists m', guards_exchanged bounds2 [nx; ny] ng (npatch2 ax ay) (nbr2 ax ay) 3 m m').
  { intro m. set (T := guard_tasks (extents [nx; ny] ng) (local_guard2 nx ny ng) (nbr2 ax ay) (npatch2 ax ay) 3).
    destruct (Properties_FieldSync.C07_completes zero (plus_ A) (extents [nx; ny] ng) (local_guard2 nx ny ng) (nbr2 ax ay) (npatch2 ax ay) 3
      (flat_map (fun t => repeat t (length (nth t T []))) (seq 0 (npatch2 ax ay * 3))) m) as [m' E]; [intros t Ht; apply (turns (fun t => length (nth t T []))); exact Ht|].
    exists m'. exact (Properties_FieldSync.C07_guard_2d zero (plus_ A) nx ny ng _ _ _ _ m m' Hg Hx Hy E). }
  induction l as [|[dt mJ|dt] l IH]; intros [mE mB].
  - eexists. constructor.
  - destruct (X (update_efield2 A nx ny ng dx dy (npatch2 ax ay) dt mB mJ mE)) as [mE1 E1]. destruct (IH (mE1, mB)) as [s' H]. exists s'. econstructor; eauto.
  - destruct (X (update_bfield2 A nx ny ng dx dy (npatch2 ax ay) dt mE mB)) as [mB1 E1]. destruct (IH (mE, mB1)) as [s' H]. exists s'. econstructor; eauto.
Qed.

(** C28, magnetic part: through any sequence of updates of E and B, each followed by the exchange of guard cells, the
    divergence of B at every cell whose forward neighbours lie in the domain keeps its value. *)
Theorem C28_divB_2d : forall ax ay nx ny ng dx dy l mE mB mE' mB' FE FB FJs,
  is_field A zero -> paired [ax; ay] -> 1 <= ax_n ax -> 1 <= ax_n ay -> 0 < ng -> ng <= nx -> ng <= ny ->
  shows zero [ax; ay] [nx; ny] ng (npatch2 ax ay) (position2 ax) FE mE ->
  shows zero [ax; ay] [nx; ny] ng (npatch2 ax ay) (position2 ax) FB mB ->
  currents_are (shows_inside zero [ax; ay] [nx; ny] ng (npatch2 ax ay) (position2 ax)) l FJs ->
  history (update_efield2 A nx ny ng dx dy (npatch2 ax ay)) (update_bfield2 A nx ny ng dx dy (npatch2 ax ay))
    (guards_exchanged bounds2 [nx; ny] ng (npatch2 ax ay) (nbr2 ax ay) 3) l (mE, mB) (mE', mB') ->
  forall p i j, (p < npatch2 ax ay)%nat -> interior [nx; ny] [i; j] ->
  place [ax; ay] [nx; ny] (position2 ax p) [i + 1; j] <> None -> place [ax; ay] [nx; ny] (position2 ax p) [i; j + 1] <> None ->
  divB2 A (fun f c => mB' (cell [nx; ny] ng f p c)) dx dy i j = divB2 A (fun f c => mB (cell [nx; ny] ng f p c)) dx dy i j.
Proof.
  intros ax ay nx ny ng dx dy l mE mB mE' mB' FE FB FJs (one & inv & Fth) Hpa Nx Ny Hg Hx Hy E B J H p i j Hp Hi P1 P2.
  pose proof (decomp2 ax ay nx ny ng Hpa Nx Ny Hg Hx Hy) as D.
  assert (P0 : place [ax; ay] [nx; ny] (position2 ax p) [i; j] <> None).
  { rewrite (place_interior [nx; ny] ng bounds2 opp2 (npatch2 ax ay) (d_geo _ _ _ _ _ _ _ _ D) [ax; ay] (position2 ax) Hpa eq_refl (d_grid _ _ _ _ _ _ _ _ D) p [i; j] Hp Hi). discriminate. }
  destruct (history_B zero (SE2 A dx dy) (SB2 A dx dy) [nx; ny] ng bounds2 opp2 (npatch2 ax ay) (nbr2 ax ay) [ax; ay] (position2 ax) D
    (local_SE2 A dx dy) (local_SB2 A dx dy) _ _ (fun dt mB mJ mE => update_efield2_ok A nx ny ng _ dx dy dt mB mJ mE Hg Hx Hy)
    (fun dt mE mB => update_bfield2_ok A nx ny ng _ dx dy dt mE mE mB Hg Hx Hy)
    (fun get => divB2 A get dx dy i j) p l mE mB FE FB (mE', mB') FJs J) as (GE & GB & _ & SG & R); auto.
  - intros dt FO F. apply (divB2_step A zero one inv Fth [nx; ny] ng bounds2 opp2 (npatch2 ax ay) (nbr2 ax ay) [ax; ay] (position2 ax) D dx dy p i j Hp dt FO F eq_refl); auto.
  - cbn [snd] in SG. inversion Hi as [|? ? ? ? Hi1 Hi']; subst. inversion Hi' as [|? ? ? ? Hi2 _]; subst.
    assert (W : forall a b, 0 <= a <= nx -> 0 <= b <= ny -> within ng [nx; ny] [a; b]) by (intros; repeat constructor; lia).
    unfold divB2 in *. rewrite !(SG _ p _) by (auto; apply W; lia). rewrite !(B _ p _) by (auto; apply W; lia). exact R.
Qed.
(** C28, electric part: the divergence of E changes by minus dt/eps0 times the divergence of the current used by each update
    of E, and by nothing else (cells whose backward neighbours lie in the domain). *)
Theorem C28_divE_2d : forall ax ay nx ny ng dx dy l mE mB mE' mB' FE FB FJs,
  is_field A zero -> paired [ax; ay] -> 1 <= ax_n ax -> 1 <= ax_n ay -> 0 < ng -> ng <= nx -> ng <= ny ->
  shows zero [ax; ay] [nx; ny] ng (npatch2 ax ay) (position2 ax) FE mE ->
  shows zero [ax; ay] [nx; ny] ng (npatch2 ax ay) (position2 ax) FB mB ->
  currents_are (shows_inside zero [ax; ay] [nx; ny] ng (npatch2 ax ay) (position2 ax)) l FJs ->
  history (update_efield2 A nx ny ng dx dy (npatch2 ax ay)) (update_bfield2 A nx ny ng dx dy (npatch2 ax ay))
    (guards_exchanged bounds2 [nx; ny] ng (npatch2 ax ay) (nbr2 ax ay) 3) l (mE, mB) (mE', mB') ->
  forall p i j, (p < npatch2 ax ay)%nat -> interior [nx; ny] [i; j] ->
  place [ax; ay] [nx; ny] (position2 ax p) [i - 1; j] <> None -> place [ax; ay] [nx; ny] (position2 ax p) [i; j - 1] <> None ->
  divE2 A (fun f c => mE' (cell [nx; ny] ng f p c)) dx dy i j =
  carried A (combine l (map (fun FJ => divE2 A (shown zero [ax; ay] [nx; ny] (position2 ax) FJ p) dx dy i j) FJs))
    (divE2 A (fun f c => mE (cell [nx; ny] ng f p c)) dx dy i j).
Proof.
  intros ax ay nx ny ng dx dy l mE mB mE' mB' FE FB FJs (one & inv & Fth) Hpa Nx Ny Hg Hx Hy E B J H p i j Hp Hi P1 P2.
  pose proof (decomp2 ax ay nx ny ng Hpa Nx Ny Hg Hx Hy) as D.
  assert (P0 : place [ax; ay] [nx; ny] (position2 ax p) [i; j] <> None).
  { rewrite (place_interior [nx; ny] ng bounds2 opp2 (npatch2 ax ay) (d_geo _ _ _ _ _ _ _ _ D) [ax; ay] (position2 ax) Hpa eq_refl (d_grid _ _ _ _ _ _ _ _ D) p [i; j] Hp Hi). discriminate. }
  destruct (history_E zero A (SE2 A dx dy) (SB2 A dx dy) [nx; ny] ng bounds2 opp2 (npatch2 ax ay) (nbr2 ax ay) [ax; ay] (position2 ax) D
    (local_SE2 A dx dy) (local_SB2 A dx dy) _ _ (fun dt mB mJ mE => update_efield2_ok A nx ny ng _ dx dy dt mB mJ mE Hg Hx Hy)
    (fun dt mE mB => update_bfield2_ok A nx ny ng _ dx dy dt mE mE mB Hg Hx Hy)
    (fun get => divE2 A get dx dy i j) p l mE mB FE FB (mE', mB') FJs J) as (GE & GB & SG & _ & R); auto.
  - intros dt FO FJ F. apply (divE2_step A zero one inv Fth [nx; ny] ng bounds2 opp2 (npatch2 ax ay) (nbr2 ax ay) [ax; ay] (position2 ax) D dx dy p i j Hp dt FO FJ F eq_refl); auto.
  - cbn [fst] in SG. inversion Hi as [|? ? ? ? Hi1 Hi']; subst. inversion Hi' as [|? ? ? ? Hi2 _]; subst.
    assert (W : forall a b, -1 <= a <= nx -> -1 <= b <= ny -> within ng [nx; ny] [a; b]) by (intros; repeat constructor; lia).
    assert (Q : forall F m, shows zero [ax; ay] [nx; ny] ng (npatch2 ax ay) (position2 ax) F m ->
      divE2 A (fun f c => m (cell [nx; ny] ng f p c)) dx dy i j = divE2 A (shown zero [ax; ay] [nx; ny] (position2 ax) F p) dx dy i j).
    { intros F m HF. unfold divE2. rewrite !(HF _ p _) by (auto; apply W; lia). reflexivity. }
    rewrite (Q _ _ SG), (Q _ _ E). exact R.
Qed.
(** Gauss' law is inherited: with rho' the charge density that the continuity equation gives from rho and the same
    currents, eps0 div E - rho keeps its value. *)
Theorem C28_gauss_2d : forall ax ay nx ny ng dx dy l mE mB mE' mB' FE FB FJs,
  eps0 A <> zero -> is_field A zero -> paired [ax; ay] -> 1 <= ax_n ax -> 1 <= ax_n ay -> 0 < ng -> ng <= nx -> ng <= ny ->
  shows zero [ax; ay] [nx; ny] ng (npatch2 ax ay) (position2 ax) FE mE ->
  shows zero [ax; ay] [nx; ny] ng (npatch2 ax ay) (position2 ax) FB mB ->
  currents_are (shows_inside zero [ax; ay] [nx; ny] ng (npatch2 ax ay) (position2 ax)) l FJs ->
  history (update_efield2 A nx ny ng dx dy (npatch2 ax ay)) (update_bfield2 A nx ny ng dx dy (npatch2 ax ay))
    (guards_exchanged bounds2 [nx; ny] ng (npatch2 ax ay) (nbr2 ax ay) 3) l (mE, mB) (mE', mB') ->
  forall p i j rho rho', (p < npatch2 ax ay)%nat -> interior [nx; ny] [i; j] ->
  place [ax; ay] [nx; ny] (position2 ax p) [i - 1; j] <> None -> place [ax; ay] [nx; ny] (position2 ax p) [i; j - 1] <> None ->
  rho' = charge_after A (combine l (map (fun FJ => divE2 A (shown zero [ax; ay] [nx; ny] (position2 ax) FJ p) dx dy i j) FJs)) rho ->
  minus_ A (times_ A (eps0 A) (divE2 A (fun f c => mE' (cell [nx; ny] ng f p c)) dx dy i j)) rho' =
  minus_ A (times_ A (eps0 A) (divE2 A (fun f c => mE (cell [nx; ny] ng f p c)) dx dy i j)) rho.
Proof.
  intros ax ay nx ny ng dx dy l mE mB mE' mB' FE FB FJs He HF Hpa Nx Ny Hg Hx Hy E B J H p i j rho rho' Hp Hi P1 P2 ->.
  rewrite (C28_divE_2d ax ay nx ny ng dx dy l mE mB mE' mB' FE FB FJs HF Hpa Nx Ny Hg Hx Hy E B J H p i j Hp Hi P1 P2).
  destruct HF as (one & inv & Fth). exact (carried_gauss A zero one inv Fth _ He _ rho).
Qed.

Theorem C28_divB_3d : forall ax ay az nx ny nz ng dx dy dz l mE mB mE' mB' FE FB FJs,
  is_field A zero -> paired [ax; ay; az] -> 1 <= ax_n ax -> 1 <= ax_n ay -> 1 <= ax_n az -> 0 < ng -> ng <= nx -> ng <= ny -> ng <= nz ->
  shows zero [ax; ay; az] [nx; ny; nz] ng (npatch3 ax ay az) (position3 ax ay) FE mE ->
  shows zero [ax; ay; az] [nx; ny; nz] ng (npatch3 ax ay az) (position3 ax ay) FB mB ->
  currents_are (shows_inside zero [ax; ay; az] [nx; ny; nz] ng (npatch3 ax ay az) (position3 ax ay)) l FJs ->
  history (update_efield3 A nx ny nz ng dx dy dz (npatch3 ax ay az)) (update_bfield3 A nx ny nz ng dx dy dz (npatch3 ax ay az))
    (guards_exchanged bounds3 [nx; ny; nz] ng (npatch3 ax ay az) (nbr3 ax ay az) 3) l (mE, mB) (mE', mB') ->
  forall p i j k, (p < npatch3 ax ay az)%nat -> interior [nx; ny; nz] [i; j; k] ->
  place [ax; ay; az] [nx; ny; nz] (position3 ax ay p) [i + 1; j; k] <> None -> place [ax; ay; az] [nx; ny; nz] (position3 ax ay p) [i; j + 1; k] <> None -> place [ax; ay; az] [nx; ny; nz] (position3 ax ay p) [i; j; k + 1] <> None ->
  divB3 A (fun f c => mB' (cell [nx; ny; nz] ng f p c)) dx dy dz i j k = divB3 A (fun f c => mB (cell [nx; ny; nz] ng f p c)) dx dy dz i j k.
Proof.
  intros ax ay az nx ny nz ng dx dy dz l mE mB mE' mB' FE FB FJs (one & inv & Fth) Hpa Nx Ny Nz Hg Hx Hy Hz E B J H p i j k Hp Hi P1 P2 P3.
  pose proof (decomp3 ax ay az nx ny nz ng Hpa Nx Ny Nz Hg Hx Hy Hz) as D.
  assert (P0 : place [ax; ay; az] [nx; ny; nz] (position3 ax ay p) [i; j; k] <> None).
  { rewrite (place_interior [nx; ny; nz] ng bounds3 opp3 (npatch3 ax ay az) (d_geo _ _ _ _ _ _ _ _ D) [ax; ay; az] (position3 ax ay) Hpa eq_refl (d_grid _ _ _ _ _ _ _ _ D) p [i; j; k] Hp Hi). discriminate. }
  destruct (history_B zero (SE3 A dx dy dz) (SB3 A dx dy dz) [nx; ny; nz] ng bounds3 opp3 (npatch3 ax ay az) (nbr3 ax ay az) [ax; ay; az] (position3 ax ay) D
    (local_SE3 A dx dy dz) (local_SB3 A dx dy dz) _ _ (fun dt mB mJ mE => update_efield3_ok A nx ny nz ng _ dx dy dz dt mB mJ mE Hg Hx Hy Hz)
    (fun dt mE mB => update_bfield3_ok A nx ny nz ng _ dx dy dz dt mE mE mB Hg Hx Hy Hz)
    (fun get => divB3 A get dx dy dz i j k) p l mE mB FE FB (mE', mB') FJs J) as (GE & GB & _ & SG & R); auto.
  - intros dt FO F. apply (divB3_step A zero one inv Fth [nx; ny; nz] ng bounds3 opp3 (npatch3 ax ay az) (nbr3 ax ay az) [ax; ay; az] (position3 ax ay) D dx dy dz p i j k Hp dt FO F eq_refl); auto.
  - cbn [snd] in SG. inversion Hi as [|? ? ? ? Hi1 Hi']; subst. inversion Hi' as [|? ? ? ? Hi2 Hi'']; subst. inversion Hi'' as [|? ? ? ? Hi3 _]; subst.
    assert (W : forall a b c, -1 <= a <= nx -> -1 <= b <= ny -> -1 <= c <= nz -> within ng [nx; ny; nz] [a; b; c]) by (intros; repeat constructor; lia).
    assert (Q : forall F m, shows zero [ax; ay; az] [nx; ny; nz] ng (npatch3 ax ay az) (position3 ax ay) F m ->
      divB3 A (fun f c => m (cell [nx; ny; nz] ng f p c)) dx dy dz i j k = divB3 A (shown zero [ax; ay; az] [nx; ny; nz] (position3 ax ay) F p) dx dy dz i j k).
    { intros F m HF. unfold divB3. rewrite !(HF _ p _) by (auto; apply W; lia). reflexivity. }
    rewrite (Q _ _ SG), (Q _ _ B). exact R.
Qed.
Theorem C28_divE_3d : forall ax ay az nx ny nz ng dx dy dz l mE mB mE' mB' FE FB FJs,
  is_field A zero -> paired [ax; ay; az] -> 1 <= ax_n ax -> 1 <= ax_n ay -> 1 <= ax_n az -> 0 < ng -> ng <= nx -> ng <= ny -> ng <= nz ->
  shows zero [ax; ay; az] [nx; ny; nz] ng (npatch3 ax ay az) (position3 ax ay) FE mE ->
  shows zero [ax; ay; az] [nx; ny; nz] ng (npatch3 ax ay az) (position3 ax ay) FB mB ->
  currents_are (shows_inside zero [ax; ay; az] [nx; ny; nz] ng (npatch3 ax ay az) (position3 ax ay)) l FJs ->
  history (update_efield3 A nx ny nz ng dx dy dz (npatch3 ax ay az)) (update_bfield3 A nx ny nz ng dx dy dz (npatch3 ax ay az))
    (guards_exchanged bounds3 [nx; ny; nz] ng (npatch3 ax ay az) (nbr3 ax ay az) 3) l (mE, mB) (mE', mB') ->
  forall p i j k, (p < npatch3 ax ay az)%nat -> interior [nx; ny; nz] [i; j; k] ->
  place [ax; ay; az] [nx; ny; nz] (position3 ax ay p) [i - 1; j; k] <> None -> place [ax; ay; az] [nx; ny; nz] (position3 ax ay p) [i; j - 1; k] <> None -> place [ax; ay; az] [nx; ny; nz] (position3 ax ay p) [i; j; k - 1] <> None ->
  divE3 A (fun f c => mE' (cell [nx; ny; nz] ng f p c)) dx dy dz i j k =
  carried A (combine l (map (fun FJ => divE3 A (shown zero [ax; ay; az] [nx; ny; nz] (position3 ax ay) FJ p) dx dy dz i j k) FJs))
    (divE3 A (fun f c => mE (cell [nx; ny; nz] ng f p c)) dx dy dz i j k).
Proof.
  intros ax ay az nx ny nz ng dx dy dz l mE mB mE' mB' FE FB FJs (one & inv & Fth) Hpa Nx Ny Nz Hg Hx Hy Hz E B J H p i j k Hp Hi P1 P2 P3.
  pose proof (decomp3 ax ay az nx ny nz ng Hpa Nx Ny Nz Hg Hx Hy Hz) as D.
  assert (P0 : place [ax; ay; az] [nx; ny; nz] (position3 ax ay p) [i; j; k] <> None).
  { rewrite (place_interior [nx; ny; nz] ng bounds3 opp3 (npatch3 ax ay az) (d_geo _ _ _ _ _ _ _ _ D) [ax; ay; az] (position3 ax ay) Hpa eq_refl (d_grid _ _ _ _ _ _ _ _ D) p [i; j; k] Hp Hi). discriminate. }
  destruct (history_E zero A (SE3 A dx dy dz) (SB3 A dx dy dz) [nx; ny; nz] ng bounds3 opp3 (npatch3 ax ay az) (nbr3 ax ay az) [ax; ay; az] (position3 ax ay) D
    (local_SE3 A dx dy dz) (local_SB3 A dx dy dz) _ _ (fun dt mB mJ mE => update_efield3_ok A nx ny nz ng _ dx dy dz dt mB mJ mE Hg Hx Hy Hz)
    (fun dt mE mB => update_bfield3_ok A nx ny nz ng _ dx dy dz dt mE mE mB Hg Hx Hy Hz)
    (fun get => divE3 A get dx dy dz i j k) p l mE mB FE FB (mE', mB') FJs J) as (GE & GB & SG & _ & R); auto.
  - intros dt FO FJ F. apply (divE3_step A zero one inv Fth [nx; ny; nz] ng bounds3 opp3 (npatch3 ax ay az) (nbr3 ax ay az) [ax; ay; az] (position3 ax ay) D dx dy dz p i j k Hp dt FO FJ F eq_refl); auto.
  - cbn [fst] in SG. inversion Hi as [|? ? ? ? Hi1 Hi']; subst. inversion Hi' as [|? ? ? ? Hi2 Hi'']; subst. inversion Hi'' as [|? ? ? ? Hi3 _]; subst.
    assert (W : forall a b c, -1 <= a <= nx -> -1 <= b <= ny -> -1 <= c <= nz -> within ng [nx; ny; nz] [a; b; c]) by (intros; repeat constructor; lia).
    assert (Q : forall F m, shows zero [ax; ay; az] [nx; ny; nz] ng (npatch3 ax ay az) (position3 ax ay) F m ->
      divE3 A (fun f c => m (cell [nx; ny; nz] ng f p c)) dx dy dz i j k = divE3 A (shown zero [ax; ay; az] [nx; ny; nz] (position3 ax ay) F p) dx dy dz i j k).
    { intros F m HF. unfold divE3. rewrite !(HF _ p _) by (auto; apply W; lia). reflexivity. }
    rewrite (Q _ _ SG), (Q _ _ E). exact R.
Qed.
Theorem C28_gauss_3d : forall ax ay az nx ny nz ng dx dy dz l mE mB mE' mB' FE FB FJs,
  eps0 A <> zero -> is_field A zero -> paired [ax; ay; az] -> 1 <= ax_n ax -> 1 <= ax_n ay -> 1 <= ax_n az -> 0 < ng -> ng <= nx -> ng <= ny -> ng <= nz ->
  shows zero [ax; ay; az] [nx; ny; nz] ng (npatch3 ax ay az) (position3 ax ay) FE mE ->
  shows zero [ax; ay; az] [nx; ny; nz] ng (npatch3 ax ay az) (position3 ax ay) FB mB ->
  currents_are (shows_inside zero [ax; ay; az] [nx; ny; nz] ng (npatch3 ax ay az) (position3 ax ay)) l FJs ->
  history (update_efield3 A nx ny nz ng dx dy dz (npatch3 ax ay az)) (update_bfield3 A nx ny nz ng dx dy dz (npatch3 ax ay az))
    (guards_exchanged bounds3 [nx; ny; nz] ng (npatch3 ax ay az) (nbr3 ax ay az) 3) l (mE, mB) (mE', mB') ->
  forall p i j k rho rho', (p < npatch3 ax ay az)%nat -> interior [nx; ny; nz] [i; j; k] ->
  place [ax; ay; az] [nx; ny; nz] (position3 ax ay p) [i - 1; j; k] <> None -> place [ax; ay; az] [nx; ny; nz] (position3 ax ay p) [i; j - 1; k] <> None -> place [ax; ay; az] [nx; ny; nz] (position3 ax ay p) [i; j; k - 1] <> None ->
  rho' = charge_after A (combine l (map (fun FJ => divE3 A (shown zero [ax; ay; az] [nx; ny; nz] (position3 ax ay) FJ p) dx dy dz i j k) FJs)) rho ->
  minus_ A (times_ A (eps0 A) (divE3 A (fun f c => mE' (cell [nx; ny; nz] ng f p c)) dx dy dz i j k)) rho' =
  minus_ A (times_ A (eps0 A) (divE3 A (fun f c => mE (cell [nx; ny; nz] ng f p c)) dx dy dz i j k)) rho.
Proof.
  intros ax ay az nx ny nz ng dx dy dz l mE mB mE' mB' FE FB FJs He HF Hpa Nx Ny Nz Hg Hx Hy Hz E B J H p i j k rho rho' Hp Hi P1 P2 P3 ->.
  rewrite (C28_divE_3d ax ay az nx ny nz ng dx dy dz l mE mB mE' mB' FE FB FJs HF Hpa Nx Ny Nz Hg Hx Hy Hz E B J H p i j k Hp Hi P1 P2 P3).
  destruct HF as (one & inv & Fth). exact (carried_gauss A zero one inv Fth _ He _ rho).
Qed.

(** C59: cut one grid into patches in two ways, start both from the same fields of the whole grid, perform the same
    updates with the same currents: whatever the operations on numbers do (floating point included), both runs show the
    same fields of the whole grid, guard cells included. *)
Theorem C59_same_fields_2d : forall ax ay nx ny ng ax' ay' nx' ny' ng' dx dy l l' mE mB mE' mB' FE FB s s',
  paired [ax; ay] -> 1 <= ax_n ax -> 1 <= ax_n ay -> 0 < ng -> ng <= nx -> ng <= ny ->
  paired [ax'; ay'] -> 1 <= ax_n ax' -> 1 <= ax_n ay' -> 0 < ng' -> ng' <= nx' -> ng' <= ny' ->
  same_grid [ax; ay] [nx; ny] [ax'; ay'] [nx'; ny'] ->
  Forall2 (same_op (shows_inside zero [ax; ay] [nx; ny] ng (npatch2 ax ay) (position2 ax)) (shows_inside zero [ax'; ay'] [nx'; ny'] ng' (npatch2 ax' ay') (position2 ax'))) l l' ->
  shows zero [ax; ay] [nx; ny] ng (npatch2 ax ay) (position2 ax) FE mE -> shows zero [ax; ay] [nx; ny] ng (npatch2 ax ay) (position2 ax) FB mB ->
  shows zero [ax'; ay'] [nx'; ny'] ng' (npatch2 ax' ay') (position2 ax') FE mE' -> shows zero [ax'; ay'] [nx'; ny'] ng' (npatch2 ax' ay') (position2 ax') FB mB' ->
  history (update_efield2 A nx ny ng dx dy (npatch2 ax ay)) (update_bfield2 A nx ny ng dx dy (npatch2 ax ay))
    (guards_exchanged bounds2 [nx; ny] ng (npatch2 ax ay) (nbr2 ax ay) 3) l (mE, mB) s ->
  history (update_efield2 A nx' ny' ng' dx dy (npatch2 ax' ay')) (update_bfield2 A nx' ny' ng' dx dy (npatch2 ax' ay'))
    (guards_exchanged bounds2 [nx'; ny'] ng' (npatch2 ax' ay') (nbr2 ax' ay') 3) l' (mE', mB') s' ->
  exists GE GB,
    shows zero [ax; ay] [nx; ny] ng (npatch2 ax ay) (position2 ax) GE (fst s) /\ shows zero [ax; ay] [nx; ny] ng (npatch2 ax ay) (position2 ax) GB (snd s) /\
    shows zero [ax'; ay'] [nx'; ny'] ng' (npatch2 ax' ay') (position2 ax') GE (fst s') /\ shows zero [ax'; ay'] [nx'; ny'] ng' (npatch2 ax' ay') (position2 ax') GB (snd s').
Proof.
  intros ax ay nx ny ng ax' ay' nx' ny' ng' dx dy l l' mE mB mE' mB' FE FB s s' Hpa Nx Ny Hg Hx Hy Hpa' Nx' Ny' Hg' Hx' Hy' HS HO E B E' B' H H'.
  exact (history_same zero (SE2 A dx dy) (SB2 A dx dy) _ _ _ _ _ _ _ _ _ _ _ _ _ _ _ _
    (decomp2 ax ay nx ny ng Hpa Nx Ny Hg Hx Hy) (decomp2 ax' ay' nx' ny' ng' Hpa' Nx' Ny' Hg' Hx' Hy') eq_refl HS (local_SE2 A dx dy) (local_SB2 A dx dy) _ _ _ _
    (fun dt mB mJ mE => update_efield2_ok A nx ny ng _ dx dy dt mB mJ mE Hg Hx Hy) (fun dt mB mJ mE => update_efield2_ok A nx' ny' ng' _ dx dy dt mB mJ mE Hg' Hx' Hy')
    (fun dt mE mB => update_bfield2_ok A nx ny ng _ dx dy dt mE mE mB Hg Hx Hy) (fun dt mE mB => update_bfield2_ok A nx' ny' ng' _ dx dy dt mE mE mB Hg' Hx' Hy')
    l l' mE mB mE' mB' FE FB s s' HO E B E' B' H H').
Qed.
Theorem C59_same_fields_3d : forall ax ay az nx ny nz ng ax' ay' az' nx' ny' nz' ng' dx dy dz l l' mE mB mE' mB' FE FB s s',
  paired [ax; ay; az] -> 1 <= ax_n ax -> 1 <= ax_n ay -> 1 <= ax_n az -> 0 < ng -> ng <= nx -> ng <= ny -> ng <= nz ->
  paired [ax'; ay'; az'] -> 1 <= ax_n ax' -> 1 <= ax_n ay' -> 1 <= ax_n az' -> 0 < ng' -> ng' <= nx' -> ng' <= ny' -> ng' <= nz' ->
  same_grid [ax; ay; az] [nx; ny; nz] [ax'; ay'; az'] [nx'; ny'; nz'] ->
  Forall2 (same_op (shows_inside zero [ax; ay; az] [nx; ny; nz] ng (npatch3 ax ay az) (position3 ax ay))
                   (shows_inside zero [ax'; ay'; az'] [nx'; ny'; nz'] ng' (npatch3 ax' ay' az') (position3 ax' ay'))) l l' ->
  shows zero [ax; ay; az] [nx; ny; nz] ng (npatch3 ax ay az) (position3 ax ay) FE mE -> shows zero [ax; ay; az] [nx; ny; nz] ng (npatch3 ax ay az) (position3 ax ay) FB mB ->
  shows zero [ax'; ay'; az'] [nx'; ny'; nz'] ng' (npatch3 ax' ay' az') (position3 ax' ay') FE mE' -> shows zero [ax'; ay'; az'] [nx'; ny'; nz'] ng' (npatch3 ax' ay' az') (position3 ax' ay') FB mB' ->
  history (update_efield3 A nx ny nz ng dx dy dz (npatch3 ax ay az)) (update_bfield3 A nx ny nz ng dx dy dz (npatch3 ax ay az))
    (guards_exchanged bounds3 [nx; ny; nz] ng (npatch3 ax ay az) (nbr3 ax ay az) 3) l (mE, mB) s ->
  history (update_efield3 A nx' ny' nz' ng' dx dy dz (npatch3 ax' ay' az')) (update_bfield3 A nx' ny' nz' ng' dx dy dz (npatch3 ax' ay' az'))
    (guards_exchanged bounds3 [nx'; ny'; nz'] ng' (npatch3 ax' ay' az') (nbr3 ax' ay' az') 3) l' (mE', mB') s' ->
  exists GE GB,
    shows zero [ax; ay; az] [nx; ny; nz] ng (npatch3 ax ay az) (position3 ax ay) GE (fst s) /\ shows zero [ax; ay; az] [nx; ny; nz] ng (npatch3 ax ay az) (position3 ax ay) GB (snd s) /\
    shows zero [ax'; ay'; az'] [nx'; ny'; nz'] ng' (npatch3 ax' ay' az') (position3 ax' ay') GE (fst s') /\ shows zero [ax'; ay'; az'] [nx'; ny'; nz'] ng' (npatch3 ax' ay' az') (position3 ax' ay') GB (snd s').
Proof.
  intros ax ay az nx ny nz ng ax' ay' az' nx' ny' nz' ng' dx dy dz l l' mE mB mE' mB' FE FB s s' Hpa Nx Ny Nz Hg Hx Hy Hz Hpa' Nx' Ny' Nz' Hg' Hx' Hy' Hz' HS HO E B E' B' H H'.
  exact (history_same zero (SE3 A dx dy dz) (SB3 A dx dy dz) _ _ _ _ _ _ _ _ _ _ _ _ _ _ _ _
    (decomp3 ax ay az nx ny nz ng Hpa Nx Ny Nz Hg Hx Hy Hz) (decomp3 ax' ay' az' nx' ny' nz' ng' Hpa' Nx' Ny' Nz' Hg' Hx' Hy' Hz') eq_refl HS (local_SE3 A dx dy dz) (local_SB3 A dx dy dz) _ _ _ _
    (fun dt mB mJ mE => update_efield3_ok A nx ny nz ng _ dx dy dz dt mB mJ mE Hg Hx Hy Hz) (fun dt mB mJ mE => update_efield3_ok A nx' ny' nz' ng' _ dx dy dz dt mB mJ mE Hg' Hx' Hy' Hz')
    (fun dt mE mB => update_bfield3_ok A nx ny nz ng _ dx dy dz dt mE mE mB Hg Hx Hy Hz) (fun dt mE mB => update_bfield3_ok A nx' ny' nz' ng' _ dx dy dz dt mE mE mB Hg' Hx' Hy' Hz')
    l l' mE mB mE' mB' FE FB s s' HO E B E' B' H H').
Qed.
End Any.

(** a current of 0, 1, 2, ... along x on a periodic grid of 2 x 1 patches of 3 x 3 cells: after one update of E (dt = 1)
    div E at cell (1, 1) is -1 *)
Definition demoA : arith Qc := {| plus_ := Qcplus; minus_ := Qcminus; times_ := Qcmult; over_ := Qcdiv; minus1_ := Qcopp; csq := 1%Qc; eps0 := 1%Qc |}.
Definition demo_x : axis := mkAxis 2 Periodic Periodic.
Definition demo_y : axis := mkAxis 1 Periodic Periodic.
Definition demo_J : addr -> Qc := fun a => match a with Fld 0 p o => Q2Qc (inject_Z (3 * Z.of_nat p + o / 9)) | _ => 0%Qc end.
Definition demo_FJ (f : nat) (g : list Z) : Qc := match f, g with 0%nat, [x; _] => Q2Qc (inject_Z x) | _, _ => 0%Qc end.
Definition demo_0 : addr -> Qc := fun _ => 0%Qc.
Definition demo_F0 (f : nat) (g : list Z) : Qc := 0%Qc.
Example C28_example : exists mE' mB',
  history (update_efield2 demoA 3 3 3 1%Qc 1%Qc (npatch2 demo_x demo_y)) (update_bfield2 demoA 3 3 3 1%Qc 1%Qc (npatch2 demo_x demo_y))
    (guards_exchanged bounds2 [3; 3] 3 (npatch2 demo_x demo_y) (nbr2 demo_x demo_y) 3) [UpE 1%Qc demo_J] (demo_0, demo_0) (mE', mB') /\
  divE2 demoA (fun f c => mE' (cell [3; 3] 3 f 0 c)) 1%Qc 1%Qc 1 1 = (-(1))%Qc.
Proof.
  destruct (C28_histories_exist_2d demoA 0%Qc demo_x demo_y 3 3 3 1%Qc 1%Qc ltac:(lia) ltac:(lia) ltac:(lia) [UpE 1%Qc demo_J] (demo_0, demo_0)) as [[mE' mB'] H].
  exists mE', mB'. split; [exact H|].
  assert (Z0 : shows 0%Qc [demo_x; demo_y] [3; 3] 3 (npatch2 demo_x demo_y) (position2 demo_x) demo_F0 demo_0).
  { intros f p c _ _ _. unfold shown, demo_0, demo_F0. destruct (place _ _ _ _); reflexivity. }
  rewrite (C28_divE_2d demoA 0%Qc demo_x demo_y 3 3 3 1%Qc 1%Qc [UpE 1%Qc demo_J] demo_0 demo_0 mE' mB' demo_F0 demo_F0 [demo_FJ]); auto; try lia; try (cbn; lia).
  - exists 1%Qc, Qcinv. exact Qcft.
  - repeat constructor.
  - constructor; [|constructor]. intros f p c Hf Hp Hc. change (npatch2 demo_x demo_y) with 2%nat in Hp.
    inversion Hc as [|? i ? t Hi Ht]; subst. inversion Ht as [|? j ? t' Hj Ht']; subst. inversion Ht'; subst.
    assert (Ei : i = 0 \/ i = 1 \/ i = 2) by lia. assert (Ej : j = 0 \/ j = 1 \/ j = 2) by lia. clear Hc Hi Hj Ht Ht'.
    destruct f as [|[|[|f]]]; [| | |lia]; (destruct p as [|[|p]]; [| |lia]);
      destruct Ei as [->|[->| ->]]; destruct Ej as [->|[->| ->]]; vm_compute; reflexivity.
  - repeat constructor; lia.
  - vm_compute. discriminate.
  - vm_compute. discriminate.
Qed.

Print Assumptions C28_divB_2d.
Print Assumptions C28_divE_2d.
Print Assumptions C28_gauss_2d.
Print Assumptions C28_divB_3d.
Print Assumptions C28_divE_3d.
Print Assumptions C28_gauss_3d.
Print Assumptions C28_histories_exist_2d.
Print Assumptions C59_same_fields_2d.
Print Assumptions C59_same_fields_3d.
