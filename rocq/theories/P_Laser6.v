(** The laser stage seen from the whole grid (two dimensions). *)
From Coq Require Import QArith Field_theory Field.
From Verif Require Import Base M_Layout S_Layout M_PartSync S_PartSync M_FieldSync S_FieldSync M_Maxwell S_Maxwell M_Cpml S_Cpml M_Deposit M_Push M_Laser S_Laser.
From Verif Require Import P_Layout P_PartSync P_PartSync2 P_PartSync3 P_Threads P_FieldGeo P_FieldPar P_FieldSync P_FieldSync2 P_FieldSync3 P_FieldSync4 P_FieldSync5 P_AutoPatch P_Maxwell P_Maxwell2 P_Maxwell3 P_Cpml P_Cpml2 P_Cpml3 P_Cpml4 P_Cpml5 P_Laser P_Laser2 P_Laser3 P_Laser4.
Local Open Scope list_scope.
Local Open Scope Z_scope.

Section Two.
Context {V : Type} (A : arith V) (K : layer V) (cl zero : V).
Local Notation th := (thick K).
Local Notation lp := (thick K + 2).
(** the value at (x, y) of a field of the whole grid, zero beyond an open end *)
Definition at2 (ax ay : axis) (nx ny : Z) (F : nat -> list Z -> V) (f : nat) (x y : Z) : V :=
  match place [ax; ay] [nx; ny] (zeros [nx; ny]) [x; y] with Some h => F f h | None => zero end.
Definition rows2 (ay : axis) (ny : Z) (y : Z) : bool := negb (bc_eqb (ax_lo ay) Pml) || (th <=? y) && (y <? ax_n ay * ny - th).
Definition grid_inject2 (ax ay : axis) (nx ny : Z) (dx dy : V) (qdy : Q) (l : laser (V := V)) (time : Q) (dt : V) (FE FJ FB : nat -> list Z -> V) (f : nat) (g : list Z) : V :=
  match g with
  | [x; y] =>
    if (x =? lp - 1) && rows2 ay ny y then
      let E := at2 ax ay nx ny FE in let Jc := at2 ax ay nx ny FJ in let B := at2 ax ay nx ny FB in
      let wy := requested_y A zero (inject_Z (ax_n ay * ny) * qdy) 0 qdy 0 false time l (inject_Z y * qdy) 0 in
      let wz := requested_z A zero (inject_Z (ax_n ay * ny) * qdy) 0 qdy 0 false time l (inject_Z y * qdy) 0 in
      match f with
      | 0%nat => B 0%nat 0 y
      | 1%nat => by_at A K cl dx dy dt wz (E 2%nat 0 y) (B 1%nat 0 y) (B 1%nat (-1) y) (E 2%nat lp y) (B 0%nat lp y) (B 0%nat lp (y - 1)) (Jc 2%nat lp y) (B 1%nat lp y)
      | _ => bz2 A K cl dx dt wy (E 1%nat 0 y) (B 2%nat 0 y) (B 2%nat (-1) y) (E 1%nat lp y) (Jc 1%nat lp y) (B 2%nat lp y)
      end
    else FB f g
  | _ => FB f g
  end.
Lemma grid_inject2_ext ax ay nx ny ax' ay' nx' ny' dx dy qdy l time dt FE FJ FB : same_grid [ax; ay] [nx; ny] [ax'; ay'] [nx'; ny'] ->
  forall f g, grid_inject2 ax ay nx ny dx dy qdy l time dt FE FJ FB f g = grid_inject2 ax' ay' nx' ny' dx dy qdy l time dt FE FJ FB f g.
Proof.
  intros HS f g. unfold grid_inject2. destruct g as [|x [|y [|? ?]]]; auto.
  assert (E : forall F h i j, at2 ax ay nx ny F h i j = at2 ax' ay' nx' ny' F h i j) by (intros; unfold at2; now rewrite (same_grid_place _ _ _ _ HS)).
  unfold same_grid in HS. cbn in HS. inversion HS as [|? ? ? ? _ HS']; subst. inversion HS' as [|? ? ? ? [E1 E2] _]; subst. cbn [fst snd] in E1, E2.
  unfold rows2. rewrite E1, E2, !E. reflexivity.
Qed.

Variables (ax ay : axis) (nx ny ng : Z) (dx dy : V) (qdy : Q) (pmls : nat -> list pml_side).
Variables (nproc : nat) (rank : nat -> nat) (l : laser (V := V)) (time : Q) (dt : V) (mE mJ : memory V).
Local Notation n := (npatch2 ax ay).
Local Notation st dis mB := (laser_stage_2d A K cl ax ay nx ny ng dx dy qdy pmls nproc rank l time dt mE mJ (dis, mB)).
Local Notation ce f p i j := (cell [nx; ny] ng f p [i; j]).
Hypothesis Hpa : paired [ax; ay].
Hypothesis Nx : 1 <= ax_n ax.
Hypothesis Ny : 1 <= ax_n ay.
Hypothesis HL : layers2 ax ay nx ny (thick K) pmls.
Hypothesis Hg : 0 < ng.
Hypothesis Hx : ng <= nx.
Hypothesis Hy : ng <= ny.
Hypothesis Hth : 0 <= thick K.
Hypothesis Hty : ax_lo ay = Pml -> thick K <= ny.
Hypothesis Hfit : thick K + 3 <= nx.
Hypothesis HP : ax_lo ax = Pml.
Hypothesis HR : running time l.
Hypothesis HC : centred l.
Hypothesis Hm : monoid zero (plus_ A).
Local Notation sh := (shows zero [ax; ay] [nx; ny] ng n (position2 ax)).
Lemma shown_at2 F p f i j : (p < n)%nat -> shown zero [ax; ay] [nx; ny] (position2 ax) F p f [i; j] = at2 ax ay nx ny F f (Z.of_nat p mod ax_n ax * nx + i) (Z.of_nat p / ax_n ax * ny + j).
Proof using. intro Hp. unfold shown, at2. rewrite place_flat by reflexivity. reflexivity. Qed.
Lemma rows2_ok p j : (p < n)%nat -> 0 <= j < ny -> rows2 ay ny (Z.of_nat p / ax_n ax * ny + j) = true <-> row_in K ny pmls p j.
Proof using Hpa Nx Ny HL Hth Hty.
  intros Hp Hj. unfold row_in. rewrite (ymin_in K ax ay nx ny pmls Hpa HL p Hp), (ymax_in K ax ay nx ny pmls Hpa HL p Hp).
  pose proof (hgrid2 ax ay Nx Ny p Hp) as Hgr. unfold in_grid, position2 in Hgr. inversion Hgr as [|? ? ? ? _ Hgr']; subst. inversion Hgr' as [|? ? ? ? Hpy _]; subst. clear Hgr Hgr'. set (py := Z.of_nat p / ax_n ax) in * . clearbody py. clear - Hpy Hj Hth Hty Ny.
  unfold rows2. destruct (bc_eqb (ax_lo ay) Pml) eqn:E; [apply bc_eqb_eq in E|]; cbn [negb orb].
  - specialize (Hty E). rewrite andb_true_iff, Z.leb_le, Z.ltb_lt. split.
    + intros [H1 H2]. split; [exact Hj|]. split; intros [_ ->]; nia.
    + intros (_ & H1 & H2). split; [destruct (Z.eq_dec py 0) as [->|]; [specialize (H1 (conj E eq_refl)); lia|nia]|]. destruct (Z.eq_dec py (ax_n ay - 1)) as [->|]; [specialize (H2 (conj E eq_refl)); nia|nia].
  - assert (N : ax_lo ay <> Pml) by (intro X; apply bc_eqb_eq in X; congruence). split; auto. intros _. split; [exact Hj|]. split; intros [X _]; contradiction.
Qed.
Theorem stage2_shows dis mB mB2 FE FJ FB : (forall p, (p < n)%nat -> (rank p < nproc)%nat) -> (forall p, (p < n)%nat -> dis (rank p) = false) ->
  sh FE mE -> shows_inside zero [ax; ay] [nx; ny] ng n (position2 ax) FJ mJ -> sh FB mB ->
  guards_exchanged bounds2 [nx; ny] ng n (nbr2 ax ay) 3 (snd (st dis mB)) mB2 ->
  sh (grid_inject2 ax ay nx ny dx dy qdy l time dt FE FJ FB) mB2.
Proof using Hpa Nx Ny HL Hg Hx Hy Hth Hty Hfit HP HR HC Hm.
  intros Hr Hd SE SJ SB [GX _]. pose proof (decomp2 ax ay nx ny ng Hpa Nx Ny Hg Hx Hy) as [G H1 H2 H3 H4 H5 H6].
  assert (Hlp : thick K + 2 < nx + ng) by lia.
  intros f p c Hf Hp Hc. rewrite (GX f p c Hf Hp Hc).
  rewrite (guard_global [nx; ny] ng bounds2 opp2 n G (nbr2 ax ay) [ax; ay] (position2 ax) H1 H2 H3 H4 H5 H6 _ (grid_inject2 ax ay nx ny dx dy qdy l time dt FE FJ FB) f); [|clear p c Hp Hc|exact Hp|exact Hc].
  - unfold shown. destruct (place [ax; ay] [nx; ny] (position2 ax p) c) as [g|] eqn:E; [reflexivity|].
    rewrite (stage2_frame A K cl zero ax ay nx ny ng dx dy qdy pmls nproc rank l time dt mE mJ Hpa HL Hg Hx Hy Hth Hlp HP HR HC Hm).
    + rewrite (SB f p c Hf Hp Hc). unfold shown. now rewrite E.
    + intros q f' j Hq _ Hf' (Hj & _) Ec. assert (Hi : interior [nx; ny] [lp - 1; j]) by (repeat constructor; lia).
      apply (cell_inj [nx; ny] ng bounds2 opp2 G) in Ec as (-> & -> & ->); [|exact Hc|apply interior_within; [lia|exact Hi]].
      rewrite (place_interior [nx; ny] ng bounds2 opp2 n G [ax; ay] (position2 ax) H1 H2 H3 q _ Hp Hi) in E. discriminate.
  - intros p c g Hp Hc E. pose proof Hc as Hc0. rewrite (place_interior [nx; ny] ng bounds2 opp2 n G [ax; ay] (position2 ax) H1 H2 H3 p c Hp Hc) in E. inversion E; subst g. clear E.
    inversion Hc as [|? i ? t Hi Ht]; subst. inversion Ht as [|? j ? t' Hj Ht']; subst. inversion Ht'; subst. clear Hc Ht Ht'. cbn [flat position2].
    pose proof (hgrid2 ax ay Nx Ny p Hp) as Hgr. unfold in_grid, position2 in Hgr. inversion Hgr as [|? ? ? ? Hpx _]; subst. clear Hgr.
    unfold grid_inject2. destruct ((Z.of_nat p mod ax_n ax * nx + i =? lp - 1) && rows2 ay ny (Z.of_nat p / ax_n ax * ny + j)) eqn:B.
    + apply andb_true_iff in B as [B1 B2]. apply Z.eqb_eq in B1. apply (rows2_ok p j Hp Hj) in B2.
      assert (P0 : Z.of_nat p mod ax_n ax = 0) by (clear - Hpx Hi B1 Hfit Hth; nia). assert (i = lp - 1) as -> by (rewrite P0 in B1; lia).
      destruct (stage2_left A K cl zero ax ay nx ny ng dx dy qdy pmls nproc rank l time dt mE mJ Hpa HL Hg Hx Hy Hth Hlp HP HR HC Hm dis mB p Hp (Hr p Hp) (Hd p Hp) P0) as (V0 & V2 & V1 & _).
      assert (RE : forall g i, (g < 3)%nat -> -1 <= i < nx -> mE (ce g p i j) = at2 ax ay nx ny FE g i (Z.of_nat p / ax_n ax * ny + j)).
      { intros g i Hg' Hi'. rewrite (SE g p [i; j] Hg' Hp) by (repeat constructor; lia). rewrite shown_at2 by exact Hp. rewrite P0. reflexivity. }
      assert (RB : forall g i j', (g < 3)%nat -> -1 <= i < nx -> -1 <= j' < ny -> mB (ce g p i j') = at2 ax ay nx ny FB g i (Z.of_nat p / ax_n ax * ny + j')).
      { intros g i j' Hg' Hi' Hj'. rewrite (SB g p [i; j'] Hg' Hp) by (repeat constructor; lia). rewrite shown_at2 by exact Hp. rewrite P0. reflexivity. }
      assert (RJ : forall g i, (g < 3)%nat -> 0 <= i < nx -> mJ (ce g p i j) = at2 ax ay nx ny FJ g i (Z.of_nat p / ax_n ax * ny + j)).
      { intros g i Hg' Hi'. rewrite (SJ g p [i; j] Hg' Hp) by (repeat constructor; lia). rewrite shown_at2 by exact Hp. rewrite P0. reflexivity. }
      cbv zeta. destruct f as [|[|[|f]]]; [| | |lia].
      * rewrite V0 by exact B2. apply RB; lia.
      * rewrite V1 by exact B2. rewrite !RE, !RB, !RJ by lia. replace (Z.of_nat p / ax_n ax * ny + (j - 1)) with (Z.of_nat p / ax_n ax * ny + j - 1) by lia. reflexivity.
      * rewrite V2 by exact B2. rewrite !RE, !RB, !RJ by lia. reflexivity.
    + rewrite (stage2_frame A K cl zero ax ay nx ny ng dx dy qdy pmls nproc rank l time dt mE mJ Hpa HL Hg Hx Hy Hth Hlp HP HR HC Hm).
      * rewrite (SB f p [i; j] Hf Hp) by (repeat constructor; lia). unfold shown. now rewrite (place_interior [nx; ny] ng bounds2 opp2 n G [ax; ay] (position2 ax) H1 H2 H3 p _ Hp Hc0).
      * intros q f' j' Hq Hq0 Hf' Hrow Ec. pose proof Hrow as (Hj' & _). apply (ce_inj nx ny ng Hg Hx Hy) in Ec as (-> & -> & -> & ->); try lia.
        rewrite Hq0 in B. apply (rows2_ok q j' Hp Hj') in Hrow. rewrite Hrow in B. rewrite Z.mul_0_l, Z.add_0_l, Z.eqb_refl in B. discriminate.
Qed.
End Two.
