(** The laser stage seen from the whole grid (three dimensions). *)
From Coq Require Import QArith Field_theory Field.
From Verif Require Import Base M_Layout S_Layout M_PartSync S_PartSync M_FieldSync S_FieldSync M_Maxwell S_Maxwell M_Cpml S_Cpml M_Deposit M_Push M_Laser S_Laser.
From Verif Require Import P_Layout P_PartSync P_PartSync2 P_PartSync3 P_Threads P_FieldGeo P_FieldPar P_FieldSync P_FieldSync2 P_FieldSync3 P_FieldSync4 P_FieldSync5 P_AutoPatch P_Maxwell P_Maxwell2 P_Maxwell3 P_Cpml P_Cpml2 P_Cpml3 P_Cpml4 P_Cpml5 P_Laser P_Laser2 P_Laser3 P_Laser4 P_Laser5 P_Laser6.
Local Open Scope list_scope.
Local Open Scope Z_scope.

Section Three.
Context {V : Type} (A : arith V) (K : layer V) (cl zero : V).
Local Notation th := (thick K).
Local Notation lp := (thick K + 2).
Definition at3 (ax ay az : axis) (nx ny nz : Z) (F : nat -> list Z -> V) (f : nat) (x y z : Z) : V :=
  match place [ax; ay; az] [nx; ny; nz] (zeros [nx; ny; nz]) [x; y; z] with Some h => F f h | None => zero end.
Definition grid_inject3 (ax ay az : axis) (nx ny nz : Z) (dx dy dz : V) (qdy qdz : Q) (l : laser (V := V)) (time : Q) (dt : V) (FE FJ FB : nat -> list Z -> V) (f : nat) (g : list Z) : V :=
  match g with
  | [x; y; z] =>
    if (x =? lp - 1) && rows2 K ay ny y then
      let E := at3 ax ay az nx ny nz FE in let Jc := at3 ax ay az nx ny nz FJ in let B := at3 ax ay az nx ny nz FB in
      let Ly := (inject_Z (ax_n ay * ny) * qdy)%Q in let Lz := (inject_Z (ax_n az * nz) * qdz)%Q in
      let wy := requested_y A zero Ly Lz qdy qdz true time l (inject_Z y * qdy) (inject_Z z * qdz) in
      let wz := requested_z A zero Ly Lz qdy qdz true time l (inject_Z y * qdy) (inject_Z z * qdz) in
      match f with
      | 0%nat => B 0%nat 0 y z
      | 1%nat => if rows2 K az nz z then by_at A K cl dx dy dt wz (E 2%nat 0 y z) (B 1%nat 0 y z) (B 1%nat (-1) y z) (E 2%nat lp y z) (B 0%nat lp y z) (B 0%nat lp (y - 1) z) (Jc 2%nat lp y z) (B 1%nat lp y z) else FB f g
      | _ => if rows2 K az nz z then bz3 A K cl dx dz dt wy (E 1%nat 0 y z) (B 2%nat 0 y z) (B 2%nat (-1) y z) (E 1%nat lp y z) (B 0%nat lp y z) (B 0%nat lp y (z - 1)) (Jc 1%nat lp y z) (B 2%nat lp y z) else FB f g
      end
    else FB f g
  | _ => FB f g
  end.
Lemma grid_inject3_ext ax ay az nx ny nz ax' ay' az' nx' ny' nz' dx dy dz qdy qdz l time dt FE FJ FB : same_grid [ax; ay; az] [nx; ny; nz] [ax'; ay'; az'] [nx'; ny'; nz'] ->
  forall f g, grid_inject3 ax ay az nx ny nz dx dy dz qdy qdz l time dt FE FJ FB f g = grid_inject3 ax' ay' az' nx' ny' nz' dx dy dz qdy qdz l time dt FE FJ FB f g.
Proof.
  intros HS f g. unfold grid_inject3. destruct g as [|x [|y [|z [|? ?]]]]; auto.
  assert (E : forall F h i j k, at3 ax ay az nx ny nz F h i j k = at3 ax' ay' az' nx' ny' nz' F h i j k) by (intros; unfold at3; now rewrite (same_grid_place _ _ _ _ HS)).
  unfold same_grid in HS. cbn in HS. inversion HS as [|? ? ? ? _ HS']; subst. inversion HS' as [|? ? ? ? [E1 E2] HS'']; subst. inversion HS'' as [|? ? ? ? [E3 E4] _]; subst. cbn [fst snd] in E1, E2, E3, E4.
  unfold rows2. rewrite E1, E2, E3, E4, !E. reflexivity.
Qed.

Variables (ax ay az : axis) (nx ny nz ng : Z) (dx dy dz : V) (qdy qdz : Q) (pmls : nat -> list pml_side).
Variables (nproc : nat) (rank : nat -> nat) (l : laser (V := V)) (time : Q) (dt : V) (mE mJ : memory V).
Local Notation n := (npatch3 ax ay az).
Local Notation st dis mB := (laser_stage_3d A K cl ax ay az nx ny nz ng dx dy dz qdy qdz pmls nproc rank l time dt mE mJ (dis, mB)).
Local Notation ce f p i j k := (cell [nx; ny; nz] ng f p [i; j; k]).
Hypothesis Hpa : paired [ax; ay; az].
Hypothesis Nx : 1 <= ax_n ax.
Hypothesis Ny : 1 <= ax_n ay.
Hypothesis Nz : 1 <= ax_n az.
Hypothesis HL : layers3 ax ay az nx ny (thick K) pmls.
Hypothesis Hg : 0 < ng.
Hypothesis Hx : ng <= nx.
Hypothesis Hy : ng <= ny.
Hypothesis Hz : ng <= nz.
Hypothesis Hth : 0 <= thick K.
Hypothesis Hty : ax_lo ay = Pml -> thick K <= ny.
Hypothesis Htz : ax_lo az = Pml -> thick K <= nz.
Hypothesis Hfit : thick K + 3 <= nx.
Hypothesis HP : ax_lo ax = Pml.
Hypothesis HR : running time l.
Hypothesis HC : centred l.
Hypothesis Hm : monoid zero (plus_ A).
Local Notation sh := (shows zero [ax; ay; az] [nx; ny; nz] ng n (position3 ax ay)).
Local Notation py p := (Z.of_nat p / ax_n ax mod ax_n ay).
Local Notation pz p := (Z.of_nat p / ax_n ax / ax_n ay).
Lemma shown_at3 F p f i j k : (p < n)%nat -> shown zero [ax; ay; az] [nx; ny; nz] (position3 ax ay) F p f [i; j; k] = at3 ax ay az nx ny nz F f (Z.of_nat p mod ax_n ax * nx + i) (py p * ny + j) (pz p * nz + k).
Proof using. intro Hp. unfold shown, at3. rewrite place_flat by reflexivity. reflexivity. Qed.
Lemma rows_core (a : axis) (na i j : Z) (lo hi : Prop) : 0 <= i < ax_n a -> 0 <= thick K -> (ax_lo a = Pml -> thick K <= na) -> 0 <= j < na ->
  (lo <-> ax_lo a = Pml /\ i = 0) -> (hi <-> ax_lo a = Pml /\ i = ax_n a - 1) ->
  rows2 K a na (i * na + j) = true <-> 0 <= j < na /\ (lo -> th <= j) /\ (hi -> j < na - th).
Proof using.
  clear. intros Hi Hth Ht Hj -> ->. unfold rows2. destruct (bc_eqb (ax_lo a) Pml) eqn:E; [apply bc_eqb_eq in E|]; cbn [negb orb].
  - specialize (Ht E). rewrite andb_true_iff, Z.leb_le, Z.ltb_lt. split.
    + intros [H1 H2]. split; [exact Hj|]. split; intros [_ ->]; nia.
    + intros (_ & H1 & H2). split; [destruct (Z.eq_dec i 0) as [->|]; [specialize (H1 (conj E eq_refl)); lia|nia]|]. destruct (Z.eq_dec i (ax_n a - 1)) as [->|]; [specialize (H2 (conj E eq_refl)); nia|nia].
  - assert (N : ax_lo a <> Pml) by (intro X; apply bc_eqb_eq in X; congruence). split; auto. intros _. split; [exact Hj|]. split; intros [X _]; contradiction.
Qed.
Lemma pos_ok p : (p < n)%nat -> 0 <= Z.of_nat p mod ax_n ax < ax_n ax /\ 0 <= py p < ax_n ay /\ 0 <= pz p < ax_n az.
Proof using Nx Ny Nz.
  intro Hp. pose proof (hgrid3 ax ay az Nx Ny Nz p Hp) as H. unfold in_grid, position3 in H. inversion H as [|? ? ? ? H1 H']; subst. inversion H' as [|? ? ? ? H2 H'']; subst. inversion H'' as [|? ? ? ? H3 _]; subst. auto.
Qed.
Lemma rows3_ok p j : (p < n)%nat -> 0 <= j < ny -> rows2 K ay ny (py p * ny + j) = true <-> row_in K ny pmls p j.
Proof using Hpa Nx Ny Nz HL Hth Hty.
  intros Hp Hj. apply rows_core; auto; [apply (pos_ok p Hp)|apply (ymin_in K ax ay az nx ny pmls Hpa HL p Hp)|apply (ymax_in K ax ay az nx ny pmls Hpa HL p Hp)].
Qed.
Lemma cols3_ok p k : (p < n)%nat -> 0 <= k < nz -> rows2 K az nz (pz p * nz + k) = true <-> col_in K nz pmls p k.
Proof using Hpa Nx Ny Nz HL Hth Htz.
  intros Hp Hk. apply rows_core; auto; [apply (pos_ok p Hp)|apply (zmin_in K ax ay az nx ny pmls Hpa HL p Hp)|apply (zmax_in K ax ay az nx ny pmls Hpa HL p Hp)].
Qed.
Theorem stage3_shows dis mB mB2 FE FJ FB : (forall p, (p < n)%nat -> (rank p < nproc)%nat) -> (forall p, (p < n)%nat -> dis (rank p) = false) ->
  sh FE mE -> shows_inside zero [ax; ay; az] [nx; ny; nz] ng n (position3 ax ay) FJ mJ -> sh FB mB ->
  guards_exchanged bounds3 [nx; ny; nz] ng n (nbr3 ax ay az) 3 (snd (st dis mB)) mB2 ->
  sh (grid_inject3 ax ay az nx ny nz dx dy dz qdy qdz l time dt FE FJ FB) mB2.
Proof using Hpa Nx Ny Nz HL Hg Hx Hy Hz Hth Hty Htz Hfit HP HR HC Hm.
  intros Hr Hd SE SJ SB [GX _]. pose proof (decomp3 ax ay az nx ny nz ng Hpa Nx Ny Nz Hg Hx Hy Hz) as [G H1 H2 H3 H4 H5 H6].
  assert (Hlp : thick K + 2 < nx + ng) by lia.
  pose proof (stage3_frame A K cl zero ax ay az nx ny nz ng dx dy dz qdy qdz pmls nproc rank l time dt mE mJ Hpa HL Hg Hx Hy Hz Hth Hlp HP HR HC Hm dis mB) as FR.
  pose proof (fun p Hp => stage3_left A K cl zero ax ay az nx ny nz ng dx dy dz qdy qdz pmls nproc rank l time dt mE mJ Hpa HL Hg Hx Hy Hz Hth Hlp HP HR HC Hm dis mB p Hp (Hr p Hp) (Hd p Hp)) as LF.
  intros f p c Hf Hp Hc. rewrite (GX f p c Hf Hp Hc).
  rewrite (guard_global [nx; ny; nz] ng bounds3 opp3 n G (nbr3 ax ay az) [ax; ay; az] (position3 ax ay) H1 H2 H3 H4 H5 H6 _ (grid_inject3 ax ay az nx ny nz dx dy dz qdy qdz l time dt FE FJ FB) f); [|clear p c Hp Hc|exact Hp|exact Hc].
  - unfold shown. destruct (place [ax; ay; az] [nx; ny; nz] (position3 ax ay p) c) as [g|] eqn:E; [reflexivity|].
    inversion Hc as [|? i ? t Hi Ht]; subst. inversion Ht as [|? j ? t' Hj Ht']; subst. inversion Ht' as [|? k ? t'' Hk Ht'']; subst. inversion Ht''; subst. clear Ht Ht' Ht''.
    assert (Z0 : forall g k', In g [0; 1; 2]%nat -> place [ax; ay; az] [nx; ny; nz] (position3 ax ay p) [k'; j; k] = None -> - ng <= k' < nx + ng -> mB (ce g p k' j k) = zero).
    { intros g k' Ig En Hk'. rewrite (SB g p [k'; j; k]); [unfold shown; now rewrite En|destruct Ig as [<-|[<-|[<-|[]]]]; lia|exact Hp|repeat constructor; lia]. }
    destruct (Z.eq_dec (Z.of_nat p mod ax_n ax) 0) as [P0|P0].
    + assert (HD : (i = lp - 1 /\ 0 <= j < ny /\ rows2 K ay ny (py p * ny + j) = true /\ f = 0%nat) \/ ~ (i = lp - 1 /\ row_in K ny pmls p j /\ f = 0%nat)).
      { destruct (Z.eq_dec i (lp - 1)); [|right; tauto]. destruct (Nat.eq_dec f 0); [|right; tauto]. destruct (Z_le_dec 0 j); [|right; intros (_ & (X & _) & _); lia]. destruct (Z_lt_dec j ny); [|right; intros (_ & (X & _) & _); lia].
        destruct (rows2 K ay ny (py p * ny + j)) eqn:R; [left; auto|right]. intros (_ & X & _). apply rows3_ok in X; [congruence|exact Hp|lia]. }
      destruct HD as [(-> & Hj' & HRow & ->)|HD].
      * apply (rows3_ok p j Hp Hj') in HRow. destruct (LF p Hp P0) as (V0 & _). rewrite V0 by auto. apply Z0; [now left| |lia]. revert E. cbn [place position3]. rewrite P0. 
        unfold place1 at 1 4. rewrite !Z.mul_0_l, !Z.add_0_l.
        assert (B1 : (0 <=? lp - 1) && (lp - 1 <? ax_n ax * nx) = true) by (apply andb_true_iff; rewrite Z.leb_le, Z.ltb_lt; clear - Nx Hfit Hth; nia).
        assert (B2 : (0 <=? 0) && (0 <? ax_n ax * nx) = true) by (apply andb_true_iff; rewrite Z.leb_le, Z.ltb_lt; clear - Nx Hfit Hth; nia).
        rewrite B1, B2. destruct (place1 ay ny (py p) j); [|auto]. destruct (place1 az nz (pz p) k); [discriminate|auto].
      * rewrite FR; [apply Z0; auto; clear - Hf; destruct f as [|[|[|f]]]; [left; auto|right; left; auto|right; right; left; auto|lia]|].
        intros q f' j' k' Hq _ Hf' Hrow Hk' Hcol Ec. pose proof Hrow as (Hj' & _). apply (ce3_inj nx ny nz ng Hg Hx Hy Hz) in Ec as (-> & -> & -> & -> & ->); try lia.
        destruct Hcol as [->|(Hk0 & _)]; [apply HD; auto|]. assert (Hint : interior [nx; ny; nz] [lp - 1; j'; k']) by (repeat constructor; lia).
        rewrite (place_interior [nx; ny; nz] ng bounds3 opp3 n G [ax; ay; az] (position3 ax ay) H1 H2 H3 q _ Hp Hint) in E. discriminate.
    + rewrite FR; [apply Z0; auto; clear - Hf; destruct f as [|[|[|f]]]; [left; auto|right; left; auto|right; right; left; auto|lia]|].
      intros q f' j' k' Hq Hq0 Hf' Hrow Hk' Hcol Ec. pose proof Hrow as (Hj' & _). apply (ce3_inj nx ny nz ng Hg Hx Hy Hz) in Ec as (-> & -> & -> & -> & ->); try lia.
  - intros p c g Hp Hc E. pose proof Hc as Hc0. rewrite (place_interior [nx; ny; nz] ng bounds3 opp3 n G [ax; ay; az] (position3 ax ay) H1 H2 H3 p c Hp Hc) in E. inversion E; subst g. clear E.
    inversion Hc as [|? i ? t Hi Ht]; subst. inversion Ht as [|? j ? t' Hj Ht']; subst. inversion Ht' as [|? k ? t'' Hk Ht'']; subst. inversion Ht''; subst. clear Hc Ht Ht' Ht''. cbn [flat position3].
    pose proof (pos_ok p Hp) as (Hpx & _ & _).
    assert (Old : mB (ce f p i j k) = FB f [Z.of_nat p mod ax_n ax * nx + i; py p * ny + j; pz p * nz + k]).
    { rewrite (SB f p [i; j; k] Hf Hp) by (repeat constructor; lia). unfold shown. now rewrite (place_interior [nx; ny; nz] ng bounds3 opp3 n G [ax; ay; az] (position3 ax ay) H1 H2 H3 p _ Hp Hc0). }
    assert (Keep : ~ (Z.of_nat p mod ax_n ax = 0 /\ i = lp - 1 /\ row_in K ny pmls p j /\ (f = 0%nat \/ col_in K nz pmls p k)) -> snd (st dis mB) (ce f p i j k) = FB f [Z.of_nat p mod ax_n ax * nx + i; py p * ny + j; pz p * nz + k]).
    { intro HN. rewrite FR; [exact Old|]. intros q f' j' k' Hq Hq0 Hf' Hrow Hk' Hcol Ec. pose proof Hrow as (Hj' & _). apply (ce3_inj nx ny nz ng Hg Hx Hy Hz) in Ec as (-> & -> & -> & -> & ->); try lia. apply HN. auto. }
    unfold grid_inject3. destruct ((Z.of_nat p mod ax_n ax * nx + i =? lp - 1) && rows2 K ay ny (py p * ny + j)) eqn:B.
    + apply andb_true_iff in B as [B1 B2]. apply Z.eqb_eq in B1. apply (rows3_ok p j Hp Hj) in B2.
      assert (P0 : Z.of_nat p mod ax_n ax = 0) by (clear - Hpx Hi B1 Hfit Hth; nia). assert (i = lp - 1) as -> by (rewrite P0 in B1; lia).
      destruct (LF p Hp P0) as (V0 & V2 & V1 & _).
      assert (RE : forall g i, (g < 3)%nat -> -1 <= i < nx -> mE (ce g p i j k) = at3 ax ay az nx ny nz FE g i (py p * ny + j) (pz p * nz + k)).
      { intros g i Hg' Hi'. rewrite (SE g p [i; j; k] Hg' Hp) by (repeat constructor; lia). rewrite shown_at3 by exact Hp. rewrite P0. reflexivity. }
      assert (RB : forall g i j' k', (g < 3)%nat -> -1 <= i < nx -> -1 <= j' < ny -> -1 <= k' < nz -> mB (ce g p i j' k') = at3 ax ay az nx ny nz FB g i (py p * ny + j') (pz p * nz + k')).
      { intros g i j' k' Hg' Hi' Hj' Hk'. rewrite (SB g p [i; j'; k'] Hg' Hp) by (repeat constructor; lia). rewrite shown_at3 by exact Hp. rewrite P0. reflexivity. }
      assert (RJ : forall g i, (g < 3)%nat -> 0 <= i < nx -> mJ (ce g p i j k) = at3 ax ay az nx ny nz FJ g i (py p * ny + j) (pz p * nz + k)).
      { intros g i Hg' Hi'. rewrite (SJ g p [i; j; k] Hg' Hp) by (repeat constructor; lia). rewrite shown_at3 by exact Hp. rewrite P0. reflexivity. }
      cbv zeta. destruct f as [|[|[|f]]]; [| | |lia].
      * rewrite V0 by (auto; lia). apply RB; lia.
      * destruct (rows2 K az nz (pz p * nz + k)) eqn:R.
        -- apply (cols3_ok p k Hp Hk) in R. rewrite V1 by auto. rewrite !RE, !RB, !RJ by lia. replace (py p * ny + (j - 1)) with (py p * ny + j - 1) by lia. reflexivity.
        -- apply Keep. intros (_ & _ & _ & [X|X]); [discriminate|]. apply (cols3_ok p k Hp Hk) in X. congruence.
      * destruct (rows2 K az nz (pz p * nz + k)) eqn:R.
        -- apply (cols3_ok p k Hp Hk) in R. rewrite V2 by auto. rewrite !RE, !RB, !RJ by lia. replace (pz p * nz + (k - 1)) with (pz p * nz + k - 1) by lia. reflexivity.
        -- apply Keep. intros (_ & _ & _ & [X|X]); [discriminate|]. apply (cols3_ok p k Hp Hk) in X. congruence.
    + apply Keep. intros (Q0 & -> & Hrow & _). apply (rows3_ok p j Hp Hj) in Hrow. rewrite Q0, Hrow, Z.mul_0_l, Z.add_0_l, Z.eqb_refl in B. discriminate.
Qed.
End Three.
