(** Laser injection: stopping, and patches too narrow for the plane of the laser. *)
From Coq Require Import Field_theory QArith.
From Verif Require Import Base M_Layout S_Layout M_PartSync S_PartSync M_FieldSync S_FieldSync M_Maxwell S_Maxwell M_Cpml S_Cpml M_Deposit M_Push M_Laser S_Laser.
From Verif Require Import P_Layout P_PartSync P_PartSync2 P_PartSync3 P_Threads P_FieldGeo P_FieldPar P_FieldSync P_FieldSync2 P_FieldSync3 P_FieldSync4 P_FieldSync5 P_Maxwell P_Maxwell2 P_Maxwell3 P_Cpml P_Cpml2 P_Cpml3 P_Cpml4 P_Cpml5.
From Verif Require Import P_Laser P_Laser2 P_Laser3 P_Laser4 P_Laser5.
Local Open Scope list_scope.
Local Open Scope Z_scope.

Lemma Forall2_decide {X Y} (P : X -> Y -> Prop) : (forall a b, P a b \/ ~ P a b) -> forall l l', Forall2 P l l' \/ ~ Forall2 P l l'.
Proof.
  intros D. induction l as [|a l IH]; intros [|b l']; [left; constructor|right; intro H; inversion H|right; intro H; inversion H|].
  destruct (D a b) as [H|H], (IH l') as [H'|H']; [left; constructor; auto|right; intro X0; inversion X0; contradiction|right; intro X0; inversion X0; contradiction|right; intro X0; inversion X0; contradiction].
Qed.
Section Quiet.
Context {V : Type} (A : arith V) (K : layer V) (cl : V).
Lemma not_running time (l : laser (V := V)) : ~ running time l -> Qle_bool (tstop_of l) (LIGHT_SPEED * time) = true.
Proof. intro H. destruct (Qle_bool _ _) eqn:E; [reflexivity|]. destruct H. now apply running_stop. Qed.
Lemma some_patch (n nproc : nat) (rank : nat -> nat) (a : addr) : (exists p f o, ((p < n)%nat /\ (rank p < nproc)%nat) /\ a = Fld f p o) \/ (forall p, (p < n)%nat -> (rank p < nproc)%nat -> elsewhere p a).
Proof.
  destruct a as [f p o| |]; [|right; intros p' _ _ f' o'; discriminate|right; intros p' _ _ f' o'; discriminate].
  destruct (le_lt_dec n p) as [L|L]; [right; intros p' Hp _ f' o' E; injection E; intros; subst; lia|].
  destruct (le_lt_dec nproc (rank p)) as [L'|L']; [right; intros p' _ Hp f' o' E; injection E; intros; subst; lia|left; exists p, f, o; auto].
Qed.
Section Two.
Variables (ax ay : axis) (nx ny ng : Z) (dx dy : V) (qdy : Q) (pmls : nat -> list pml_side).
Variables (nproc : nat) (rank : nat -> nat) (l : laser (V := V)) (time : Q) (dt : V) (mE mJ : memory V).
Local Notation st dis mB := (laser_stage_2d A K cl ax ay nx ny ng dx dy qdy pmls nproc rank l time dt mE mJ (dis, mB)).
Lemma stops2 dis mB : ~ running time l -> (forall r, (r < nproc)%nat -> fst (st dis mB) r = true) /\ (forall a, snd (st dis mB) a = mB a).
Proof.
  intro H. apply not_running in H. destruct (stage2_is A K cl ax ay nx ny ng dx dy qdy pmls nproc rank l time dt mE mJ dis mB) as (S1 & S2 & S3). split.
  - intros r Hr. rewrite S1. apply Nat.ltb_lt in Hr. rewrite Hr. unfold off. rewrite H. now rewrite orb_true_r.
  - intro a. destruct (some_patch (npatch2 ax ay) nproc rank a) as [(p & f & o & (Hp & Hr) & ->)|D]; [|now apply S3].
    rewrite (S2 p Hp Hr). unfold off. rewrite H. rewrite orb_true_r. reflexivity.
Qed.
Lemma stays2 dis mB r : dis r = true -> fst (st dis mB) r = true /\ (forall p f o, rank p = r -> snd (st dis mB) (Fld f p o) = mB (Fld f p o)).
Proof.
  intro H. destruct (stage2_is A K cl ax ay nx ny ng dx dy qdy pmls nproc rank l time dt mE mJ dis mB) as (S1 & S2 & S3). split.
  - rewrite S1, H. unfold off. cbn [orb]. now destruct (r <? nproc)%nat.
  - intros p f o <-. destruct (some_patch (npatch2 ax ay) nproc rank (Fld f p o)) as [(q & f' & o' & (Hp & Hr) & E)|D]; [|now apply S3].
    assert (q = p) by congruence. subst q. rewrite (S2 p Hp Hr). unfold off. rewrite H. reflexivity.
Qed.
End Two.
Section Three.
Variables (ax ay az : axis) (nx ny nz ng : Z) (dx dy dz : V) (qdy qdz : Q) (pmls : nat -> list pml_side).
Variables (nproc : nat) (rank : nat -> nat) (l : laser (V := V)) (time : Q) (dt : V) (mE mJ : memory V).
Local Notation st dis mB := (laser_stage_3d A K cl ax ay az nx ny nz ng dx dy dz qdy qdz pmls nproc rank l time dt mE mJ (dis, mB)).
Lemma stops3 dis mB : ~ running time l -> (forall r, (r < nproc)%nat -> fst (st dis mB) r = true) /\ (forall a, snd (st dis mB) a = mB a).
Proof.
  intro H. apply not_running in H. destruct (stage3_is A K cl ax ay az nx ny nz ng dx dy dz qdy qdz pmls nproc rank l time dt mE mJ dis mB) as (S1 & S2 & S3). split.
  - intros r Hr. rewrite S1. apply Nat.ltb_lt in Hr. rewrite Hr. unfold off. rewrite H. now rewrite orb_true_r.
  - intro a. destruct (some_patch (npatch3 ax ay az) nproc rank a) as [(p & f & o & (Hp & Hr) & ->)|D]; [|now apply S3].
    rewrite (S2 p Hp Hr). unfold off. rewrite H. rewrite orb_true_r. reflexivity.
Qed.
Lemma stays3 dis mB r : dis r = true -> fst (st dis mB) r = true /\ (forall p f o, rank p = r -> snd (st dis mB) (Fld f p o) = mB (Fld f p o)).
Proof.
  intro H. destruct (stage3_is A K cl ax ay az nx ny nz ng dx dy dz qdy qdz pmls nproc rank l time dt mE mJ dis mB) as (S1 & S2 & S3). split.
  - rewrite S1, H. unfold off. cbn [orb]. now destruct (r <? nproc)%nat.
  - intros p f o <-. destruct (some_patch (npatch3 ax ay az) nproc rank (Fld f p o)) as [(q & f' & o' & (Hp & Hr) & E)|D]; [|now apply S3].
    assert (q = p) by congruence. subst q. rewrite (S2 p Hp Hr). unfold off. rewrite H. reflexivity.
Qed.
End Three.
Lemma classic_interior ns c : interior ns c \/ ~ interior ns c.
Proof. unfold interior. apply Forall2_decide. intros a b. lia. Qed.
(** ** a patch of th + 1 cells: the pulse is written to guard cells and the exchange overwrites it *)
Lemma lost2 zero ax ay nx ny ng dx dy qdy pmls nproc rank l time dt mE mJ dis mB mB2 : monoid zero (plus_ A) ->
  paired [ax; ay] -> 1 <= ax_n ax -> 1 <= ax_n ay -> 2 <= ng -> ng <= nx -> ng <= ny -> layers2 ax ay nx ny (thick K) pmls -> 0 <= thick K -> nx = thick K + 1 -> ax_lo ax = Pml ->
  running time l -> centred l ->
  guards_exchanged bounds2 [nx; ny] ng (npatch2 ax ay) (nbr2 ax ay) 3 (snd (laser_stage_2d A K cl ax ay nx ny ng dx dy qdy pmls nproc rank l time dt mE mJ (dis, mB))) mB2 ->
  guards_exchanged bounds2 [nx; ny] ng (npatch2 ax ay) (nbr2 ax ay) 3 mB mB2.
Proof.
  intros Hm Hpa Nx Ny Hg2 Hx Hy HL Hth Hn HP HR HC [GX GF]. assert (Hg : 0 < ng) by lia. assert (Hlp : thick K + 2 < nx + ng) by lia.
  pose proof (stage2_frame A K cl zero ax ay nx ny ng dx dy qdy pmls nproc rank l time dt mE mJ Hpa HL Hg Hx Hy Hth Hlp HP HR HC Hm dis mB) as FR.
  pose proof (decomp2 ax ay nx ny ng Hpa Nx Ny Hg Hx Hy) as [G H1 H2 H3 H4 H5 H6].
  assert (Many : 2 <= ax_n ax). { apply (layers2_many ax ay nx ny (thick K) pmls Hpa Nx Ny HL 0%nat); [lia|]. unfold opens. cbn [map nth]. unfold open_. rewrite HP. reflexivity. }
  assert (FI : forall f p c, interior [nx; ny] c -> snd (laser_stage_2d A K cl ax ay nx ny ng dx dy qdy pmls nproc rank l time dt mE mJ (dis, mB)) (cell [nx; ny] ng f p c) = mB (cell [nx; ny] ng f p c)).
  { intros f p c Hc. apply FR. intros q f' j Hq Hl Hf' (Hj & _) E. apply (cell_inj [nx; ny] ng bounds2 opp2 G) in E as (-> & -> & ->).
    - inversion Hc as [|? ? ? ? Hi _]; subst. lia.
    - apply interior_within; [lia|exact Hc].
    - repeat constructor; lia. }
  split.
  - intros f p c Hf Hp Hc. rewrite (GX f p c Hf Hp Hc). unfold guard_result. destruct (classic_interior [nx; ny] c) as [Hi|Hi].
    + rewrite (facing_interior [nx; ny] ng bounds2 opp2 G _ _ _ Hi). now apply FI.
    + pose proof (place_facing [nx; ny] ng bounds2 opp2 (npatch2 ax ay) G (nbr2 ax ay) [ax; ay] (position2 ax) H1 H2 H3 H4 H5 H6 p c Hp Hc Hi) as PF.
      destruct (place [ax; ay] [nx; ny] (position2 ax p) c) as [g|] eqn:Ep.
      * destruct PF as (q & -> & Hq & Hi' & _). now apply FI.
      * rewrite PF. apply FR. intros q f' j Hq Hl Hf' (Hj & _) E. apply (cell_inj [nx; ny] ng bounds2 opp2 G) in E as (-> & -> & ->); [|exact Hc|repeat constructor; lia].
        unfold position2 in Ep. cbn [place] in Ep. rewrite Hl in Ep.
        assert (Py : 0 <= Z.of_nat q / ax_n ax < ax_n ay). { pose proof (hgrid2 ax ay Nx Ny q Hq) as Hgr. unfold in_grid, position2 in Hgr. inversion Hgr as [|? ? ? ? _ Hgr']; subst. inversion Hgr'; auto. }
        assert (Y : place1 ay ny (Z.of_nat q / ax_n ax) j = Some (Z.of_nat q / ax_n ax * ny + j)). { unfold place1. replace (_ && _) with true; [reflexivity|]. symmetry. apply andb_true_iff. split; [apply Z.leb_le|apply Z.ltb_lt]; nia. }
        assert (X : place1 ax nx 0 (thick K + 2 - 1) = Some nx). { unfold place1. replace (0 * nx + (thick K + 2 - 1)) with nx by lia. replace (_ && _) with true; [reflexivity|]. symmetry. apply andb_true_iff. split; [apply Z.leb_le|apply Z.ltb_lt]; nia. }
        rewrite X, Y in Ep. discriminate.
  - intros a Ha. rewrite (GF a Ha). apply FR. intros q f' j Hq _ Hf' (Hj & _) E. apply (Ha f' q [thick K + 2 - 1; j] Hf' Hq); [repeat constructor; lia|exact E].
Qed.
End Quiet.
