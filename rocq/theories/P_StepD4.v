(** Whole time steps in 3D, part 4: push and deposition of all species; the exchanged currents. *)
From Coq Require Import QArith Qabs Qround Qcanon Permutation Lqa.
From Verif Require Import Base M_Layout M_PartSync S_PartSync M_FieldSync S_FieldSync S_Maxwell M_Deposit S_Deposit M_Push S_Push P_Deposit P_Deposit2 P_Deposit5 P_Interp P_Push P_Layout P_FieldGeo P_FieldSync4 M_Step S_Step P_Step1 P_Step2 P_Step3 P_Step4 M_Step3D S_Step3D P_StepD1 P_StepD2 P_StepD3.
Local Open Scope list_scope.
Local Open Scope Z_scope.

Section All.
Variable rsqrt : Q -> Q.
Hypothesis SUB : subluminal rsqrt.
Variable D : domain3.
Hypothesis OK : domain3_ok D.
Local Notation n := (npatches3 D).
Local Notation NX := (e_nx D + 2 * e_ng D). Local Notation NY := (e_ny D + 2 * e_ng D). Local Notation NZ := (e_nz D + 2 * e_ng D).
Local Notation grow := (grow3 rsqrt (Vx D) (Vy D) (Vz D) (e_dx D) (e_dy D) (e_dz D) (e_dt D)).
Local Notation live_rows p st := (S_PartSync.alive (nth p st [])).
Variables (FE FB : nat -> list Z -> Qc) (mE mB : memory Qc).
Hypothesis HE : field3_is D FE mE.
Hypothesis HB : field3_is D FB mB.

Lemma moved3_placed p r : moved3 D p r -> placed r.
Proof. intros (x & y & z & H1 & H2 & H3 & _). exists x, y, z. auto. Qed.

Lemma push_patches3_ok sp : sp_unified sp = true -> forall (st : list (list prt)) p mJ, (p + length st <= n)%nat ->
  (forall k r, (k < length st)%nat -> In r (live_rows k st) -> in_patch3 D (p + k) r) ->
  exists mJ' st', push_patches3 rsqrt D sp mE mB mJ p st = Some (mJ', st') /\ length st' = length st /\
    (forall k, (k < length st)%nat -> map canon (live_rows k st') = map (fun r => canon (grow sp FE FB r)) (live_rows k st) /\
       (forall r, In r (live_rows k st') -> moved3 D (p + k) r)) /\
    (forall f q o, (f < 4)%nat -> 0 <= o < NX * NY * NZ ->
       (this (mJ' (Fld f q o)) == this (mJ (Fld f q o)) + (if (p <=? q)%nat && (q <? p + length st)%nat then qsum (fun r => contrib3 D sp q r f o) (live_rows (q - p) st') else 0))%Q).
Proof.
  intro U. induction st as [|l st IH]; intros p mJ L H.
  - exists mJ, []. split; [reflexivity|]. split; [reflexivity|]. split; [intros k Hk; cbn [length] in Hk; lia|].
    intros f q o _ _. cbn [length]. rewrite Nat.add_0_r. destruct (Nat.leb_spec p q), (Nat.ltb_spec q p); cbn [andb]; try lia; ring.
  - cbn [length] in *. destruct (push_patch3_ok rsqrt SUB D OK FE FB mE mB sp p l U HE HB ltac:(lia)) as (l' & E & Ll & Ml & Nl).
    { intros r I. specialize (H 0%nat r ltac:(lia) I). rewrite Nat.add_0_r in H. exact H. }
    destruct (IH (S p) (deposit_patch3 D sp mJ p l') ltac:(lia)) as (mJ' & st' & E' & L' & M' & V').
    { intros k r Hk I. specialize (H (S k) r ltac:(lia) I). rewrite <- Nat.add_succ_comm in H. exact H. }
    exists mJ', (l' :: st'). cbn [push_patches3]. rewrite E, E'. split; [reflexivity|]. split; [cbn [length]; lia|]. split.
    + intros [|k] Hk; cbn [nth]; [rewrite Nat.add_0_r; split; [exact Ml|exact Nl]|]. rewrite <- Nat.add_succ_comm. apply M'. lia.
    + intros f q o Hf Ho. rewrite V' by assumption.
      destruct (Nat.eq_dec q p) as [->|N].
      * rewrite deposit_here3; [|exact OK|exact U|intros r I; exact (moved3_placed p r (Nl r I))|exact Hf|exact Ho]. rewrite this_q2qc.
        destruct (Nat.leb_spec (S p) p); [lia|]. destruct (Nat.leb_spec p p); [|lia]. destruct (Nat.ltb_spec p (p + S (length st))); [|lia]. cbn [andb].
        rewrite Nat.sub_diag. cbn [nth]. ring.
      * rewrite deposit_other3 by exact N.
        destruct (Nat.leb_spec (S p) q), (Nat.leb_spec p q); try lia; cbn [andb]; try ring.
        replace (S p + length st)%nat with (p + S (length st))%nat by lia. destruct (q <? p + S (length st))%nat; [|ring].
        replace (q - p)%nat with (S (q - S p)) by lia. cbn [nth]. reflexivity.
Qed.
(** the particles of one species before and after *)
Definition pushed3 (sp : species) (st st' : list (list prt)) : Prop :=
  length st' = n /\ forall p, (p < n)%nat ->
    map canon (live_rows p st') = map (fun r => canon (grow sp FE FB r)) (live_rows p st) /\ (forall r, In r (live_rows p st') -> moved3 D p r).
Lemma settled3_in st p r : settled3 D st -> (p < n)%nat -> In r (live_rows p st) -> in_patch3 D p r.
Proof. intros [L H] Hp I. exact (H p r Hp I). Qed.
Lemma push_species3_ok : forall sps pss mJ, all_fused sps -> length pss = length sps -> Forall (settled3 D) pss ->
  exists mJ' pss', push_species3 rsqrt D sps mE mB mJ pss = Some (mJ', pss') /\
    Forall2 (fun ss st' => pushed3 (fst ss) (snd ss) st') (combine sps pss) pss' /\
    (forall f q o, (f < 4)%nat -> (q < n)%nat -> 0 <= o < NX * NY * NZ ->
       (this (mJ' (Fld f q o)) == this (mJ (Fld f q o)) + qsum (fun ss => qsum (fun r => contrib3 D (fst ss) q r f o) (live_rows q (snd ss))) (combine sps pss'))%Q).
Proof.
  induction sps as [|sp sps IH]; intros [|st pss] mJ U L F; cbn [length] in L; try lia.
  - exists mJ, []. split; [reflexivity|]. split; [constructor|]. intros f q o _ _ _. cbn [combine]. change (qsum _ []) with 0%Q. ring.
  - inversion U as [|? ? U1 U2]; subst. inversion F as [|? ? Fs F']; subst. pose proof Fs as Fs0. destruct Fs as [Ls Hs].
    destruct (push_patches3_ok sp U1 st 0 mJ ltac:(lia)) as (mJ1 & st' & E & Ls' & M & V).
    { intros k r Hk I. apply (settled3_in st k r Fs0); [lia|exact I]. }
    destruct (IH pss mJ1 U2 ltac:(lia) F') as (mJ' & pss' & E' & F2 & V'). exists mJ', (st' :: pss').
    cbn [push_species3]. rewrite E, E'. split; [reflexivity|]. split.
    + cbn [combine]. constructor; [|exact F2]. cbn [fst snd]. split; [lia|]. intros p Hp. apply M. lia.
    + intros f q o Hf Hq Ho. rewrite V', V by assumption. cbn [combine]. rewrite qsum_cons. cbn [fst snd].
      cbn [Nat.add Nat.leb andb]. destruct (Nat.ltb_spec q (length st)); [|lia]. rewrite Nat.sub_0_r. ring.
Qed.
End All.
