(** Whole time steps, part 5: the currents of the whole grid. *)
From Coq Require Import QArith Qabs Qround Qcanon Permutation Lqa.
From Verif Require Import Base M_Layout S_Layout M_PartSync S_PartSync M_FieldSync S_FieldSync S_Maxwell M_Deposit S_Deposit M_Push S_Push P_Deposit P_Deposit2 P_Deposit5 P_Interp P_Push P_Layout P_FieldGeo P_FieldSync P_FieldSync4 P_FieldSync5 S_PartSync P_PartSync3 P_Maxwell3 Properties_FieldSync M_Step S_Step P_Step1 P_Step2 P_Step3 P_Step4.
Local Open Scope list_scope.
Local Open Scope Z_scope.

(** * Sums *)
Lemma qsum_one {A} (h : A -> Q) l c : NoDup l -> In c l -> (forall x, In x l -> x <> c -> (h x == 0)%Q) -> (qsum h l == h c)%Q.
Proof.
  induction l as [|a l IH]; intros N I Z; [destruct I|]. inversion N as [|? ? Na N']; subst. rewrite qsum_cons. destruct I as [->|I].
  - rewrite (qsum_zero h l); [ring|]. intros x Ix. apply Z; [right; exact Ix|]. intros ->. contradiction.
  - rewrite (Z a); [|left; reflexivity|intros ->; contradiction]. rewrite IH; [ring|exact N'|exact I|]. intros x Ix. apply Z. right. exact Ix.
Qed.
Lemma qsum_forall2 {A B} (R : A -> B -> Prop) (f : A -> Q) (g : B -> Q) l m : Forall2 R l m -> (forall a b, In a l -> R a b -> (f a == g b)%Q) -> (qsum f l == qsum g m)%Q.
Proof.
  induction 1 as [|a b l m H F IH]; intro K; [reflexivity|]. rewrite !qsum_cons, (K a b) by (auto; left; reflexivity). rewrite IH; [reflexivity|].
  intros x y I. apply K. right. exact I.
Qed.
Lemma qsum_perm {A} (f : A -> Q) l m : Permutation l m -> (qsum f l == qsum f m)%Q.
Proof. induction 1 as [|x l m P IH|x y l|l m k P1 IH1 P2 IH2]; [reflexivity|rewrite !qsum_cons, IH; reflexivity|rewrite !qsum_cons; ring|rewrite IH1; exact IH2]. Qed.
Lemma qsum_flat {A B} (f : B -> Q) (g : A -> list B) l : (qsum f (flat_map g l) == qsum (fun a => qsum f (g a)) l)%Q.
Proof. induction l as [|a l IH]; [reflexivity|]. cbn [flat_map]. rewrite qsum_app, qsum_cons, IH. reflexivity. Qed.
Lemma qsum_prod {A B} (f : A * B -> Q) l m : (qsum f (list_prod l m) == qsum (fun a => qsum (fun b => f (a, b)) m) l)%Q.
Proof. induction l as [|a l IH]; [reflexivity|]. cbn [list_prod]. rewrite qsum_app, qsum_cons, qsum_map, IH. reflexivity. Qed.
Lemma qsum_if {A} (b : bool) (f : A -> Q) l : ((if b then qsum f l else 0) == qsum (fun a => if b then f a else 0) l)%Q.
Proof. destruct b; [reflexivity|]. symmetry. apply qsum_zero. reflexivity. Qed.
Lemma flat_map_nth {A B} (g : A -> list B) d (l : list A) : flat_map g l = flat_map (fun i => g (nth i l d)) (seq 0 (length l)).
Proof.
  induction l as [|a l IH]; [reflexivity|]. cbn [flat_map length seq nth]. f_equal. rewrite <- seq_shift, IH.
  generalize (seq 0 (length l)). intro s. induction s as [|i s IHs]; [reflexivity|]. cbn [map flat_map nth]. rewrite IHs. reflexivity.
Qed.
Lemma this_total l : (this (total (Q2Qc 0) Qcplus l) == qsum this l)%Q.
Proof. induction l as [|a l IH]; [reflexivity|]. unfold total in *. cbn [fold_right]. rewrite qsum_cons, <- IH. cbn [Qcplus Q2Qc this]. apply Qred_correct. Qed.

(** * What a particle adds at a cell of the whole grid *)
Definition whole (Nx Ny : Z) (dx dy : Q) : grid2 := {| g_nx := Nx; g_ny := Ny; g_dx := dx; g_dy := dy; g_x0 := 0%Q; g_y0 := 0%Q |}.
Definition gdep (Nx Ny : Z) (dx dy dt : Q) (sp : species) (r : prow body) (f : nat) (g : list Z) : Q :=
  qsum (fun e => if list_eqb [(k_ix (whole Nx Ny dx dy) dt (bare r) + (Z.of_nat (e_i e) - 2)) mod Nx; (k_iy (whole Nx Ny dx dy) dt (bare r) + (Z.of_nat (e_j e) - 2)) mod Ny] g then prf f e else 0%Q)
    (kevs (whole Nx Ny dx dy) dt (sp_q sp) (bare r)).
Lemma gdep_canon Nx Ny dx dy dt sp r r' f g : (0 < dx)%Q -> (0 < dy)%Q -> canon r = canon r' -> (gdep Nx Ny dx dy dt sp r f g == gdep Nx Ny dx dy dt sp r' f g)%Q.
Proof.
  intros Dx Dy E. destruct (canon_load r r' E) as [P _].
  destruct (kernel_shift (whole Nx Ny dx dy) (whole Nx Ny dx dy) dt (sp_q sp) (bare r) (bare r') 0 0 P eq_refl eq_refl Dx Dy) as (K1 & K2 & F).
  1,2: cbn [whole g_x0 g_y0 g_dx g_dy]; ring.
  unfold gdep. rewrite K1, K2, !Z.add_0_r. apply (qsum_forall2 ev_eq); [exact F|]. intros e e' _ H. destruct H as (Ei & Ej & H). rewrite <- Ei, <- Ej.
  destruct (list_eqb _ _); [|reflexivity]. apply prf_eq. split; [exact Ei|]. split; [exact Ej|exact H].
Qed.

Section Global.
Variable D : domain2.
Hypothesis OK : domain_ok D.
Local Notation n := (npatches2 D).
Local Notation axes := [d_ax D; d_ay D]. Local Notation ns := [d_nx D; d_ny D]. Local Notation ng := (d_ng D).
Local Notation NX := (d_nx D + 2 * d_ng D). Local Notation NY := (d_ny D + 2 * d_ng D).
Local Notation position := (position2 (d_ax D)).
Local Notation dep := (gdep (Wx D) (Wy D) (d_dx D) (d_dy D) (d_dt D)).
Local Notation at_place p c g := (match place axes ns (position p) c with Some g' => list_eqb g' g | None => false end).

Lemma sizes : sizes_ok ng ns.
Proof. destruct (ok_g D OK) as (G1 & G2 & G3). split; [lia|]. repeat constructor; lia. Qed.
(** cells the particle touches *)
Lemma start_cell p r : moved D p r -> (p < n)%nat ->
  -1 <= k_ix (grid_of D p) (d_dt D) (bare r) <= d_nx D /\ -1 <= k_iy (grid_of D p) (d_dt D) (bare r) <= d_ny D.
Proof.
  intros (x & y & E1 & E2 & V1 & V2 & R1 & R2) Hp. destruct (ok_d D OK) as [D1 D2].
  assert (forall Z0 m, (-1 <= Z0 <= inject_Z m)%Q -> -1 <= Qfloor (Z0 + (1#2)) <= m) as FL.
  { intros Z0 m [L U]. split.
    - change (-1) with (Qfloor (-1 + 0)%Q) at 1. apply Qfloor_resp_le. lra.
    - pose proof (Qfloor_le (Z0 + (1#2))) as Q1. assert (inject_Z (Qfloor (Z0 + (1#2))) < inject_Z (m + 1))%Q as Q2 by (rewrite inject_Z_plus; unfold inject_Z at 3; lra).
      rewrite <- Zlt_Qlt in Q2. lia. }
  pose proof (reach_cells (d_nx D) (d_dx D) (pi D p) _ D1 R1) as C1. pose proof (reach_cells (d_ny D) (d_dy D) (pj D p) _ D2 R2) as C2.
  unfold k_ix, k_iy. split; apply FL.
  - assert (k_X0 (grid_of D p) (d_dt D) (bare r) == (x - cdt2 D * b_ig (other body r) * b_ux (other body r) - inject_Z (pi D p * d_nx D) * d_dx D) / d_dx D)%Q as E.
    { unfold k_X0, bare, load, vel, cdt2. cbn [l_p p_x p_ux p_ig M_PartSync.row grid_of g_x0 g_dx val]. rewrite E1. cbn [val]. field. lra. }
    rewrite E. exact C1.
  - assert (k_Y0 (grid_of D p) (d_dt D) (bare r) == (y - cdt2 D * b_ig (other body r) * b_uy (other body r) - inject_Z (pj D p * d_ny D) * d_dy D) / d_dy D)%Q as E.
    { unfold k_Y0, bare, load, vel, cdt2. cbn [l_p p_y p_uy p_ig M_PartSync.row grid_of g_y0 g_dy val]. rewrite E2. cbn [val]. field. lra. }
    rewrite E. exact C2.
Qed.
Definition ev_cell (p : nat) (r : prow body) (e : ev) : list Z :=
  [k_ix (grid_of D p) (d_dt D) (bare r) + (Z.of_nat (e_i e) - 2); k_iy (grid_of D p) (d_dt D) (bare r) + (Z.of_nat (e_j e) - 2)].
Lemma ev_cell_ok p r e : moved D p r -> (p < n)%nat -> (e_i e < 5)%nat -> (e_j e < 5)%nat ->
  within ng ns (ev_cell p r e) /\ ev_index D p r e = index (extents ns ng) (ev_cell p r e).
Proof.
  intros M Hp H1 H2. destruct (start_cell p r M Hp) as [S1 S2]. destruct (ok_g D OK) as (G1 & G2 & G3).
  unfold ev_cell, ev_index. set (a := k_ix _ _ _ + _) in *. set (b := k_iy _ _ _ + _) in *.
  assert (-3 <= a <= d_nx D + 2) by (unfold a; lia). assert (-3 <= b <= d_ny D + 2) by (unfold b; lia). clearbody a b. split.
  - apply within2. lia.
  - cbn [extents map index]. unfold wrap_index, widx. rewrite !wrap_mod by lia. reflexivity.
Qed.
Lemma one_particle sp p r f g : moved D p r -> (p < n)%nat ->
  (qsum (fun c => if at_place p c g then contrib D sp p r f (index (extents ns ng) c) else 0%Q) (all_cells ng ns) == dep sp r f g)%Q.
Proof.
  intros M Hp. destruct (ok_d D OK) as [D1 D2].
  rewrite (qsum_ext _ (fun c => qsum (fun e => if at_place p c g then if (ev_index D p r e =? index (extents ns ng) c) then prf f e else 0%Q else 0%Q) (kevs (grid_of D p) (d_dt D) (sp_q sp) (bare r)))).
  2:{ intros c _. unfold contrib, hit. apply qsum_if. }
  rewrite qsum_swap. unfold gdep.
  destruct (kernel_shift (grid_of D p) (whole (Wx D) (Wy D) (d_dx D) (d_dy D)) (d_dt D) (sp_q sp) (bare r) (bare r) (pi D p * d_nx D) (pj D p * d_ny D)) as (K1 & K2 & F);
    [repeat (split; [reflexivity|]); reflexivity|reflexivity|reflexivity|exact D1|exact D2|cbn [grid_of whole g_x0 g_dx]; ring|cbn [grid_of whole g_y0 g_dy]; ring|].
  apply (qsum_forall2 ev_eq); [exact F|]. intros e e' I H. pose proof H as (Ei & Ej & _). destruct (kevs_in _ _ _ _ _ I) as [I1 I2].
  destruct (ev_cell_ok p r e M Hp I1 I2) as [W Ix].
  rewrite (qsum_one _ _ (ev_cell p r e)); [|apply all_cells_NoDup|apply all_cells_in; exact W|].
  - rewrite Ix, Z.eqb_refl. unfold ev_cell. rewrite place_wrap by exact OK. rewrite K1, K2, <- Ei, <- Ej.
    rewrite !Z.add_assoc, (Z.add_comm (pi D p * d_nx D)), (Z.add_comm (pj D p * d_ny D)).
    replace (k_ix (grid_of D p) (d_dt D) (bare r) + (Z.of_nat (e_i e) - 2) + pi D p * d_nx D) with (k_ix (grid_of D p) (d_dt D) (bare r) + pi D p * d_nx D + (Z.of_nat (e_i e) - 2)) by ring.
    replace (k_iy (grid_of D p) (d_dt D) (bare r) + (Z.of_nat (e_j e) - 2) + pj D p * d_ny D) with (k_iy (grid_of D p) (d_dt D) (bare r) + pj D p * d_ny D + (Z.of_nat (e_j e) - 2)) by ring.
    destruct (list_eqb _ _); [|reflexivity]. apply prf_eq. exact H.
  - intros c Ic N. apply all_cells_in in Ic. destruct (Z.eqb_spec (ev_index D p r e) (index (extents ns ng) c)) as [E|]; [|destruct (place _ _ _ _); [destruct (list_eqb _ _)|]; reflexivity].
    exfalso. apply N. rewrite Ix in E. symmetry. exact (proj1 (good_index2 _ _ _ sizes) _ _ W Ic E).
Qed.
(** currents of the whole grid *)
Definition gcurrents (Nx Ny : Z) (dx dy dt : Q) (sps : list species) (pss : list (list (list prt))) (f : nat) (g : list Z) : Qc :=
  Q2Qc (qsum (fun ss => qsum (fun r => gdep Nx Ny dx dy dt (fst ss) r f g) (particles (snd ss))) (combine sps pss)).
Lemma currents_ok sps pss rank mJ mJ' :
  (forall st p r, In st pss -> (p < n)%nat -> In r (S_PartSync.alive (nth p st [])) -> moved D p r) -> (forall st, In st pss -> length st = n) ->
  (forall f q o, (f < 4)%nat -> (q < n)%nat -> 0 <= o < NX * NY ->
       (this (mJ (Fld f q o)) == qsum (fun ss => qsum (fun r => contrib D (fst ss) q r f o) (S_PartSync.alive (nth q (snd ss) []))) (combine sps pss))%Q) ->
  sync_currents2 D rank mJ mJ' ->
  currents_are D (gcurrents (Wx D) (Wy D) (d_dx D) (d_dy D) (d_dt D) sps pss) mJ'.
Proof.
  assert (monoid (Q2Qc 0) Qcplus) as Mo by (split; [exact Qcplus_0_r|split; [exact Qcplus_comm|exact Qcplus_assoc]]).
  intros M L V (s1 & s2 & H) f p c Hf Hp Hc. destruct (ok_g D OK) as (G1 & G2 & G3). destruct (ok_n D OK) as [N1 N2].
  assert (paired axes) as Pd.
  { destruct (ok_px D OK) as [P1 P2]. destruct (ok_py D OK) as [P3 P4]. constructor; [|constructor; [|constructor]]; congruence. }
  apply C11_current_2d in H; [|exact Mo|lia|lia|lia|exact (sym2 _ _ Pd N1 N2)]. destruct H as [H _].
  rewrite H; [|exact Hf|exact Hp|apply interior_within; [lia|exact Hc]]. clear H. unfold shown.
  destruct (place axes ns (position p) c) as [g|] eqn:Eg.
  2:{ exfalso. inversion Hc as [|? a ? ? Ha Hb]; subst. inversion Hb as [|? b ? ? Hb' Hn]; subst. inversion Hn; subst. rewrite place_wrap in Eg by exact OK. discriminate. }
  rewrite (current_global ns ng bounds2 opp2 (npatch2 (d_ax D) (d_ay D)) (geometry2 _ _ ng ltac:(lia) G2 G3) (nbr2 (d_ax D) (d_ay D)) (sym2 _ _ Pd N1 N2) axes position) with (g := g); auto.
  2: intros; now apply hgrid2. 2: apply all2. 2: intros p0 b q Hp0 Hb; apply (nbr2_spec _ _ N1 N2 p0 b q Hp0 Hb). 2: apply (honto2 _ _ N1 N2). 2: apply (hpos2 _ _ N1 N2).
  apply Qc_is_canon. rewrite this_total, qsum_map. unfold gcurrents. rewrite this_q2qc. unfold copies_of. rewrite qsum_filter, qsum_prod. cbn [fst snd].
  change (npatch2 (d_ax D) (d_ay D)) with n.
  rewrite (qsum_ext _ (fun q => qsum (fun ss => qsum (fun r => dep (fst ss) r f g) (S_PartSync.alive (nth q (snd ss) []))) (combine sps pss))).
  - rewrite qsum_swap. apply qsum_ext. intros [sp st] I. cbn [fst snd]. unfold particles. rewrite (flat_map_nth _ []), (L st) by (eapply in_combine_r; eassumption).
    rewrite qsum_flat. reflexivity.
  - intros q Iq. apply in_seq in Iq.
    rewrite (qsum_ext _ (fun c => qsum (fun ss => qsum (fun r => if at_place q c g then contrib D (fst ss) q r f (index (extents ns ng) c) else 0%Q) (S_PartSync.alive (nth q (snd ss) []))) (combine sps pss))).
    + rewrite qsum_swap. apply qsum_ext. intros [sp st] I. cbn [fst snd]. rewrite qsum_swap. apply qsum_ext. intros r Ir.
      apply one_particle; [|lia]. apply (M st q r); [eapply in_combine_r; eassumption|lia|exact Ir].
    + intros c' Ic'. apply all_cells_in in Ic'.
      assert (0 <= index (extents ns ng) c' < NX * NY) as B by (pose proof (proj2 (good_index2 _ _ _ sizes) c' Ic') as B; unfold volume, extents in B |- *; cbn [map fold_right] in B |- *; rewrite Z.mul_1_r in B; exact B).
      pose proof (V f q _ Hf ltac:(lia) B) as E. unfold cell. generalize (at_place q c' g). intro b. destruct b.
      * exact E.
      * symmetry. apply qsum_zero. intros ss _. apply qsum_zero. reflexivity.
Qed.
(** they depend on the particles only *)
End Global.
Lemma gcurrents_eq Nx Ny dx dy dt sps pss pss' f g : (0 < dx)%Q -> (0 < dy)%Q -> Forall2 same_particles pss pss' ->
  gcurrents Nx Ny dx dy dt sps pss f g = gcurrents Nx Ny dx dy dt sps pss' f g.
Proof.
  intros D1 D2 F. unfold gcurrents. apply q2qc_eq. revert sps. induction F as [|st st' pss pss' H F IH]; intros [|sp sps]; try reflexivity.
  cbn [combine]. rewrite !qsum_cons, IH. apply Qplus_comp; [|reflexivity]. cbn [fst snd].
  assert (forall l, (qsum (fun r => gdep Nx Ny dx dy dt sp r f g) l == qsum (fun r => gdep Nx Ny dx dy dt sp r f g) (map canon l))%Q) as K.
  { intro l. rewrite qsum_map. apply qsum_ext. intros r _. apply gdep_canon; auto. symmetry. apply canon_idem. }
  rewrite K, (K (particles st')). apply qsum_perm. exact H.
Qed.
