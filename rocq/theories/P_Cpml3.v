(** The kernels as stencils; the layers of a rectangular domain; histories with layers. *)
From Coq Require Import Field_theory Ring Field.
From Verif Require Import Base M_Layout S_Layout M_PartSync S_PartSync M_FieldSync S_FieldSync M_Maxwell S_Maxwell M_Cpml S_Cpml.
From Verif Require Import P_Layout P_PartSync P_PartSync2 P_PartSync3 P_Threads P_FieldGeo P_FieldPar P_FieldSync P_FieldSync2 P_FieldSync3 P_FieldSync4 P_FieldSync5 P_Maxwell P_Maxwell2 P_Maxwell3 P_Cpml P_Cpml2.
Local Open Scope Z_scope.

Section Stencils.
Context {V : Type} (A : arith V).
Local Notation "x +. y" := (plus_ A x y) (at level 50, left associativity).
Local Notation "x -. y" := (minus_ A x y) (at level 50, left associativity).
Local Notation "x *. y" := (times_ A x y) (at level 40, left associativity).
Local Notation "x /. y" := (over_ A x y) (at level 40, left associativity).
Definition KE2 (dx dy : V) (k : nat -> V) (dt : V) : @stencil V := fun f o j v =>
  let bf := dt *. csq A in let jf := dt /. eps0 A in let kx := k 0%nat in let ky := k 1%nat in
  match f with
  | 0%nat => v +. (bf /. ky *. ((o 2%nat [0; 0] -. o 2%nat [0; -1]) /. dy) -. jf *. j 0%nat)
  | 1%nat => v +. (bf /. kx *. (minus1_ A (o 2%nat [0; 0] -. o 2%nat [-1; 0]) /. dx) -. jf *. j 1%nat)
  | _ => v +. (bf /. kx *. ((o 1%nat [0; 0] -. o 1%nat [-1; 0]) /. dx) -. bf /. ky *. ((o 0%nat [0; 0] -. o 0%nat [0; -1]) /. dy) -. jf *. j 2%nat)
  end.
Definition KB2 (dx dy : V) (k : nat -> V) (dt : V) : @stencil V := fun f o j v =>
  let kx := k 0%nat in let ky := k 1%nat in
  match f with
  | 0%nat => v -. (dt /. ky *. ((o 2%nat [0; 1] -. o 2%nat [0; 0]) /. dy))
  | 1%nat => v -. (dt /. kx *. (minus1_ A (o 2%nat [1; 0] -. o 2%nat [0; 0]) /. dx))
  | _ => v -. (dt /. kx *. ((o 1%nat [1; 0] -. o 1%nat [0; 0]) /. dx) -. dt /. ky *. ((o 0%nat [0; 1] -. o 0%nat [0; 0]) /. dy))
  end.
Definition KE3 (dx dy dz : V) (k : nat -> V) (dt : V) : @stencil V := fun f o j v =>
  let bf := dt *. csq A in let jf := dt /. eps0 A in let kx := k 0%nat in let ky := k 1%nat in let kz := k 2%nat in
  match f with
  | 0%nat => v +. (bf /. ky *. (o 2%nat [0; 0; 0] -. o 2%nat [0; -1; 0]) /. dy -. bf /. kz *. (o 1%nat [0; 0; 0] -. o 1%nat [0; 0; -1]) /. dz -. jf *. j 0%nat)
  | 1%nat => v +. (bf /. kz *. (o 0%nat [0; 0; 0] -. o 0%nat [0; 0; -1]) /. dz -. bf /. kx *. (o 2%nat [0; 0; 0] -. o 2%nat [-1; 0; 0]) /. dx -. jf *. j 1%nat)
  | _ => v +. (bf /. kx *. (o 1%nat [0; 0; 0] -. o 1%nat [-1; 0; 0]) /. dx -. bf /. ky *. (o 0%nat [0; 0; 0] -. o 0%nat [0; -1; 0]) /. dy -. jf *. j 2%nat)
  end.
Definition KB3 (dx dy dz : V) (k : nat -> V) (dt : V) : @stencil V := fun f o j v =>
  let kx := k 0%nat in let ky := k 1%nat in let kz := k 2%nat in
  match f with
  | 0%nat => v -. (dt /. ky *. (o 2%nat [0; 1; 0] -. o 2%nat [0; 0; 0]) /. dy -. dt /. kz *. (o 1%nat [0; 0; 1] -. o 1%nat [0; 0; 0]) /. dz)
  | 1%nat => v -. (dt /. kz *. (o 0%nat [0; 0; 1] -. o 0%nat [0; 0; 0]) /. dz -. dt /. kx *. (o 2%nat [1; 0; 0] -. o 2%nat [0; 0; 0]) /. dx)
  | _ => v -. (dt /. kx *. (o 1%nat [1; 0; 0] -. o 1%nat [0; 0; 0]) /. dx -. dt /. ky *. (o 0%nat [0; 1; 0] -. o 0%nat [0; 0; 0]) /. dy)
  end.
Ltac nearby := first [lia | repeat (constructor; [lia|]); constructor | reflexivity].
Ltac solve_local := intros f o o' j j' v Ho Hj; cbv zeta;
  rewrite ?(Ho 0%nat), ?(Ho 1%nat), ?(Ho 2%nat), ?(Hj 0%nat), ?(Hj 1%nat), ?(Hj 2%nat) by nearby; reflexivity.
Lemma local_KE2 dx dy k dt : local 2 (KE2 dx dy k dt). Proof. unfold KE2. solve_local. Qed.
Lemma local_KB2 dx dy k dt : local 2 (KB2 dx dy k dt). Proof. unfold KB2. solve_local. Qed.
Lemma local_KE3 dx dy dz k dt : local 3 (KE3 dx dy dz k dt). Proof. unfold KE3. solve_local. Qed.
Lemma local_KB3 dx dy dz k dt : local 3 (KB3 dx dy dz k dt). Proof. unfold KB3. solve_local. Qed.
Lemma k_KE2 dx dy k k' dt f o j v : (forall a, (a < 2)%nat -> k a = k' a) -> KE2 dx dy k dt f o j v = KE2 dx dy k' dt f o j v.
Proof. intro H. unfold KE2. cbv zeta. rewrite (H 0%nat), (H 1%nat) by lia. reflexivity. Qed.
Lemma k_KB2 dx dy k k' dt f o j v : (forall a, (a < 2)%nat -> k a = k' a) -> KB2 dx dy k dt f o j v = KB2 dx dy k' dt f o j v.
Proof. intro H. unfold KB2. cbv zeta. rewrite (H 0%nat), (H 1%nat) by lia. reflexivity. Qed.
Lemma k_KE3 dx dy dz k k' dt f o j v : (forall a, (a < 3)%nat -> k a = k' a) -> KE3 dx dy dz k dt f o j v = KE3 dx dy dz k' dt f o j v.
Proof. intro H. unfold KE3. cbv zeta. rewrite (H 0%nat), (H 1%nat), (H 2%nat) by lia. reflexivity. Qed.
Lemma k_KB3 dx dy dz k k' dt f o j v : (forall a, (a < 3)%nat -> k a = k' a) -> KB3 dx dy dz k dt f o j v = KB3 dx dy dz k' dt f o j v.
Proof. intro H. unfold KB3. cbv zeta. rewrite (H 0%nat), (H 1%nat), (H 2%nat) by lia. reflexivity. Qed.

(** with coefficients one the kernels agree with the ordinary ones (exact arithmetic) *)
Section Exact.
Variables (zero one : V) (inv : V -> V).
Hypothesis Fth : field_theory zero one (plus_ A) (times_ A) (minus_ A) (minus1_ A) (over_ A) inv (@eq V).
Lemma Rth' : ring_theory zero one (plus_ A) (times_ A) (minus_ A) (minus1_ A) (@eq V). Proof using Fth. exact (F_R Fth). Qed.
Add Ring VR' : Rth'.
Lemma inv_one : inv one = one.
Proof using Fth. pose proof (Finv_l Fth one (F_1_neq_0 Fth)) as E. rewrite <- E at 2. ring. Qed.
Ltac ex := cbv zeta; rewrite ?(Fdiv_def Fth), ?inv_one; ring.
Lemma one_KE2 dx dy k dt f o j v : (forall a, k a = one) -> KE2 dx dy k dt f o j v = SE2 A dx dy dt f o j v.
Proof using Fth. intro H. unfold KE2, SE2. rewrite !H. destruct f as [|[|f]]; ex. Qed.
Lemma one_KB2 dx dy k dt f o j v : (forall a, k a = one) -> KB2 dx dy k dt f o j v = SB2 A dx dy dt f o j v.
Proof using Fth. intro H. unfold KB2, SB2. rewrite !H. destruct f as [|[|f]]; ex. Qed.
Lemma one_KE3 dx dy dz k dt f o j v : (forall a, k a = one) -> KE3 dx dy dz k dt f o j v = SE3 A dx dy dz dt f o j v.
Proof using Fth. intro H. unfold KE3, SE3. rewrite !H. destruct f as [|[|f]]; ex. Qed.
Lemma one_KB3 dx dy dz k dt f o j v : (forall a, k a = one) -> KB3 dx dy dz k dt f o j v = SB3 A dx dy dz dt f o j v.
Proof using Fth. intro H. unfold KB3, SB3. rewrite !H. destruct f as [|[|f]]; ex. Qed.
End Exact.

(** ** one patch *)
Definition patch_done (ns : list Z) (ng : Z) (h : nat -> list Z -> V -> V) (p : nat) (m m' : addr -> V) : Prop :=
  (forall f c, (f < 3)%nat -> interior ns c -> m' (cell ns ng f p c) = h f c (m (cell ns ng f p c))) /\
  (forall a, (forall f c, (f < 3)%nat -> interior ns c -> a <> cell ns ng f p c) -> m' a = m a).
Lemma patch_of ns ng bounds opp (G : geometry ns ng bounds opp) h body p m m' : visit ns ng p h body -> m' = fold_left body (block ns) m -> patch_done ns ng h p m m'.
Proof.
  intros HV ->. destruct (loop_result ns ng (inj_interior ns ng bounds opp G) p h body HV (block ns) m (block_NoDup ns)) as [L1 L2].
  - intros c Hc. now apply block_in in Hc.
  - split; [intros f c Hf Hc; apply L1; auto; now apply block_in|]. intros a Ha. apply L2. intros f c Hf Hc. apply Ha; auto. now apply block_in in Hc.
Qed.
Lemma patch_done_ext ns ng h h' p m m' : (forall f c v, h f c v = h' f c v) -> patch_done ns ng h p m m' -> patch_done ns ng h' p m m'.
Proof. intros E [H1 H2]. split; auto. intros f c Hf Hc. rewrite <- E. auto. Qed.
Lemma done_ext ns ng h h' p m m' : (forall f c v, h f c v = h' f c v) -> patch_done ns ng h p m m' ->
  (forall f c, (f < 3)%nat -> interior ns c -> m' (cell ns ng f p c) = h' f c (m (cell ns ng f p c))) /\
  (forall a, (forall f c, (f < 3)%nat -> interior ns c -> a <> cell ns ng f p c) -> m' a = m a).
Proof. intros E H. exact (patch_done_ext ns ng h h' p m m' E H). Qed.
Notation around ns ng m p c := (fun (f' : nat) (d : list Z) => m (cell ns ng f' p (add c d))).
Notation here_ ns ng m p c := (fun f' : nat => m (cell ns ng f' p c)).
Ltac interior_cases Hc :=
  match type of Hc with interior [_; _; _] ?c => inversion Hc as [|? i ? t Hi Ht]; subst; inversion Ht as [|? j ? t' Hj Ht']; subst; inversion Ht' as [|? k ? t'' Hk Ht'']; subst; inversion Ht''; subst
  | interior [_; _] ?c => inversion Hc as [|? i ? t Hi Ht]; subst; inversion Ht as [|? j ? t' Hj Ht']; subst; inversion Ht'; subst end.
Ltac solve_visit u Hc :=
  interior_cases Hc; cbv beta iota;
  match goal with |- (forall f, _ -> ?m' _ = _) /\ _ =>
    match m' with ?b2 2%nat ?p ?o ?v2 (?b1 1%nat ?p ?o ?v1 (?b0 0%nat ?p ?o ?v0 ?m)) =>
      destruct (three_writes u p o v0 v1 v2 m) as (W0 & W1 & W2 & W3);
      unfold cell; split; [|intros a Ha; apply W3; exact Ha];
      intros f Hf; destruct f as [|[|[|f]]]; [| | |lia]; cbv beta iota zeta delta [KE2 KB2 KE3 KB3 SE2 SB2 SE3 SB3]; cbn [add]; rewrite ?Z.add_0_r;
      [exact W0|exact W1|exact W2] end end.
Ltac solve_patch G u unfolder blk :=
  eapply (patch_of _ _ _ _ G);
  [ | unfolder; cbv zeta; blk];
  intros m0 c Hc; solve_visit u Hc.
Lemma efield2 nx ny ng dx dy dt mB mJ p m : 0 < ng -> ng <= nx -> ng <= ny ->
  patch_done [nx; ny] ng (fun f c v => SE2 A dx dy dt f (around [nx; ny] ng mB p c) (here_ [nx; ny] ng mJ p c) v) p m (update_efield_2d A nx ny ng dx dy dt mB mJ m p).
Proof. intros H1 H2 H3. pose proof (geometry2 nx ny ng H1 H2 H3) as G. solve_patch G (plus_ A) ltac:(unfold update_efield_2d) ltac:(apply block2). Qed.
Lemma bfield2 nx ny ng dx dy dt mE mJ p m : 0 < ng -> ng <= nx -> ng <= ny ->
  patch_done [nx; ny] ng (fun f c v => SB2 A dx dy dt f (around [nx; ny] ng mE p c) (here_ [nx; ny] ng mJ p c) v) p m (update_bfield_2d A nx ny ng dx dy dt mE m p).
Proof. intros H1 H2 H3. pose proof (geometry2 nx ny ng H1 H2 H3) as G. solve_patch G (minus_ A) ltac:(unfold update_bfield_2d) ltac:(apply block2). Qed.
Lemma efieldk2 nx ny ng dx dy (kx ky : Z -> V) dt mB mJ p m : 0 < ng -> ng <= nx -> ng <= ny ->
  patch_done [nx; ny] ng (fun f c v => KE2 dx dy (fun a => match a with 0%nat => kx (coord 0 c) | _ => ky (coord 1 c) end) dt f (around [nx; ny] ng mB p c) (here_ [nx; ny] ng mJ p c) v) p m
    (update_efield_cpml_2d A nx ny ng dx dy kx ky dt mB mJ m p).
Proof. intros H1 H2 H3. pose proof (geometry2 nx ny ng H1 H2 H3) as G. solve_patch G (plus_ A) ltac:(unfold update_efield_cpml_2d) ltac:(apply block2). Qed.
Lemma bfieldk2 nx ny ng dx dy (kx ky : Z -> V) dt mE mJ p m : 0 < ng -> ng <= nx -> ng <= ny ->
  patch_done [nx; ny] ng (fun f c v => KB2 dx dy (fun a => match a with 0%nat => kx (coord 0 c) | _ => ky (coord 1 c) end) dt f (around [nx; ny] ng mE p c) (here_ [nx; ny] ng mJ p c) v) p m
    (update_bfield_cpml_2d A nx ny ng dx dy kx ky dt mE m p).
Proof. intros H1 H2 H3. pose proof (geometry2 nx ny ng H1 H2 H3) as G. solve_patch G (minus_ A) ltac:(unfold update_bfield_cpml_2d) ltac:(apply block2). Qed.
Lemma efield3 nx ny nz ng dx dy dz dt mB mJ p m : 0 < ng -> ng <= nx -> ng <= ny -> ng <= nz ->
  patch_done [nx; ny; nz] ng (fun f c v => SE3 A dx dy dz dt f (around [nx; ny; nz] ng mB p c) (here_ [nx; ny; nz] ng mJ p c) v) p m (update_efield_3d A nx ny nz ng dx dy dz dt mB mJ m p).
Proof. intros H1 H2 H3 H4. pose proof (geometry3 nx ny nz ng H1 H2 H3 H4) as G. solve_patch G (plus_ A) ltac:(unfold update_efield_3d) ltac:(apply block3). Qed.
Lemma bfield3 nx ny nz ng dx dy dz dt mE mJ p m : 0 < ng -> ng <= nx -> ng <= ny -> ng <= nz ->
  patch_done [nx; ny; nz] ng (fun f c v => SB3 A dx dy dz dt f (around [nx; ny; nz] ng mE p c) (here_ [nx; ny; nz] ng mJ p c) v) p m (update_bfield_3d A nx ny nz ng dx dy dz dt mE m p).
Proof. intros H1 H2 H3 H4. pose proof (geometry3 nx ny nz ng H1 H2 H3 H4) as G. solve_patch G (minus_ A) ltac:(unfold update_bfield_3d) ltac:(apply block3). Qed.
Lemma efieldk3 nx ny nz ng dx dy dz (kx ky kz : Z -> V) dt mB mJ p m : 0 < ng -> ng <= nx -> ng <= ny -> ng <= nz ->
  patch_done [nx; ny; nz] ng (fun f c v => KE3 dx dy dz (fun a => match a with 0%nat => kx (coord 0 c) | 1%nat => ky (coord 1 c) | _ => kz (coord 2 c) end) dt f (around [nx; ny; nz] ng mB p c) (here_ [nx; ny; nz] ng mJ p c) v) p m
    (update_efield_cpml_3d A nx ny nz ng dx dy dz kx ky kz dt mB mJ m p).
Proof. intros H1 H2 H3 H4. pose proof (geometry3 nx ny nz ng H1 H2 H3 H4) as G. solve_patch G (plus_ A) ltac:(unfold update_efield_cpml_3d) ltac:(apply block3). Qed.
Lemma bfieldk3 nx ny nz ng dx dy dz (kx ky kz : Z -> V) dt mE mJ p m : 0 < ng -> ng <= nx -> ng <= ny -> ng <= nz ->
  patch_done [nx; ny; nz] ng (fun f c v => KB3 dx dy dz (fun a => match a with 0%nat => kx (coord 0 c) | 1%nat => ky (coord 1 c) | _ => kz (coord 2 c) end) dt f (around [nx; ny; nz] ng mE p c) (here_ [nx; ny; nz] ng mJ p c) v) p m
    (update_bfield_cpml_3d A nx ny nz ng dx dy dz kx ky kz dt mE m p).
Proof. intros H1 H2 H3 H4. pose proof (geometry3 nx ny nz ng H1 H2 H3 H4) as G. solve_patch G (minus_ A) ltac:(unfold update_bfield_cpml_3d) ltac:(apply block3). Qed.
End Stencils.

(** ** the solver *)
Lemma pinj2 nx ny f p c f' p' c' : interior [nx; ny] c -> interior [nx; ny] c' -> pcell [nx; ny] f p c = pcell [nx; ny] f' p' c' -> f = f' /\ p = p' /\ c = c'.
Proof.
  intros H H' E. inversion H as [|? i ? t Hi Ht]; subst. inversion Ht as [|? j ? t' Hj Ht']; subst. inversion Ht'; subst.
  inversion H' as [|? i' ? u Hi' Hu]; subst. inversion Hu as [|? j' ? u' Hj' Hu']; subst. inversion Hu'; subst.
  unfold pcell in E. inversion E as [[E1 E2 E3]]. cbn [index] in E3. unfold widx in E3.
  replace (0 <=? i) with true in E3 by lia. replace (0 <=? j) with true in E3 by lia. replace (0 <=? i') with true in E3 by lia. replace (0 <=? j') with true in E3 by lia.
  apply pair_inj in E3; auto. destruct E3 as [-> ->]. auto.
Qed.
Lemma pinj3 nx ny nz f p c f' p' c' : interior [nx; ny; nz] c -> interior [nx; ny; nz] c' -> pcell [nx; ny; nz] f p c = pcell [nx; ny; nz] f' p' c' -> f = f' /\ p = p' /\ c = c'.
Proof.
  intros H H' E. inversion H as [|? i ? t Hi Ht]; subst. inversion Ht as [|? j ? t' Hj Ht']; subst. inversion Ht' as [|? k ? t2 Hk Ht2]; subst. inversion Ht2; subst.
  inversion H' as [|? i' ? u Hi' Hu]; subst. inversion Hu as [|? j' ? u' Hj' Hu']; subst. inversion Hu' as [|? k' ? u2 Hk' Hu2]; subst. inversion Hu2; subst.
  unfold pcell in E. inversion E as [[E1 E2 E3]]. cbn [index] in E3. unfold widx in E3.
  replace (0 <=? i) with true in E3 by lia. replace (0 <=? j) with true in E3 by lia. replace (0 <=? i') with true in E3 by lia. replace (0 <=? j') with true in E3 by lia.
  replace (0 <=? k) with true in E3 by lia. replace (0 <=? k') with true in E3 by lia.
  assert (E4 : k + (j + i * ny) * nz = k' + (j' + i' * ny) * nz) by lia. apply pair_inj in E4; auto. destruct E4 as [E4 ->]. apply pair_inj in E4; auto. destruct E4 as [-> ->]. auto.
Qed.
Section Solver.
Context {V : Type} (A : arith V) (K : layer V) (zero : V) (inv : V -> V).
Hypothesis Fth : field_theory zero (one_ K) (plus_ A) (times_ A) (minus_ A) (minus1_ A) (over_ A) inv (@eq V).
Notation klist e pmls p ns := (fun c a => kappa_list A K e (pmls p) a (size_ ns a) (coord a c)).
Lemma kone e (pmls : nat -> list pml_side) p ns c : pmls p = [] -> forall a, kappa_list A K e (pmls p) a (size_ ns a) (coord a c) = one_ K.
Proof. intros -> a. reflexivity. Qed.
Section D2.
Variables (nx ny ng : Z) (dx dy : V) (n : nat) (pmls : nat -> list pml_side).
Hypothesis NL : forall p, (p < n)%nat -> NoDup (pmls p).
Hypothesis H1 : 0 < ng. Hypothesis H2 : ng <= nx. Hypothesis H3 : ng <= ny.
Lemma solver_e2_ok dt mB mJ m psi : layered A K [nx; ny] ng [dx; dy] n pmls true dt mB
    (fun p f c v => KE2 A dx dy (fun a => kappa_list A K true (pmls p) a (size_ [nx; ny] a) (coord a c)) dt f (fun f' d => mB (cell [nx; ny] ng f' p (add c d))) (fun f' => mJ (cell [nx; ny] ng f' p c)) v)
    (m, psi) (solver_e2 A K nx ny ng dx dy n pmls dt mB mJ (m, psi)).
Proof.
  unfold solver_e2. apply (solver_result A K [nx; ny] ng [dx; dy] (inj_interior [nx; ny] ng bounds2 opp2 (geometry2 nx ny ng H1 H2 H3)) (pinj2 nx ny) n pmls NL).
  - intros p m0 E. eapply (done_ext [nx; ny] ng _ (fun f c v => KE2 A dx dy (fun a => kappa_list A K true (pmls p) a (size_ [nx; ny] a) (coord a c)) dt f (fun f' d => mB (cell [nx; ny] ng f' p (add c d))) (fun f' => mJ (cell [nx; ny] ng f' p c)) v)); [|apply (efield2 A nx ny ng dx dy dt mB mJ p m0 H1 H2 H3)]. intros f c v. symmetry. apply (one_KE2 A _ _ _ Fth). intro a. now apply kone.
  - intros p m0 E. eapply (done_ext [nx; ny] ng _ (fun f c v => KE2 A dx dy (fun a => kappa_list A K true (pmls p) a (size_ [nx; ny] a) (coord a c)) dt f (fun f' d => mB (cell [nx; ny] ng f' p (add c d))) (fun f' => mJ (cell [nx; ny] ng f' p c)) v)); [|apply (efieldk2 A nx ny ng dx dy (kappa_list A K true (pmls p) 0 nx) (kappa_list A K true (pmls p) 1 ny) dt mB mJ p m0 H1 H2 H3)]. intros f c v. apply k_KE2.
    intros [|[|a]] Ha; [reflexivity|reflexivity|lia].
Qed.
Lemma solver_b2_ok dt mE mJ m psi : layered A K [nx; ny] ng [dx; dy] n pmls false dt mE
    (fun p f c v => KB2 A dx dy (fun a => kappa_list A K false (pmls p) a (size_ [nx; ny] a) (coord a c)) dt f (fun f' d => mE (cell [nx; ny] ng f' p (add c d))) (fun f' => mJ (cell [nx; ny] ng f' p c)) v)
    (m, psi) (solver_b2 A K nx ny ng dx dy n pmls dt mE (m, psi)).
Proof.
  unfold solver_b2. apply (solver_result A K [nx; ny] ng [dx; dy] (inj_interior [nx; ny] ng bounds2 opp2 (geometry2 nx ny ng H1 H2 H3)) (pinj2 nx ny) n pmls NL).
  - intros p m0 E. eapply (done_ext [nx; ny] ng _ (fun f c v => KB2 A dx dy (fun a => kappa_list A K false (pmls p) a (size_ [nx; ny] a) (coord a c)) dt f (fun f' d => mE (cell [nx; ny] ng f' p (add c d))) (fun f' => mJ (cell [nx; ny] ng f' p c)) v)); [|apply (bfield2 A nx ny ng dx dy dt mE mJ p m0 H1 H2 H3)]. intros f c v. symmetry. apply (one_KB2 A _ _ _ Fth). intro a. now apply kone.
  - intros p m0 E. eapply (done_ext [nx; ny] ng _ (fun f c v => KB2 A dx dy (fun a => kappa_list A K false (pmls p) a (size_ [nx; ny] a) (coord a c)) dt f (fun f' d => mE (cell [nx; ny] ng f' p (add c d))) (fun f' => mJ (cell [nx; ny] ng f' p c)) v)); [|apply (bfieldk2 A nx ny ng dx dy (kappa_list A K false (pmls p) 0 nx) (kappa_list A K false (pmls p) 1 ny) dt mE mJ p m0 H1 H2 H3)]. intros f c v. apply k_KB2.
    intros [|[|a]] Ha; [reflexivity|reflexivity|lia].
Qed.
End D2.
Section D3.
Variables (nx ny nz ng : Z) (dx dy dz : V) (n : nat) (pmls : nat -> list pml_side).
Hypothesis NL : forall p, (p < n)%nat -> NoDup (pmls p).
Hypothesis H1 : 0 < ng. Hypothesis H2 : ng <= nx. Hypothesis H3 : ng <= ny. Hypothesis H4 : ng <= nz.
Lemma solver_e3_ok dt mB mJ m psi : layered A K [nx; ny; nz] ng [dx; dy; dz] n pmls true dt mB
    (fun p f c v => KE3 A dx dy dz (fun a => kappa_list A K true (pmls p) a (size_ [nx; ny; nz] a) (coord a c)) dt f (fun f' d => mB (cell [nx; ny; nz] ng f' p (add c d))) (fun f' => mJ (cell [nx; ny; nz] ng f' p c)) v)
    (m, psi) (solver_e3 A K nx ny nz ng dx dy dz n pmls dt mB mJ (m, psi)).
Proof.
  unfold solver_e3. apply (solver_result A K [nx; ny; nz] ng [dx; dy; dz] (inj_interior [nx; ny; nz] ng bounds3 opp3 (geometry3 nx ny nz ng H1 H2 H3 H4)) (pinj3 nx ny nz) n pmls NL).
  - intros p m0 E. eapply (done_ext [nx; ny; nz] ng _ (fun f c v => KE3 A dx dy dz (fun a => kappa_list A K true (pmls p) a (size_ [nx; ny; nz] a) (coord a c)) dt f (fun f' d => mB (cell [nx; ny; nz] ng f' p (add c d))) (fun f' => mJ (cell [nx; ny; nz] ng f' p c)) v)); [|apply (efield3 A nx ny nz ng dx dy dz dt mB mJ p m0 H1 H2 H3 H4)]. intros f c v. symmetry. apply (one_KE3 A _ _ _ Fth). intro a. now apply kone.
  - intros p m0 E. eapply (done_ext [nx; ny; nz] ng _ (fun f c v => KE3 A dx dy dz (fun a => kappa_list A K true (pmls p) a (size_ [nx; ny; nz] a) (coord a c)) dt f (fun f' d => mB (cell [nx; ny; nz] ng f' p (add c d))) (fun f' => mJ (cell [nx; ny; nz] ng f' p c)) v)); [|apply (efieldk3 A nx ny nz ng dx dy dz (kappa_list A K true (pmls p) 0 nx) (kappa_list A K true (pmls p) 1 ny) (kappa_list A K true (pmls p) 2 nz) dt mB mJ p m0 H1 H2 H3 H4)].
    intros f c v. apply k_KE3. intros [|[|[|a]]] Ha; [reflexivity|reflexivity|reflexivity|lia].
Qed.
Lemma solver_b3_ok dt mE mJ m psi : layered A K [nx; ny; nz] ng [dx; dy; dz] n pmls false dt mE
    (fun p f c v => KB3 A dx dy dz (fun a => kappa_list A K false (pmls p) a (size_ [nx; ny; nz] a) (coord a c)) dt f (fun f' d => mE (cell [nx; ny; nz] ng f' p (add c d))) (fun f' => mJ (cell [nx; ny; nz] ng f' p c)) v)
    (m, psi) (solver_b3 A K nx ny nz ng dx dy dz n pmls dt mE (m, psi)).
Proof.
  unfold solver_b3. apply (solver_result A K [nx; ny; nz] ng [dx; dy; dz] (inj_interior [nx; ny; nz] ng bounds3 opp3 (geometry3 nx ny nz ng H1 H2 H3 H4)) (pinj3 nx ny nz) n pmls NL).
  - intros p m0 E. eapply (done_ext [nx; ny; nz] ng _ (fun f c v => KB3 A dx dy dz (fun a => kappa_list A K false (pmls p) a (size_ [nx; ny; nz] a) (coord a c)) dt f (fun f' d => mE (cell [nx; ny; nz] ng f' p (add c d))) (fun f' => mJ (cell [nx; ny; nz] ng f' p c)) v)); [|apply (bfield3 A nx ny nz ng dx dy dz dt mE mJ p m0 H1 H2 H3 H4)]. intros f c v. symmetry. apply (one_KB3 A _ _ _ Fth). intro a. now apply kone.
  - intros p m0 E. eapply (done_ext [nx; ny; nz] ng _ (fun f c v => KB3 A dx dy dz (fun a => kappa_list A K false (pmls p) a (size_ [nx; ny; nz] a) (coord a c)) dt f (fun f' d => mE (cell [nx; ny; nz] ng f' p (add c d))) (fun f' => mJ (cell [nx; ny; nz] ng f' p c)) v)); [|apply (bfieldk3 A nx ny nz ng dx dy dz (kappa_list A K false (pmls p) 0 nx) (kappa_list A K false (pmls p) 1 ny) (kappa_list A K false (pmls p) 2 nz) dt mE mJ p m0 H1 H2 H3 H4)].
    intros f c v. apply k_KB3. intros [|[|[|a]]] Ha; [reflexivity|reflexivity|reflexivity|lia].
Qed.
End D3.
End Solver.
