(** C77: inside an absorbing layer the derivatives across it, and only they, are replaced by the stretched derivative of
    their depth; opposite layers are mirror images. *)
From Coq Require Import Field_theory QArith Qcanon.
From Verif Require Import Base M_Layout S_Layout M_PartSync S_PartSync M_FieldSync S_FieldSync M_Maxwell S_Maxwell M_Cpml S_Cpml.
From Verif Require Import P_PartSync3 P_FieldGeo P_Maxwell P_Maxwell2 P_Cpml P_Cpml3 P_Cpml4 P_Cpml5 P_Cpml6.
From Verif Require Properties_Cpml.
Local Open Scope Z_scope.

Section Any.
Context {V : Type} (A : arith V) (K : layer V) (zero : V).

Theorem C77_stretched_2d : forall nx ny ng dx dy n pmls dt mB mE mJ psi,
  exact_arith A zero (one_ K) -> 0 < ng -> ng <= nx -> ng <= ny -> (forall p, (p < n)%nat -> one_layer_per_axis 2 (pmls p)) ->
  forall f p c, (f < 3)%nat -> (p < n)%nat -> interior [nx; ny] c ->
  let E1 := solver_e2 A K nx ny ng dx dy n pmls dt mB mJ (mE, psi) in
  let B1 := solver_b2 A K nx ny ng dx dy n pmls dt mE (mB, psi) in
  fst E1 (cell [nx; ny] ng f p c) = stretched_E A K zero [nx; ny] ng [dx; dy] (pmls p) dt mB mJ mE psi p f c /\
  fst B1 (cell [nx; ny] ng f p c) = stretched_B A K zero [nx; ny] ng [dx; dy] (pmls p) dt mE mB psi p f c /\
  forall s, In s (pmls p) ->
    snd E1 s (pcell [nx; ny] f p c) = remembered A K [nx; ny] ng [dx; dy] true dt mB psi p f c s /\
    snd B1 s (pcell [nx; ny] f p c) = remembered A K [nx; ny] ng [dx; dy] false dt mE psi p f c s.
Proof.
  intros nx ny ng dx dy n pmls dt mB mE mJ psi (inv & Fth) Hg Hx Hy HL f p c Hf Hp Hc E1 B1.
  assert (NL : forall p, (p < n)%nat -> NoDup (pmls p)) by (intros q Hq; exact (NoDup_map_inv _ _ (proj1 (HL q Hq)))).
  destruct (stretch_E A K zero inv Fth _ _ _ _ _ _ _ mJ _ _ _ _ p f c (solver_e2_ok A K zero inv Fth nx ny ng dx dy n pmls NL Hg Hx Hy dt mB mJ mE psi) (HL p Hp) Hf Hp Hc) as [X1 X2].
  { intro v. exact (kernel_E2 A K zero inv Fth nx ny ng dx dy mB mJ p f c _ dt v Hf Hc). }
  destruct (stretch_B A K zero inv Fth _ _ _ _ _ _ _ _ _ _ _ p f c (solver_b2_ok A K zero inv Fth nx ny ng dx dy n pmls NL Hg Hx Hy dt mE mE mB psi) (HL p Hp) Hf Hp Hc) as [Y1 Y2].
  { intro v. exact (kernel_B2 A K zero inv Fth nx ny ng dx dy mE mE p f c _ dt v Hf Hc). }
  split; [exact X1|]. split; [exact Y1|]. intros s Hs. split; [exact (X2 s Hs)|exact (Y2 s Hs)].
Qed.
Theorem C77_stretched_3d : forall nx ny nz ng dx dy dz n pmls dt mB mE mJ psi,
  exact_arith A zero (one_ K) -> 0 < ng -> ng <= nx -> ng <= ny -> ng <= nz -> (forall p, (p < n)%nat -> one_layer_per_axis 3 (pmls p)) ->
  forall f p c, (f < 3)%nat -> (p < n)%nat -> interior [nx; ny; nz] c ->
  let E1 := solver_e3 A K nx ny nz ng dx dy dz n pmls dt mB mJ (mE, psi) in
  let B1 := solver_b3 A K nx ny nz ng dx dy dz n pmls dt mE (mB, psi) in
  fst E1 (cell [nx; ny; nz] ng f p c) = stretched_E A K zero [nx; ny; nz] ng [dx; dy; dz] (pmls p) dt mB mJ mE psi p f c /\
  fst B1 (cell [nx; ny; nz] ng f p c) = stretched_B A K zero [nx; ny; nz] ng [dx; dy; dz] (pmls p) dt mE mB psi p f c /\
  forall s, In s (pmls p) ->
    snd E1 s (pcell [nx; ny; nz] f p c) = remembered A K [nx; ny; nz] ng [dx; dy; dz] true dt mB psi p f c s /\
    snd B1 s (pcell [nx; ny; nz] f p c) = remembered A K [nx; ny; nz] ng [dx; dy; dz] false dt mE psi p f c s.
Proof.
  intros nx ny nz ng dx dy dz n pmls dt mB mE mJ psi (inv & Fth) Hg Hx Hy Hz HL f p c Hf Hp Hc E1 B1.
  assert (NL : forall p, (p < n)%nat -> NoDup (pmls p)) by (intros q Hq; exact (NoDup_map_inv _ _ (proj1 (HL q Hq)))).
  destruct (stretch_E A K zero inv Fth _ _ _ _ _ _ _ mJ _ _ _ _ p f c (solver_e3_ok A K zero inv Fth nx ny nz ng dx dy dz n pmls NL Hg Hx Hy Hz dt mB mJ mE psi) (HL p Hp) Hf Hp Hc) as [X1 X2].
  { intro v. exact (kernel_E3 A K zero inv Fth nx ny nz ng dx dy dz mB mJ p f c _ dt v Hf Hc). }
  destruct (stretch_B A K zero inv Fth _ _ _ _ _ _ _ _ _ _ _ p f c (solver_b3_ok A K zero inv Fth nx ny nz ng dx dy dz n pmls NL Hg Hx Hy Hz dt mE mE mB psi) (HL p Hp) Hf Hp Hc) as [Y1 Y2].
  { intro v. exact (kernel_B3 A K zero inv Fth nx ny nz ng dx dy dz mE mE p f c _ dt v Hf Hc). }
  split; [exact X1|]. split; [exact Y1|]. intros s Hs. split; [exact (X2 s Hs)|exact (Y2 s Hs)].
Qed.
(** the layers that initialisation adds are of that kind (in 3D with two or more patches along the open axes, see C75) *)
Theorem C77_layers_2d : forall ax ay nx ny th pmls p, paired [ax; ay] -> 1 <= ax_n ax -> 1 <= ax_n ay -> layers2 ax ay nx ny th pmls ->
  (p < npatch2 ax ay)%nat -> one_layer_per_axis 2 (pmls p).
Proof.
  intros ax ay nx ny th pmls p Hpa Nx Ny HL Hp. split; [exact (Properties_Cpml.C75_layers_2d_partial ax ay nx ny th pmls p Hpa Nx Ny HL Hp)|].
  intros s I. rewrite (layers2_filter ax ay nx ny th pmls Hpa HL p Hp) in I. apply filter_In in I. destruct I as [I _]. cbn in I. repeat (destruct I as [<-|I]; [cbn; lia|]). contradiction.
Qed.
Theorem C77_layers_3d : forall ax ay az nx ny th pmls p, paired [ax; ay; az] -> split_open [ax; ay; az] -> layers3 ax ay az nx ny th pmls ->
  (p < npatch3 ax ay az)%nat -> one_layer_per_axis 3 (pmls p).
Proof.
  intros ax ay az nx ny th pmls p Hpa Hsp HL Hp. split; [exact (Properties_Cpml.C75_layers_3d_partial ax ay az nx ny th pmls p Hpa Hsp HL Hp)|].
  intros s _. apply axis_lt.
Qed.
(** opposite layers are mirror images: sample i of the electric field and sample n - 1 - i, sample i of the magnetic field and
    sample n - 2 - i have the same coefficients *)
Definition mirror (s : pml_side) : pml_side := match s with PXmin => PXmax | PXmax => PXmin | PYmin => PYmax | PYmax => PYmin | PZmin => PZmax | PZmax => PZmin end.
Theorem C77_mirror : forall e s n i dt d, 0 <= i < n -> (e = false -> i < n - 1) ->
  let i' := if e then n - 1 - i else n - 2 - i in
  in_range K e (mirror s) n i' = in_range K e s n i /\
  (in_range K e s n i = true -> kappa_in A K e (mirror s) n i' = kappa_in A K e s n i /\
     bcoeff A K e (mirror s) n i' dt = bcoeff A K e s n i dt /\ ccoeff A K e (mirror s) n i' dt d = ccoeff A K e s n i dt d).
Proof.
  intros e s n i dt d Hi He i'.
  assert (Hh : half_cells e (mirror s) n i' = half_cells e s n i) by (unfold half_cells, i'; destruct s, e; cbn [mirror is_min]; lia).
  rewrite !range_depth by (unfold i'; destruct e; try specialize (He eq_refl); lia). rewrite !kappa_depth, !decay_depth, !drive_depth.
  unfold in_depth, depth. rewrite Hh. auto.
Qed.
End Any.

(** a case: in the layer the stretched value differs from the ordinary one, and the remembered value is not zero *)
Example ex_C77 : one_layer_per_axis 2 [PXmin; PYmax] /\ layer_at (Properties_Cpml.QK 2) [6; 6] [PXmin; PYmax] true [1; 5] 0 = Some PXmin /\
  layer_at (Properties_Cpml.QK 2) [6; 6] [PXmin; PYmax] true [1; 5] 1 = Some PYmax /\ layer_at (Properties_Cpml.QK 2) [6; 6] [PXmin; PYmax] false [1; 5] 1 = None /\
  remembered Properties_Cpml.QA (Properties_Cpml.QK 2) [6; 6] 1 [1%Qc; 1%Qc] true 1%Qc Properties_Cpml.ramp (fun _ _ => 0%Qc) 0 1 [1; 5] PXmin <> 0%Qc.
Proof.
  split; [split; [repeat constructor; cbn; intuition lia|intros s [<-|[<-|[]]]; cbn; lia]|]. split; [reflexivity|]. split; [reflexivity|]. split; [reflexivity|].
  intro E. apply (f_equal this) in E. vm_compute in E. discriminate.
Qed.
Print Assumptions C77_stretched_2d.
Print Assumptions C77_stretched_3d.
Print Assumptions C77_layers_2d.
Print Assumptions C77_layers_3d.
Print Assumptions C77_mirror.
