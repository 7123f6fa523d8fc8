(** The four updates as stencils; histories of updates; divergences. *)
From Coq Require Import Field_theory Ring.
From Verif Require Import Base M_Layout S_Layout M_PartSync S_PartSync M_FieldSync S_FieldSync M_Maxwell S_Maxwell.
From Verif Require Import P_Layout P_PartSync P_PartSync2 P_PartSync3 P_Threads P_FieldGeo P_FieldPar P_FieldSync P_FieldSync2 P_FieldSync3 P_FieldSync4 P_FieldSync5 P_Maxwell.
Local Open Scope Z_scope.

Section Stencils.
Context {V : Type} (A : arith V).
Local Notation "x +. y" := (plus_ A x y) (at level 50, left associativity).
Local Notation "x -. y" := (minus_ A x y) (at level 50, left associativity).
Local Notation "x *. y" := (times_ A x y) (at level 40, left associativity).
Local Notation "x /. y" := (over_ A x y) (at level 40, left associativity).
Definition SE2 (dx dy dt : V) : @stencil V := fun f o j v =>
  let bf := dt *. csq A in let jf := dt /. eps0 A in
  match f with
  | 0%nat => v +. (bf *. ((o 2%nat [0; 0] -. o 2%nat [0; -1]) /. dy) -. jf *. j 0%nat)
  | 1%nat => v +. (bf *. (minus1_ A (o 2%nat [0; 0] -. o 2%nat [-1; 0]) /. dx) -. jf *. j 1%nat)
  | _ => v +. (bf *. ((o 1%nat [0; 0] -. o 1%nat [-1; 0]) /. dx -. (o 0%nat [0; 0] -. o 0%nat [0; -1]) /. dy) -. jf *. j 2%nat)
  end.
Definition SB2 (dx dy dt : V) : @stencil V := fun f o j v =>
  match f with
  | 0%nat => v -. (dt *. ((o 2%nat [0; 1] -. o 2%nat [0; 0]) /. dy))
  | 1%nat => v -. (dt *. (minus1_ A (o 2%nat [1; 0] -. o 2%nat [0; 0]) /. dx))
  | _ => v -. (dt *. ((o 1%nat [1; 0] -. o 1%nat [0; 0]) /. dx -. (o 0%nat [0; 1] -. o 0%nat [0; 0]) /. dy))
  end.
Definition SE3 (dx dy dz dt : V) : @stencil V := fun f o j v =>
  let bf := dt *. csq A in let jf := dt /. eps0 A in
  match f with
  | 0%nat => v +. (bf *. ((o 2%nat [0; 0; 0] -. o 2%nat [0; -1; 0]) /. dy -. (o 1%nat [0; 0; 0] -. o 1%nat [0; 0; -1]) /. dz) -. jf *. j 0%nat)
  | 1%nat => v +. (bf *. ((o 0%nat [0; 0; 0] -. o 0%nat [0; 0; -1]) /. dz -. (o 2%nat [0; 0; 0] -. o 2%nat [-1; 0; 0]) /. dx) -. jf *. j 1%nat)
  | _ => v +. (bf *. ((o 1%nat [0; 0; 0] -. o 1%nat [-1; 0; 0]) /. dx -. (o 0%nat [0; 0; 0] -. o 0%nat [0; -1; 0]) /. dy) -. jf *. j 2%nat)
  end.
Definition SB3 (dx dy dz dt : V) : @stencil V := fun f o j v =>
  match f with
  | 0%nat => v -. (dt *. ((o 2%nat [0; 1; 0] -. o 2%nat [0; 0; 0]) /. dy -. (o 1%nat [0; 0; 1] -. o 1%nat [0; 0; 0]) /. dz))
  | 1%nat => v -. (dt *. ((o 0%nat [0; 0; 1] -. o 0%nat [0; 0; 0]) /. dz -. (o 2%nat [1; 0; 0] -. o 2%nat [0; 0; 0]) /. dx))
  | _ => v -. (dt *. ((o 1%nat [1; 0; 0] -. o 1%nat [0; 0; 0]) /. dx -. (o 0%nat [0; 1; 0] -. o 0%nat [0; 0; 0]) /. dy))
  end.

Ltac nearby := first [lia | repeat (constructor; [lia|]); constructor | reflexivity].
Lemma local_SE2 dx dy dt : local 2 (SE2 dx dy dt).
Proof.
  intros f o o' j j' v Ho Hj. unfold SE2. cbv zeta.
  rewrite !(Ho 0%nat), !(Ho 1%nat), !(Ho 2%nat), !(Hj 0%nat), !(Hj 1%nat), !(Hj 2%nat) by nearby. reflexivity.
Qed.
Lemma local_SB2 dx dy dt : local 2 (SB2 dx dy dt).
Proof.
  intros f o o' j j' v Ho Hj. unfold SB2. cbv zeta.
  rewrite !(Ho 0%nat), !(Ho 1%nat), !(Ho 2%nat) by nearby. reflexivity.
Qed.
Lemma local_SE3 dx dy dz dt : local 3 (SE3 dx dy dz dt).
Proof.
  intros f o o' j j' v Ho Hj. unfold SE3. cbv zeta.
  rewrite !(Ho 0%nat), !(Ho 1%nat), !(Ho 2%nat), !(Hj 0%nat), !(Hj 1%nat), !(Hj 2%nat) by nearby. reflexivity.
Qed.
Lemma local_SB3 dx dy dz dt : local 3 (SB3 dx dy dz dt).
Proof.
  intros f o o' j j' v Ho Hj. unfold SB3. cbv zeta.
  rewrite !(Ho 0%nat), !(Ho 1%nat), !(Ho 2%nat) by nearby. reflexivity.
Qed.

(** three writes at one cell *)
Definition write (u : V -> V -> V) (f p : nat) (o : Z) (v : V) (m : memory V) : memory V := put (Fld f p o) (u (m (Fld f p o)) v) m.
Lemma write_eq u f p o v m : write u f p o v m (Fld f p o) = u (m (Fld f p o)) v. Proof. apply put_eq. Qed.
Lemma write_neq u f p o v m a : a <> Fld f p o -> write u f p o v m a = m a. Proof. intro H. now apply put_neq. Qed.
Lemma three_writes u p o v0 v1 v2 m :
  let m' := write u 2 p o v2 (write u 1 p o v1 (write u 0 p o v0 m)) in
  m' (Fld 0 p o) = u (m (Fld 0 p o)) v0 /\ m' (Fld 1 p o) = u (m (Fld 1 p o)) v1 /\ m' (Fld 2 p o) = u (m (Fld 2 p o)) v2 /\
  (forall a, (forall f, (f < 3)%nat -> a <> Fld f p o) -> m' a = m a).
Proof.
  intro m'. unfold m'. repeat split.
  - rewrite write_neq by discriminate. rewrite write_neq by discriminate. apply write_eq.
  - rewrite write_neq by discriminate. rewrite write_eq. rewrite write_neq by discriminate. reflexivity.
  - rewrite write_eq. rewrite write_neq by discriminate. rewrite write_neq by discriminate. reflexivity.
  - intros a Ha. rewrite !write_neq by (apply Ha; lia). reflexivity.
Qed.

Section U.
Variables (ns : list Z) (ng : Z) (bounds : list (list Z)) (opp : nat -> nat) (n : nat).
Hypothesis G : geometry ns ng bounds opp.
Lemma inj_interior f p c f' p' c' : interior ns c -> interior ns c' -> cell ns ng f p c = cell ns ng f' p' c' -> f = f' /\ p = p' /\ c = c'.
Proof using G. intros H H'. apply (cell_inj ns ng bounds opp G); apply interior_within; auto; apply (ng_pos ns ng bounds opp G). Qed.
Lemma updated_of (S : @stencil V) mO mJ (h : nat -> nat -> list Z -> V -> V) (bodies : nat -> (addr -> V) -> list Z -> addr -> V) m m' :
  (forall p, visit ns ng p (h p) (bodies p)) ->
  (forall f p c v, (f < 3)%nat -> interior ns c -> h p f c v = S f (fun f' d => mO (cell ns ng f' p (add c d))) (fun f' => mJ (cell ns ng f' p c)) v) ->
  m' = fold_left (fun m p => fold_left (bodies p) (block ns) m) (seq 0 n) m ->
  updated S ns ng n mO mJ m m'.
Proof using G.
  intros HV HS ->. destruct (patches_result ns ng inj_interior n h (fun m p => fold_left (bodies p) (block ns) m)) with (m := m) as [R1 R2].
  - intros p m0. destruct (loop_result ns ng inj_interior p (h p) (bodies p) (HV p) (block ns) m0 (block_NoDup ns)) as [L1 L2].
    + intros c Hc. now apply block_in in Hc.
    + split; [intros f c Hf Hc; apply L1; auto; now apply block_in|]. intros a Ha. apply L2. intros f c Hf Hc. apply Ha; auto. now apply block_in in Hc.
  - split; [|exact R2]. intros f p c Hf Hp Hc. rewrite (R1 f p c Hf Hp Hc). now apply HS.
Qed.
End U.

Ltac interior_cases Hc :=
  match type of Hc with interior [_; _; _] ?c => inversion Hc as [|? i ? t Hi Ht]; subst; inversion Ht as [|? j ? t' Hj Ht']; subst; inversion Ht' as [|? k ? t'' Hk Ht'']; subst; inversion Ht''; subst
  | interior [_; _] ?c => inversion Hc as [|? i ? t Hi Ht]; subst; inversion Ht as [|? j ? t' Hj Ht']; subst; inversion Ht'; subst end.

Ltac solve_visit u Hc :=
  interior_cases Hc; cbv beta iota;
  match goal with |- (forall f, _ -> ?m' _ = _) /\ _ =>
    match m' with ?b2 2%nat ?p ?o ?v2 (?b1 1%nat ?p ?o ?v1 (?b0 0%nat ?p ?o ?v0 ?m)) =>
      destruct (three_writes u p o v0 v1 v2 m) as (W0 & W1 & W2 & W3);
      unfold cell; split; [|intros a Ha; apply W3; exact Ha];
      intros f Hf; destruct f as [|[|[|f]]]; [| | |lia]; cbv beta iota zeta delta [SE2 SB2 SE3 SB3]; cbn [add]; rewrite ?Z.add_0_r;
      [exact W0|exact W1|exact W2] end end.

Ltac solve_updated ns ng bounds opp n G S mO mJ u unfolder blk :=
  eapply (updated_of ns ng bounds opp n G S mO mJ
    (fun p f c v => S f (fun f' d => mO (cell ns ng f' p (add c d))) (fun f' => mJ (cell ns ng f' p c)) v));
  [ | reflexivity | unfolder; apply fold_ext_in; intros m0 p _; unfolder; cbv zeta; blk];
  intros p m0 c Hc; solve_visit u Hc.
Lemma update_efield2_ok nx ny ng n dx dy dt mB mJ m : 0 < ng -> ng <= nx -> ng <= ny ->
  updated (SE2 dx dy dt) [nx; ny] ng n mB mJ m (update_efield2 A nx ny ng dx dy n dt mB mJ m).
Proof.
  intros H1 H2 H3. pose proof (geometry2 nx ny ng H1 H2 H3) as G.
  solve_updated [nx; ny] ng bounds2 opp2 n G (SE2 dx dy dt) mB mJ (plus_ A) ltac:(unfold update_efield2, update_efield_2d) ltac:(apply block2).
Qed.
Lemma update_bfield2_ok nx ny ng n dx dy dt mE mJ m : 0 < ng -> ng <= nx -> ng <= ny ->
  updated (SB2 dx dy dt) [nx; ny] ng n mE mJ m (update_bfield2 A nx ny ng dx dy n dt mE m).
Proof.
  intros H1 H2 H3. pose proof (geometry2 nx ny ng H1 H2 H3) as G.
  solve_updated [nx; ny] ng bounds2 opp2 n G (SB2 dx dy dt) mE mJ (minus_ A) ltac:(unfold update_bfield2, update_bfield_2d) ltac:(apply block2).
Qed.
Lemma update_efield3_ok nx ny nz ng n dx dy dz dt mB mJ m : 0 < ng -> ng <= nx -> ng <= ny -> ng <= nz ->
  updated (SE3 dx dy dz dt) [nx; ny; nz] ng n mB mJ m (update_efield3 A nx ny nz ng dx dy dz n dt mB mJ m).
Proof.
  intros H1 H2 H3 H4. pose proof (geometry3 nx ny nz ng H1 H2 H3 H4) as G.
  solve_updated [nx; ny; nz] ng bounds3 opp3 n G (SE3 dx dy dz dt) mB mJ (plus_ A) ltac:(unfold update_efield3, update_efield_3d) ltac:(apply block3).
Qed.
Lemma update_bfield3_ok nx ny nz ng n dx dy dz dt mE mJ m : 0 < ng -> ng <= nx -> ng <= ny -> ng <= nz ->
  updated (SB3 dx dy dz dt) [nx; ny; nz] ng n mE mJ m (update_bfield3 A nx ny nz ng dx dy dz n dt mE m).
Proof.
  intros H1 H2 H3 H4. pose proof (geometry3 nx ny nz ng H1 H2 H3 H4) as G.
  solve_updated [nx; ny; nz] ng bounds3 opp3 n G (SB3 dx dy dz dt) mE mJ (minus_ A) ltac:(unfold update_bfield3, update_bfield_3d) ltac:(apply block3).
Qed.
End Stencils.
