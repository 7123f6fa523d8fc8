(** Rectangular grids of patches meet the assumptions of the grid view. *)
From Verif Require Import Base M_Layout S_Layout M_PartSync S_PartSync M_FieldSync S_FieldSync P_Layout P_PartSync P_PartSync2 P_PartSync3 P_Threads P_FieldGeo P_FieldPar P_FieldSync P_FieldSync2 P_FieldSync3 P_FieldSync4.
Local Open Scope Z_scope.

Lemma unit_range d : unit_dir d -> -1 <= d <= 1. Proof. intros [->|[->| ->]]; lia. Qed.
Lemma all2 nx ny d : dirs_ok [nx; ny] d -> d <> map (fun _ => 0) [nx; ny] -> In d bounds2.
Proof.
  intros [Hl Hd] Hz. destruct d as [|x [|y [|z d]]]; try discriminate. apply Forall_cons_iff in Hd as [H1 Hd]. apply Forall_cons_iff in Hd as [H2 _]. apply unit_range in H1, H2.
  apply bounds2_all. exists x, y. split; auto. split; auto. split; auto. intros [-> ->]. now apply Hz.
Qed.
Lemma all3 nx ny nz d : dirs_ok [nx; ny; nz] d -> d <> map (fun _ => 0) [nx; ny; nz] -> In d bounds3.
Proof.
  intros [Hl Hd] Hz. destruct d as [|x [|y [|z [|t d]]]]; try discriminate. apply Forall_cons_iff in Hd as [H1 Hd]. apply Forall_cons_iff in Hd as [H2 Hd]. apply Forall_cons_iff in Hd as [H3 _]. apply unit_range in H1, H2, H3.
  apply bounds3_all. exists x, y, z. repeat (split; auto). intros (-> & -> & ->). now apply Hz.
Qed.
Section D2.
Variables ax ay : axis.
Hypothesis Nx : 1 <= ax_n ax. Hypothesis Ny : 1 <= ax_n ay.
Notation n := (npatch2 ax ay).
Lemma hgrid2 p : (p < n)%nat -> in_grid [ax; ay] (position2 ax p).
Proof. intro H. destruct (coords2 ax ay Nx Ny p H) as (H1 & H2 & _). unfold position2, in_grid. apply Forall2_cons; [exact H1|]. apply Forall2_cons; [exact H2|apply Forall2_nil]. Qed.
Lemma honto2 i : in_grid [ax; ay] i -> exists q, (q < n)%nat /\ position2 ax q = i.
Proof.
  intro H. inversion H as [|? x ? t Hx Ht]; subst. inversion Ht as [|? y ? t' Hy Ht']; subst. inversion Ht'; subst.
  destruct (rect2_num ax ay Nx Ny [x; y] (x + y * ax_n ax)) as (R1 & R2 & R3); [apply rect2_in; eauto 10|]. exists (Z.to_nat (x + y * ax_n ax)). split; auto.
Qed.
Lemma hpos2 p q : (p < n)%nat -> (q < n)%nat -> position2 ax p = position2 ax q -> p = q.
Proof.
  intros Hp Hq E. destruct (coords2 ax ay Nx Ny p Hp) as (_ & _ & E1). destruct (coords2 ax ay Nx Ny q Hq) as (_ & _ & E2). unfold position2 in E.
  assert (A : cx ax p = cx ax q /\ cy ax p = cy ax q) by (unfold cx, cy, pnum; inversion E; auto). destruct A as [A1 A2]. rewrite A1, A2 in E1. unfold pnum in *. lia.
Qed.
End D2.
Section D3.
Variables ax ay az : axis.
Hypothesis Nx : 1 <= ax_n ax. Hypothesis Ny : 1 <= ax_n ay. Hypothesis Nz : 1 <= ax_n az.
Notation n := (npatch3 ax ay az).
Lemma hgrid3 p : (p < n)%nat -> in_grid [ax; ay; az] (position3 ax ay p).
Proof. intro H. destruct (coords3 ax ay az Nx Ny Nz p H) as (H1 & H2 & H3 & _). unfold position3, in_grid. apply Forall2_cons; [exact H1|]. apply Forall2_cons; [exact H2|]. apply Forall2_cons; [exact H3|apply Forall2_nil]. Qed.
Lemma honto3 i : in_grid [ax; ay; az] i -> exists q, (q < n)%nat /\ position3 ax ay q = i.
Proof.
  intro H. inversion H as [|? x ? t Hx Ht]; subst. inversion Ht as [|? y ? t' Hy Ht']; subst. inversion Ht' as [|? z ? t2 Hz Ht2]; subst. inversion Ht2; subst.
  destruct (rect3_num ax ay az Nx Ny Nz [x; y; z] (x + y * ax_n ax + z * ax_n ax * ax_n ay)) as (R1 & R2 & R3); [apply rect3_in; exists x, y, z; auto|]. eexists. split; [exact R1|]. auto.
Qed.
Lemma hpos3 p q : (p < n)%nat -> (q < n)%nat -> position3 ax ay p = position3 ax ay q -> p = q.
Proof.
  intros Hp Hq E. destruct (coords3 ax ay az Nx Ny Nz p Hp) as (_ & _ & _ & E1). destruct (coords3 ax ay az Nx Ny Nz q Hq) as (_ & _ & _ & E2). unfold position3 in E.
  assert (A : c3x ax p = c3x ax q /\ c3y ax ay p = c3y ax ay q /\ c3z ax ay p = c3z ax ay q) by (unfold c3x, c3y, c3z, pnum; inversion E; auto).
  destruct A as (A1 & A2 & A3). rewrite A1, A2, A3 in E1. unfold pnum in *. lia.
Qed.
End D3.

(** ** everything about one exchange, for any geometry *)
Section All.
Variables (ns : list Z) (ng : Z) (bounds : list (list Z)) (opp : nat -> nat) (n : nat).
Hypothesis G : geometry ns ng bounds opp.
Notation nb := (length bounds).
Variable nbr : nat -> nat -> option nat.
Context {V : Type} (zero : V) (plus : V -> V -> V).
Notation cell := (cell ns ng).
Notation guard_done := (guards_exchanged bounds ns ng n nbr).
Notation current_done := (currents_exchanged bounds ns ng n nbr zero plus).
Lemma guard_done_canon nf (m m' : addr -> V) : (forall a, m' a = copied (canon ns ng bounds n (ax_guard ng) nbr nf) m a) -> guard_done nf m m'.
Proof using G. intro H. split; [intros f p c Hf Hp Hc; rewrite H; now apply (gcanon_result ns ng bounds opp n G)|intros a Ha; rewrite H; now apply (gcanon_frame ns ng bounds opp n G)]. Qed.
Lemma current_done_canon (m m' : addr -> V) : nbr_symmetric n nb opp nbr -> monoid zero plus -> (forall a, ~ buffer a -> m' a = accumulated zero plus (canon ns ng bounds n (ax_currents ng) nbr 4) m a) -> current_done m m'.
Proof using G.
  intros Sy Hm H. assert (H' : forall f p o, m' (Fld f p o) = accumulated zero plus (canon ns ng bounds n (ax_currents ng) nbr 4) m (Fld f p o)) by (intros; apply H; intros []).
  assert (R : forall f p c, (f < 4)%nat -> (p < n)%nat -> within ng ns c -> m' (cell f p c) = current_result zero plus bounds ns ng nbr m f p c).
  { intros f p c Hf Hp Hc. unfold S_FieldSync.cell. rewrite H'. now apply (ccanon_result ns ng bounds opp n G nbr Sy zero plus Hm). }
  split; [exact R|]. split.
  - intros f p c Hf Hp Hc. rewrite R; auto.
    + apply (deep_result ns ng bounds opp G nbr zero plus Hm); auto.
    + pose proof (ng_pos ns ng bounds opp G) as Hg. clear - Hc Hg. induction Hc; constructor; auto; lia.
  - intros f Hf. rewrite <- (ccanon_total ns ng bounds opp n G nbr Sy zero plus Hm 4 m f Hf). unfold domain_total. f_equal. apply flat_map_ext. intro p. apply map_ext. intro o. apply H'.
Qed.
End All.
