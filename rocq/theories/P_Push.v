(** Proofs: the fused push equals the staged push. *)
From Coq Require Import QArith Lqa.
From Verif Require Import Base M_Deposit S_Deposit M_Push S_Push P_Interp.
Local Open Scope Q_scope.

Lemma obind_obind {A B C} (x : option A) (f : A -> option B) (g : B -> option C) :
  obind (obind x f) g = obind x (fun a => obind (f a) g).
Proof. destruct x; reflexivity. Qed.

Lemma loop_ext {A} (f g : A -> option A) l : (forall s, In s l -> f s = g s) -> loop f l = loop g l.
Proof.
  induction l as [|s l IH]; intro H; [reflexivity|]. cbn [loop]. rewrite (H s) by (now left).
  rewrite IH by (intros x I; apply H; now right). reflexivity.
Qed.
Lemma loop_app {A} (f : A -> option A) a b : loop f (a ++ b) = obind (loop f a) (fun a => obind (loop f b) (fun b => Some (a ++ b))).
Proof.
  induction a as [|s a IH]; cbn [app loop obind].
  - destruct (loop f b); reflexivity.
  - rewrite IH. destruct (f s); cbn [obind]; [|reflexivity]. destruct (loop f a); cbn [obind]; [|reflexivity].
    destruct (loop f b); reflexivity.
Qed.
Lemma loop_map {A} (f : A -> option A) (g h : A -> A) l :
  obind (loop f (map g l)) (fun l => Some (map h l)) = loop (fun s => obind (f (g s)) (fun s => Some (h s))) l.
Proof.
  induction l as [|s l IH]; [reflexivity|]. cbn [map loop]. rewrite <- IH.
  destruct (f (g s)); cbn [obind]; [|reflexivity]. destruct (loop f (map g l)); reflexivity.
Qed.

Section Push.
Variable rsqrt : Q -> Q.
Variable move : Q -> part -> part.
Hypothesis move_flags : forall c p, p_dead (move c p) = p_dead p /\ p_nan (move c p) = p_nan p.

Lemma momentum_flags q m dt s :
  p_dead (l_p (push_momentum rsqrt q m dt s)) = p_dead (l_p s) /\ p_nan (l_p (push_momentum rsqrt q m dt s)) = p_nan (l_p s).
Proof. unfold push_momentum. cbv zeta. destruct (boris_inline _ _ _ _ _ _ _ _) as [[[a b] c] d]. split; reflexivity. Qed.

Lemma half_dt dt : LIGHT_SPEED * ((1#2) * dt) = LIGHT_SPEED * (1#2) * dt.
Proof. destruct dt as [n d]. unfold Qmult. cbn [Qnum Qden LIGHT_SPEED]. f_equal. lia. Qed.

Definition one (interp : part -> option (six Q)) (q m dt : Q) (s : slot) : option slot :=
  if skipped s then Some s else
    let cdt := LIGHT_SPEED * (1#2) * dt in let p := move cdt (l_p s) in
    obind (interp p) (fun f => let s' := push_momentum rsqrt q m dt (mkSlot p f) in Some (mkSlot (move cdt (l_p s')) (l_f s'))).

Lemma staged_one interp q m dt l : defined_when_alive l ->
  let cdt := LIGHT_SPEED * ((1#2) * dt) in
  obind (stage_interpolation interp (stage_position move cdt l)) (fun l => Some (stage_position move cdt (stage_momentum rsqrt q m dt l)))
  = loop (one interp q m dt) l.
Proof.
  intros D. cbv zeta. rewrite half_dt. unfold stage_interpolation, stage_position, stage_momentum. set (cdt := LIGHT_SPEED * (1#2) * dt).
  etransitivity; [|apply loop_ext; intros s I].
  - match goal with |- obind (loop ?f (map ?g l)) (fun l => Some (map ?h (map ?k l))) = _ =>
      transitivity (obind (loop f (map g l)) (fun l => Some (map (fun s => h (k s)) l))) end.
    + match goal with |- obind ?x _ = obind ?x _ => destruct x; cbn [obind]; [now rewrite map_map|reflexivity] end.
    + apply loop_map.
  - cbn beta. unfold one. cbv zeta. fold cdt. specialize (D s I). unfold skipped.
    destruct (p_dead (l_p s)) eqn:E.
    + cbn [orb l_p]. rewrite E. cbn [orb obind]. rewrite E, E. reflexivity.
    + rewrite (D eq_refl). cbn [orb l_p]. destruct (move_flags cdt (l_p s)) as [M1 M2]. rewrite M1, M2, E, (D eq_refl). cbn [orb].
      destruct (interp (move cdt (l_p s))) as [f|]; cbn [obind l_p l_f]; [|reflexivity].
      rewrite M1, E. destruct (momentum_flags q m dt (mkSlot (move cdt (l_p s)) f)) as [P1 _]. cbn [l_p] in P1.
      rewrite P1, M1, E. reflexivity.
Qed.

Lemma fused_strip_one interp q m dt l : fused_strip rsqrt move interp q m dt l = loop (one interp q m dt) l.
Proof.
  unfold fused_strip. cbv zeta.
  destruct (forallb _ l) eqn:A.
  - rewrite forallb_forall in A. rewrite <- (map_id l) at 1. rewrite loop_map. apply loop_ext. intros s I.
    specialize (A s I). apply negb_true_iff in A. unfold one. rewrite A. cbv zeta.
    destruct (interp _); reflexivity.
  - apply loop_ext. intros s I. unfold one. destruct (skipped s); [reflexivity|]. cbv zeta. destruct (interp _); reflexivity.
Qed.

Lemma fused_strips_one interp q m dt n : forall l, (length l <= n)%nat ->
  fused_strips (fused_strip rsqrt move interp q m dt) n l = loop (one interp q m dt) l.
Proof.
  induction n as [|n IH]; intros l L.
  - destruct l; [reflexivity|cbn [length] in L; lia].
  - cbn [fused_strips]. destruct l as [|s l]; [reflexivity|].
    rewrite fused_strip_one, IH.
    2:{ rewrite skipn_length. assert (1 <= STRIP_SIZE)%nat by (apply Nat.leb_le; vm_compute; reflexivity). cbn [length] in *. lia. }
    rewrite <- loop_app, firstn_skipn. reflexivity.
Qed.
End Push.

Lemma flags_2d c p : p_dead (push_position_2d c p) = p_dead p /\ p_nan (push_position_2d c p) = p_nan p.
Proof. split; reflexivity. Qed.

Lemma one_ext rsqrt move i j q m dt l : (forall p, i p = j p) -> loop (one rsqrt move i q m dt) l = loop (one rsqrt move j q m dt) l.
Proof. intro H. apply loop_ext. intros s _. unfold one. destruct (skipped s); [reflexivity|]. cbv zeta. now rewrite H. Qed.

Lemma push_same_2d rsqrt G F q m dt l : defined_when_alive l ->
  fused_push_2d rsqrt G F q m dt l = staged_push_2d rsqrt G F q m dt l.
Proof.
  intro D. unfold fused_push_2d, staged_push_2d. cbv zeta.
  rewrite (fused_strips_one rsqrt push_position_2d flags_2d) by apply le_n.
  rewrite (staged_one rsqrt push_position_2d flags_2d _ q m dt l D).
  apply one_ext. intro p. apply fused_interp_2d.
Qed.

(** in three dimensions the staged push leaves every position as it is *)
Lemma loop_inv {A} (P : A -> A -> Prop) f l : (forall s s', f s = Some s' -> P s s') -> forall l', loop f l = Some l' -> Forall2 P l l'.
Proof.
  intro H. induction l as [|s l IH]; intros l' E; cbn [loop] in E.
  - injection E as <-. constructor.
  - destruct (f s) as [s'|] eqn:S; cbn [obind] in E; [|discriminate]. destruct (loop f l) as [r|]; cbn [obind] in E; [|discriminate].
    injection E as <-. constructor; [now apply H|now apply IH].
Qed.
Lemma staged_3d_still rsqrt G F q m dt l l' : staged_push_3d rsqrt G F q m dt l = Some l' ->
  map (fun s => (p_x (l_p s), p_y (l_p s), p_z (l_p s))) l' = map (fun s => (p_x (l_p s), p_y (l_p s), p_z (l_p s))) l.
Proof.
  unfold staged_push_3d, stage_interpolation. intro E.
  destruct (loop _ l) as [r|] eqn:R; cbn [obind] in E; [|discriminate]. injection E as <-.
  unfold stage_momentum. rewrite map_map.
  eapply (loop_inv (fun s s' => l_p s' = l_p s)) in R.
  2:{ intros s s' H. destruct (skipped s); [injection H as <-; reflexivity|].
      destruct (interpolation_3d _ _ _ _ _); cbn [obind] in H; [|discriminate]. injection H as <-. reflexivity. }
  clear - R. induction R as [|s s' l r H R IH]; [reflexivity|]. cbn [map]. rewrite IH. f_equal.
  rewrite <- H. destruct (p_dead (l_p s')); [reflexivity|]. unfold push_momentum. cbv zeta.
  destruct (boris_inline _ _ _ _ _ _ _ _) as [[[a b] c] d]. reflexivity.
Qed.

Lemma some_inj {A} (a b : A) : Some a = Some b -> a = b.
Proof. congruence. Qed.
Lemma one_inj {A} (a b : A) : [a] = [b] -> a = b.
Proof. congruence. Qed.
Lemma fused_3d_loop rsqrt G F q m dt l : fused_push_3d rsqrt G F q m dt l =
  loop (one rsqrt push_position_3d (fun p => interpolation_fused_3d G F (p_x p) (p_y p) (p_z p)) q m dt) l.
Proof. exact (fused_strips_one rsqrt push_position_3d (fun c p => conj eq_refl eq_refl) _ q m dt (length l) l (le_n _)). Qed.

(** what the fused push does to one live particle in three dimensions *)
Lemma fused_3d_one rsqrt G F q m dt s r : skipped s = false -> fused_push_3d rsqrt G F q m dt [s] = Some r ->
  exists s', r = [s'] /\
  p_x (l_p s') == p_x (l_p s) + LIGHT_SPEED * (1#2) * dt * (p_ig (l_p s) * p_ux (l_p s) + p_ig (l_p s') * p_ux (l_p s')).
Proof.
  intros A E. rewrite fused_3d_loop in E.
  cbn [loop] in E. unfold one in E. rewrite A in E. cbv zeta in E.
  destruct (interpolation_fused_3d _ _ _ _ _) as [f|]; cbn [obind] in E; [|discriminate]. apply some_inj in E. subst r.
  eexists. split; [reflexivity|].
  unfold push_momentum. cbv zeta. cbn [l_p l_f]. destruct (boris_inline _ _ _ _ _ _ _ _) as [[[a b] c] d].
  cbn [l_p p_x p_ig p_ux push_position_3d]. ring.
Qed.

Lemma staged_3d_one rsqrt G F q m dt s r : staged_push_3d rsqrt G F q m dt [s] = Some r ->
  exists s', r = [s'] /\ p_x (l_p s') = p_x (l_p s).
Proof.
  intro E. apply staged_3d_still in E. cbn [map] in E. destruct r as [|s' [|s'' r]]; cbn [map] in E; try discriminate.
  exists s'. split; [reflexivity|]. injection E as E1 _ _. exact E1.
Qed.

(** a neutral particle keeps its momentum *)
Lemma neutral rsqrt c m dt u E B : let '(x, y, z) := fst (boris_inline (Qnums rsqrt) c 0 m dt u E B) in let '(a, b, d) := u in x == a /\ y == b /\ z == d.
Proof.
  unfold boris_inline. cbn [n_mul n_div n_2 Qnums].
  assert (0 * dt / (2 * m * c) == 0) as H1 by (unfold Qdiv; ring). assert (0 * dt / (2 * m) == 0) as H2 by (unfold Qdiv; ring).
  set (e := 0 * dt / (2 * m * c)) in *. set (b := 0 * dt / (2 * m)) in *. clearbody e b.
  destruct u as [[ux uy] uz], E as [[Ex Ey] Ez], B as [[Bx By] Bz]. unfold boris_core. cbv zeta. cbn [fst].
  cbn [n_add n_sub n_mul n_div n_1 n_2 n_rsqrt Qnums].
  set (g := rsqrt _). set (k := one_plus_sq _ (b * Bx * g, b * By * g, b * Bz * g)). clearbody g k.
  rewrite H1, H2. unfold Qdiv. repeat split; ring.
Qed.

Lemma move_3d_differs rsqrt G F m dt s :
  (forall x, 0 < rsqrt x) -> ~ dt == 0 -> skipped s = false -> 0 < p_ig (l_p s) -> ~ p_ux (l_p s) == 0 ->
  fused_push_3d rsqrt G F 0 m dt [s] <> None ->
  fused_push_3d rsqrt G F 0 m dt [s] <> staged_push_3d rsqrt G F 0 m dt [s].
Proof.
  intros RP DT A IG UX N EQ. destruct (fused_push_3d rsqrt G F 0 m dt [s]) as [r|] eqn:E; [|congruence].
  symmetry in EQ. apply staged_3d_one in EQ. destruct EQ as (s' & -> & X').
  assert (p_ux (l_p s') == p_ux (l_p s) /\ 0 < p_ig (l_p s')) as [UX' IG'].
  { rewrite fused_3d_loop in E.
    cbn [loop] in E. unfold one in E. rewrite A in E. cbv zeta in E.
    destruct (interpolation_fused_3d _ _ _ _ _) as [f|]; cbn [obind] in E; [|discriminate]. apply some_inj, one_inj in E. subst s'.
    unfold push_momentum. cbv zeta. cbn [l_p l_f].
    pose proof (fun u e b => neutral rsqrt LIGHT_SPEED m dt u e b) as NE.
    assert (forall u e b, 0 < snd (boris_inline (Qnums rsqrt) LIGHT_SPEED 0 m dt u e b)) as SP.
    { intros [[a1 a2] a3] [[b1 b2] b3] [[c1 c2] c3]. unfold boris_inline, boris_core. cbv zeta. cbn [snd n_rsqrt Qnums]. apply RP. }
    match goal with |- context [boris_inline ?n ?c ?q ?m ?d ?u ?e ?b] => specialize (NE u e b); specialize (SP u e b); destruct (boris_inline n c q m d u e b) as [[[a1 a2] a3] d0] end.
    cbn [fst snd push_position_3d p_ux p_uy p_uz] in *. cbn [l_p p_ux p_ig]. split; [apply NE|exact SP]. }
  apply fused_3d_one in E; [|exact A]. destruct E as (s'' & Q & X). injection Q as <-.
  rewrite X' in X. rewrite UX' in X.
  assert (LIGHT_SPEED * (1#2) * dt * ((p_ig (l_p s) + p_ig (l_p s')) * p_ux (l_p s)) == 0) as H.
  { transitivity (p_x (l_p s) + LIGHT_SPEED * (1#2) * dt * (p_ig (l_p s) * p_ux (l_p s) + p_ig (l_p s') * p_ux (l_p s)) - p_x (l_p s)); [ring|].
    rewrite <- X. ring. }
  apply Qmult_integral in H. destruct H as [H|H].
  - apply Qmult_integral in H. destruct H as [H|H]; [discriminate H|contradiction].
  - apply Qmult_integral in H. destruct H as [H|H]; [|contradiction]. lra.
Qed.

Lemma fused_3d_defined rsqrt G F q m dt s : skipped s = false -> sizes (h_nx G * h_ny G * h_nz G) F ->
  let p := push_position_3d (LIGHT_SPEED * (1#2) * dt) (l_p s) in
  stencil_inside (h_nx G) ((p_x p - h_x0 G) / h_dx G) -> stencil_inside (h_ny G) ((p_y p - h_y0 G) / h_dy G) ->
  stencil_inside (h_nz G) ((p_z p - h_z0 G) / h_dz G) ->
  fused_push_3d rsqrt G F q m dt [s] <> None.
Proof.
  intros A S p SX SY SZ. rewrite fused_3d_loop. cbn [loop]. unfold one. rewrite A. cbv zeta. fold p.
  rewrite fused_interp_3d. unfold interpolation_3d.
  destruct (interp_mean_3d _ _ _ F _ _ _ S SX SY SZ) as (v & E & _). rewrite E. cbn [obind]. discriminate.
Qed.
