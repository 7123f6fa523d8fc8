(** Steps with switches, part 2: one step, many steps, existence. *)
From Coq Require Import QArith Qabs Qround Qcanon Permutation Lqa.
From Verif Require Import Base M_Layout S_Layout M_PartSync S_PartSync M_FieldSync S_FieldSync M_Maxwell S_Maxwell M_Deposit S_Deposit M_Push P_Layout P_Deposit P_Deposit2 P_Deposit5 P_FieldGeo P_Maxwell P_Maxwell3 M_Step S_Step P_Interp P_Push P_PartSync3 P_Step1 P_Step2 P_Step3 P_Step4 P_Step5 P_Step6 P_Step7 P_Step8 S_Gauss P_Gauss1 P_Gauss2 M_StepW S_StepW P_StepW.
Local Open Scope list_scope.
Local Open Scope Z_scope.

Lemma combine_split2 {A B} (l : list (A * B)) : combine (map fst l) (map snd l) = l.
Proof. induction l as [|[a b] l IH]; [reflexivity|]. cbn [map combine fst snd]. rewrite IH. reflexivity. Qed.
Lemma depositing_in W : forall sps pss i st, In st (map snd (depositing W i sps pss)) -> In st pss.
Proof.
  induction sps as [|sp sps IH]; intros [|s pss] i st I; try destruct I. cbn [depositing] in I. rewrite map_app in I. apply in_app_or in I. destruct I as [I|I].
  - destruct (seen W i sp); [|destruct I]. destruct I as [<-|[]]. left. reflexivity.
  - right. exact (IH pss (S i) st I).
Qed.
Lemma depositing_filter W : forall sps pss i, depositing W i sps pss = map snd (filter (fun x => seen W (fst x) (fst (snd x))) (combine (seq i (length sps)) (combine sps pss))).
Proof.
  induction sps as [|sp sps IH]; intros [|st pss] i; try reflexivity. cbn [depositing length seq combine filter fst snd]. rewrite IH. destruct (seen W i sp); reflexivity.
Qed.
Lemma sorted_w_all W : forall ps ps1 i, sorted_w W i ps ps1 -> Forall2 sorted2 ps ps1.
Proof.
  induction ps as [|st ps IH]; intros [|st1 ps1] i H; try destruct H as []; constructor.
  - destruct (w_on W i); [assumption|]. subst st1. unfold sorted2. clear. induction st; constructor; [apply Permutation_refl|assumption].
  - eapply IH; eassumption.
Qed.
Lemma sorted_w_refl W : forall ps i, sorted_w W i ps ps.
Proof.
  induction ps as [|st ps IH]; intro i; [exact I|]. split; [|apply IH]. destruct (w_on W i); [|reflexivity]. unfold sorted2. clear. induction st; constructor; [apply Permutation_refl|assumption].
Qed.

Section W.
Variable rsqrt : Q -> Q.
Hypothesis SUB : subluminal rsqrt.
Variable eps : Qc.
Variable D : domain2.
Hypothesis OK : domain_ok D.
Variable sps : list species.
Local Notation n := (npatches2 D).
Local Notation Nx := (cells_x D). Local Notation Ny := (cells_y D).
Local Notation A := (qc_arith eps).
Local Notation dx := (Q2Qc (d_dx D)). Local Notation dy := (Q2Qc (d_dy D)).
Local Notation sv F := (shown (Q2Qc 0) [d_ax D; d_ay D] [d_nx D; d_ny D] (position2 (d_ax D)) F 0).
Local Notation ch h i j sp st := (qsum (charge_of D (sp_q sp) h i j) (particles st)).

Lemma pushed_moved W : forall pss pss' i, pushed_all D W i pss pss' -> forall st, In st pss' -> length st = n /\ forall p r, (p < n)%nat -> In r (S_PartSync.alive (nth p st [])) -> moved D p r.
Proof.
  induction pss as [|st0 pss IH]; intros [|st1 pss'] i H st I; try destruct H as []; try destruct I as [<-|I]; try contradiction.
  - destruct H as [L H]. split; [exact L|]. intros p r Hp Ir. destruct (forall2_in_r _ _ _ _ (H p Hp) Ir) as [r0 X]. exact (after_moved D _ _ _ _ X).
  - destruct H0 as [_ H0]. exact (IH pss' (S i) H0 st I).
Qed.
Lemma moved_slow pss : (forall st, In st pss -> length st = n /\ forall p r, (p < n)%nat -> In r (S_PartSync.alive (nth p st [])) -> moved D p r) -> slow_all pss.
Proof.
  intros H st r I Ir. destruct (H st I) as [L K]. unfold particles in Ir. apply in_flat_map in Ir. destruct Ir as (l & Il & Ir).
  destruct (In_nth _ _ [] Il) as (p & Hp & <-). destruct (K p r ltac:(lia) Ir) as (x & y & E1 & E2 & V1 & V2 & _). split; [exists x, y; auto|auto].
Qed.
Lemma pushed_len W : forall pss pss' i, pushed_all D W i pss pss' -> length pss' = length pss.
Proof. induction pss as [|st pss IH]; intros [|st' pss'] i H; try destruct H as []; [reflexivity|]. cbn [length]. f_equal. destruct H0 as [_ H0]. exact (IH _ _ H0). Qed.
Lemma push_w_det W i mE mB mJ ps a b : push_species_w rsqrt D W i sps mE mB mJ ps = Some a -> push_species_w rsqrt D W i sps mE mB mJ ps = Some b -> a = b.
Proof. congruence. Qed.

(** push, deposition and exchange *)
Lemma half_stepW W rank FE FB mE mB mJ ps mJ1 ps2 mJ2 ps3 : field_is D FE mE -> field_is D FB mB -> length ps = length sps -> Forall (settled D) ps ->
  push_species_w rsqrt D W 0 sps mE mB (reset_currents D mJ) ps = Some (mJ1, ps2) -> sync_currents2 D rank mJ1 mJ2 -> Forall2 (sync_particles2 D rank) ps2 ps3 ->
  let dl := depositing W 0 sps ps2 in
  currents_are D (gcurrents Nx Ny (d_dx D) (d_dy D) (d_dt D) (map fst dl) (map snd dl)) mJ2 /\ pushed_all D W 0 ps ps2 /\ slow_all ps2 /\
  length ps3 = length sps /\ Forall (settled D) ps3 /\
  Forall2 (fun st2 st3 => Permutation (map canon (particles st3)) (map (fun r => canon (gwrap Nx Ny (d_dx D) (d_dy D) r)) (particles st2))) ps2 ps3.
Proof.
  intros HE HB L F E HJ HP dl. destruct (push_species_w_ok rsqrt SUB D OK FE FB mE mB HE HB W sps ps 0 (reset_currents D mJ) L F) as (mJ1' & ps2' & E' & P & V).
  pose proof (push_w_det _ _ _ _ _ _ _ _ E E') as X. injection X as <- <-. clear E E'.
  pose proof (pushed_moved W _ _ _ P) as M.
  split.
  { apply (currents_ok D OK (map fst dl) (map snd dl) rank mJ1 mJ2).
    - intros st p r I Hp Ir. apply (proj2 (M st (depositing_in _ _ _ _ _ I)) p r Hp Ir).
    - intros st I. exact (proj1 (M st (depositing_in _ _ _ _ _ I))).
    - intros f q o Hf Hq Ho. rewrite (V f q o Hf Hq Ho), reset_value, combine_split2 by assumption. cbn [Q2Qc this]. change (Qred 0) with 0%Q. unfold dl. ring.
    - exact HJ. }
  split; [exact P|]. split; [apply moved_slow; exact M|].
  assert (Forall2 (fun st2 st3 => settled D st3 /\ Permutation (map canon (particles st3)) (map (fun r => canon (gwrap Nx Ny (d_dx D) (d_dy D) r)) (particles st2))) ps2 ps3) as X.
  { clear - M HP OK. induction HP as [|st2 st3 l l' H HP IH]; [constructor|]. constructor.
    - destruct (M st2 (or_introl eq_refl)) as [L K]. exact (exchange_ok D OK rank st2 st3 L K H).
    - apply IH. intros st I. apply M. right. exact I. }
  split; [|split].
  - assert (length ps3 = length ps2) as -> by (clear - X; induction X; cbn [length]; congruence). rewrite (pushed_len _ _ _ _ P). exact L.
  - clear - X. induction X as [|? ? ? ? [H _] X IH]; constructor; assumption.
  - clear - X. induction X as [|? ? ? ? [_ H] X IH]; constructor; assumption.
Qed.

(** what the switches do to the charge of the grid: current added without motion, or motion without current *)
Fixpoint slip (W : switches) (k : nat) (sps : list species) (ps ps2 : list (list (list prt))) (i j : Z) : Q :=
  match sps, ps, ps2 with
  | sp :: sps, st :: ps, st2 :: ps2 =>
      ((if seen W k sp then ch (1#2) i j sp st2 - ch (-1#2) i j sp st2 else 0) - (ch (1#2) i j sp st2 - ch (1#2) i j sp st) + slip W (S k) sps ps ps2 i j)%Q
  | _, _, _ => 0%Q
  end.
Lemma slip_is W i j : forall sps ps ps2 k, length ps = length sps -> length ps2 = length sps -> let dl := depositing W k sps ps2 in
  (csum D sps (1#2) i j ps2 - csum D sps (1#2) i j ps == csum D (map fst dl) (1#2) i j (map snd dl) - csum D (map fst dl) (-1#2) i j (map snd dl) - slip W k sps ps ps2 i j)%Q.
Proof.
  induction sps0 as [|sp l IH]; intros [|st ps] [|st2 ps2] k L L2; cbn [length] in *; try lia.
  - cbv zeta. unfold csum. cbn [depositing slip map combine]. change (qsum _ []) with 0%Q. ring.
  - specialize (IH ps ps2 (S k) ltac:(lia) ltac:(lia)). cbv zeta in *. unfold csum in *. rewrite !combine_split2 in *. cbn [depositing slip combine]. rewrite !qsum_cons. cbn [fst snd].
    destruct (seen W k sp); cbn [app]; rewrite ?qsum_cons; cbn [fst snd].
    + set (a := qsum _ (combine l ps2)) in *. set (b := qsum _ (combine l ps)) in *. set (c := qsum _ (depositing W (S k) l ps2)) in *. set (d := qsum _ (depositing W (S k) l ps2)) in *. set (e := slip _ _ _ _ _ _ _) in *.
      clearbody a b c d e. lra.
    + set (a := qsum _ (combine l ps2)) in *. set (b := qsum _ (combine l ps)) in *. set (c := qsum _ (depositing W (S k) l ps2)) in *. set (d := qsum _ (depositing W (S k) l ps2)) in *. set (e := slip _ _ _ _ _ _ _) in *.
      clearbody a b c d e. lra.
Qed.
Lemma by_patch (R : nat -> prow body -> prow body -> Prop) (f g : prow body -> Q) st st' : length st = n -> length st' = n ->
  (forall p, (p < n)%nat -> Forall2 (R p) (S_PartSync.alive (nth p st [])) (S_PartSync.alive (nth p st' []))) ->
  (forall p r r', R p r r' -> f r == g r')%Q -> (qsum f (particles st) == qsum g (particles st'))%Q.
Proof.
  intros L L' F H. unfold particles. rewrite (flat_map_nth _ [] st), (flat_map_nth _ [] st'), L, L', !qsum_flat. apply qsum_ext. intros p I. apply in_seq in I.
  apply (qsum_forall2 (R p)); [apply F; lia|]. intros r r' _. apply H.
Qed.
Lemma paced_slip W i j : forall sps ps ps2 k, length ps = length sps -> (forall st, In st ps -> length st = n) -> pushed_all D W k ps ps2 ->
  (forall m sp, nth_error sps m = Some sp -> w_on W (k + m) = true -> sp_unified sp = false -> w_pusher W (k + m) = w_dep W) -> (slip W k sps ps ps2 i j == 0)%Q.
Proof.
  induction sps0 as [|sp l IH]; intros [|st ps] [|st2 ps2] k L N P H; cbn [length] in L; try lia; try reflexivity.
  destruct P as ([L2 P1] & P2 & P3). cbn [slip]. rewrite (IH ps ps2 (S k) ltac:(lia) (fun s I => N s (or_intror I)) P3).
  2:{ intros m sp' E. rewrite Nat.add_succ_comm. intros. apply (H (S m) sp'); auto. }
  specialize (H 0%nat sp eq_refl). rewrite Nat.add_0_r in H. specialize (N st (or_introl eq_refl)). unfold seen.
  destruct (w_on W k) eqn:On; cbn [andb] in *.
  - assert ((if sp_unified sp then w_pusher W k else w_dep W) = w_pusher W k) as -> by (destruct (sp_unified sp); [reflexivity|symmetry; auto]).
    destruct (w_pusher W k); cbn [after_push] in P1.
    + rewrite (by_patch (carried D) (charge_of D (sp_q sp) (1#2) i j) (charge_of D (sp_q sp) (-1#2) i j) st st2 N L2 P1); [ring|].
      intros p r r' [_ X]. symmetry. apply X.
    + rewrite (by_patch (held D) (charge_of D (sp_q sp) (1#2) i j) (charge_of D (sp_q sp) (1#2) i j) st st2 N L2 P1); [ring|].
      intros p r r' (_ & _ & X). symmetry. apply X.
  - rewrite (P2 eq_refl). ring.
Qed.

Lemma settled_len ps : Forall (settled D) ps -> forall st, In st ps -> length st = n.
Proof. intros F st I. rewrite Forall_forall in F. exact (proj1 (F st I)). Qed.
Lemma depositing_wrapped W i j : forall sps0 ps2 ps3 k, slow_all ps2 ->
  Forall2 (fun st2 st3 => Permutation (map canon (particles st3)) (map (fun r => canon (gwrap Nx Ny (d_dx D) (d_dy D) r)) (particles st2))) ps2 ps3 ->
  let d2 := depositing W k sps0 ps2 in let d3 := depositing W k sps0 ps3 in
  (csum D (map fst d2) (1#2) i j (map snd d2) == csum D (map fst d3) (1#2) i j (map snd d3))%Q.
Proof.
  induction sps0 as [|sp l IH]; intros ps2 ps3 k H F; inversion F as [|st2 st3 p2 p3 E F']; subst; try reflexivity.
  specialize (IH p2 p3 (S k) (fun st r I => H st r (or_intror I)) F'). cbv zeta in *. unfold csum in *. rewrite !combine_split2 in *. cbn [depositing]. destruct (seen W k sp); cbn [app]; [|exact IH].
  rewrite !qsum_cons, IH. cbn [fst snd].
  assert (csum D [sp] (1#2) i j [st2] == csum D [sp] (1#2) i j [st3])%Q as X.
  { apply (csum_wrapped D OK [sp] (1#2) i j [st2] [st3]); [intros st r [<-|[]]; apply H; left; reflexivity|constructor; [exact E|constructor]]. }
  unfold csum in X. cbn [combine] in X. rewrite !qsum_cons in X. cbn [fst snd] in X. change (qsum _ []) with 0%Q in X. rewrite !Qplus_0_r in X. rewrite X. reflexivity.
Qed.

Lemma defect_stepW W rank s s' i j : ready D sps s -> consistent D s -> stepW rsqrt eps D sps W rank s s' -> exists ps1 mE mB mJ mJ1 ps2,
  sorted_w W 0 (t_parts s) ps1 /\ push_species_w rsqrt D W 0 sps mE mB mJ ps1 = Some (mJ1, ps2) /\ pushed_all D W 0 ps1 ps2 /\
  Forall2 (fun st2 st3 => Permutation (map canon (particles st3)) (map (fun r => canon (gwrap Nx Ny (d_dx D) (d_dy D) r)) (particles st2))) ps2 (t_parts s') /\
  defect eps D sps s' i j = (defect eps D sps s i j + Q2Qc (slip W 0 sps ps1 ps2 i j) / eps)%Qc /\ (paced sps W -> slip W 0 sps ps1 ps2 i j == 0)%Q /\
  divB2 A (on_domain D (t_B s')) dx dy i j = divB2 A (on_domain D (t_B s)) dx dy i j /\
  on_domain D (t_J s') 3 [i; j] = charge_seen D W sps (t_parts s') i j /\
  ready D sps s' /\ consistent D s'.
Proof.
  intros [L F] ((FE & HE) & (FB & HB) & FJ & HJ) S.
  destruct S as [mE mB mJ ps mE1 mB1 ps1 mJ1 ps2 mJ2 ps3 mB2 mE2 A1 A2 A3 A4 A5 A6 A7 A8]. cbn [t_E t_B t_J t_parts] in *.
  pose proof (up_E_ok eps D OK rank FB FJ FE mB mJ mE mE1 HE HB HJ A1) as HE1. set (FE1 := gE eps D FB FJ FE) in *.
  pose proof (up_B_ok eps D OK rank FE1 FB mE1 mB mB1 HB HE1 A2) as HB1. set (FB1 := gB eps D FE1 FB) in *.
  destruct (forall2_sorted D ps ps1 (sorted_w_all _ _ _ _ A3) F) as (F1 & L1 & Q1).
  destruct (half_stepW W rank FE1 FB1 mE1 mB1 mJ ps1 mJ1 ps2 mJ2 ps3 HE1 HB1 ltac:(lia) F1 A4 A5 A6) as (C & P & M & L3 & F3 & X).
  set (dl := depositing W 0 sps ps2) in *. set (FJ2 := gcurrents Nx Ny (d_dx D) (d_dy D) (d_dt D) (map fst dl) (map snd dl)) in *.
  pose proof (up_B_ok eps D OK rank FE1 FB1 mE1 mB1 mB2 HB1 HE1 A7) as HB2. set (FB2 := gB eps D FE1 FB1) in *.
  pose proof (up_E_ok eps D OK rank FB2 FJ2 FE1 mB2 mJ2 mE1 mE2 HE1 HB2 C A8) as HE2.
  assert (Md : slow_all (map snd dl)) by (intros st r I; apply M; exact (depositing_in _ _ _ _ _ I)).
  destruct (cells_pos D OK) as [P1 P2].
  exists ps1, mE1, mB1, (reset_currents D mJ), mJ1, ps2. split; [exact A3|]. split; [exact A4|]. split; [exact P|]. split; [exact X|].
  split; [|split; [|split; [|split; [|split]]]].
  - unfold defect, gauss. cbn [t_E t_J t_parts].
    rewrite (read_divE D OK eps _ mE2 i j HE2), (read_divE D OK eps _ mE i j HE), (read_divJ D OK eps _ mJ2 i j C), (read_divJ D OK eps _ mJ i j HJ).
    unfold FE1 in *. rewrite !div_gE by exact OK.
    assert (charge D sps ps3 i j = charge D sps ps i j - Q2Qc (d_dt D) * divE2 A (sv FJ2) dx dy i j - Q2Qc (slip W 0 sps ps1 ps2 i j))%Qc as ->.
    { assert (charge D sps ps i j = charge D sps ps1 i j) as -> by (unfold charge; apply q2qc_eq; apply (csum_sorted D sps (1#2) i j); exact Q1).
      apply Qc_is_canon. rewrite !this_minus, this_mult. unfold divE2. cbn [plus_ minus_ over_ qc_arith].
      rewrite this_plus, !this_div, !this_minus. unfold FJ2. rewrite !(cur_this D OK), !this_q2qc. unfold charge. rewrite !this_q2qc.
      change (csum D sps (1#2) i j ps3 == csum D sps (1#2) i j ps1 - d_dt D * ((jsum D (map fst dl) 0 [i mod Nx; j mod Ny] (map snd dl) - jsum D (map fst dl) 0 [(i - 1) mod Nx; j mod Ny] (map snd dl)) / d_dx D
        + (jsum D (map fst dl) 1 [i mod Nx; j mod Ny] (map snd dl) - jsum D (map fst dl) 1 [i mod Nx; (j - 1) mod Ny] (map snd dl)) / d_dy D) - slip W 0 sps ps1 ps2 i j)%Q.
      rewrite <- (csum_wrapped D OK sps (1#2) i j ps2 ps3 M X).
      pose proof (slip_is W i j sps ps1 ps2 0 ltac:(lia) ltac:(rewrite (pushed_len _ _ _ _ P); lia)) as Y. cbv zeta in Y. fold dl in Y.
      pose proof (all_continuity D OK (map fst dl) (map snd dl) (i mod Nx) (j mod Ny) Md (Z.mod_pos_bound _ _ P1) (Z.mod_pos_bound _ _ P2)) as K.
      rewrite !csum_mod in K. rewrite !Zminus_mod_idemp_l in K. unfold Qdiv in *. lra. }
    assert (Q2Qc (d_dt D) = half D + half D)%Qc as ->.
    { unfold half. apply Qc_is_canon. rewrite this_plus, !this_q2qc. ring. }
    unfold Qcdiv. ring.
  - intro H. apply (paced_slip W i j sps ps1 ps2 0); [lia|apply settled_len; exact F1|exact P|]. intros m sp. cbn [Nat.add]. apply H.
  - rewrite (read_divB D OK eps _ mB2 i j HB2), (read_divB D OK eps _ mB i j HB). unfold FB2, FB1. rewrite !div_gB by exact OK. reflexivity.
  - rewrite (read_currents D OK _ mJ2 3 i j C) by lia. apply Qc_is_canon. unfold FJ2. rewrite (cur_this D OK). unfold charge_seen. rewrite this_q2qc.
    rewrite (all_rho D OK (map fst dl) (map snd dl) _ _ Md (Z.mod_pos_bound _ _ P1) (Z.mod_pos_bound _ _ P2)). rewrite csum_mod. unfold dl. rewrite (depositing_wrapped W i j sps ps2 ps3 0 M X).
    unfold csum. rewrite combine_split2, depositing_filter, qsum_map. reflexivity.
  - split; assumption.
  - split; [eexists; exact HE2|]. split; eexists; eassumption.
Qed.
Lemma defect_stepsW : forall Ws s s' i j, ready D sps s -> consistent D s -> stepsW rsqrt eps D sps Ws s s' ->
  ((forall W, In W Ws -> paced sps W) -> defect eps D sps s' i j = defect eps D sps s i j) /\ divB2 A (on_domain D (t_B s')) dx dy i j = divB2 A (on_domain D (t_B s)) dx dy i j /\
  (forall W Vs, Ws = Vs ++ [W] -> on_domain D (t_J s') 3 [i; j] = charge_seen D W sps (t_parts s') i j) /\ ready D sps s' /\ consistent D s'.
Proof.
  induction Ws as [|W Ws IH]; intros s s' i j R C T; inversion T as [|W' Ws' rank s0 s1 s2 T1 T2]; subst.
  { split; [reflexivity|]. split; [reflexivity|]. split; [intros W Vs E; destruct Vs; discriminate|]. auto. }
  destruct (defect_stepW W rank s s1 i j R C T1) as (ps1 & mE & mB & mJ & mJ1 & ps2 & _ & _ & _ & _ & E1 & E2 & E3 & E4 & R1 & C1). destruct (IH s1 s' i j R1 C1 T2) as (E5 & E6 & E7 & R2 & C2).
  split; [|split; [congruence|split; [|auto]]].
  - intro H. rewrite (E5 (fun V I => H V (or_intror I))), E1. assert (Q2Qc (slip W 0 sps ps1 ps2 i j) = Q2Qc 0) as -> by (apply q2qc_eq; apply E2; apply H; left; reflexivity). unfold Qcdiv. change (Q2Qc 0) with 0%Qc. ring.
  - intros V [|V0 Vs] E; cbn [app] in E; injection E as -> E.
    + subst Ws. inversion T2; subst. exact E4.
    + apply (E7 V Vs). exact E.
Qed.
(** every step can be carried out *)
Lemma stepW_exists W rank s : ready D sps s -> consistent D s -> exists s', stepW rsqrt eps D sps W rank s s'.
Proof.
  intros [L F] ((FE & HE) & (FB & HB) & FJ & HJ). destruct s as [mE mB mJ ps]. cbn [t_E t_B t_J t_parts] in *.
  destruct (guards_exist D OK rank (up_E eps D mB mJ mE)) as [mE1 A1]. pose proof (up_E_ok eps D OK rank FB FJ FE mB mJ mE mE1 HE HB HJ A1) as HE1.
  destruct (guards_exist D OK rank (up_B eps D mE1 mB)) as [mB1 A2]. pose proof (up_B_ok eps D OK rank _ FB mE1 mB mB1 HB HE1 A2) as HB1.
  destruct (push_species_w_ok rsqrt SUB D OK _ _ mE1 mB1 HE1 HB1 W sps ps 0 (reset_currents D mJ) ltac:(lia) F) as (mJ1 & ps2 & A4 & P & _).
  destruct (currents_exist D OK rank mJ1) as [mJ2 A5].
  destruct (forall2_exists _ (sync_particles2 D rank) ps2) as [ps3 A6]; [intros st I; apply particles_exist; [exact OK|exact (proj1 (pushed_moved _ _ _ _ P st I))]|].
  destruct (guards_exist D OK rank (up_B eps D mE1 mB1)) as [mB2 A7].
  destruct (guards_exist D OK rank (up_E eps D mB2 mJ2 mE1)) as [mE2 A8].
  exists (mkState2 mE2 mB2 mJ2 ps3). econstructor; try eassumption. apply sorted_w_refl.
Qed.
Lemma stepsW_exist (rank : nat -> nat) : forall Ws s, ready D sps s -> consistent D s -> exists s', stepsW rsqrt eps D sps Ws s s'.
Proof.
  induction Ws as [|W Ws IH]; intros s R C; [exists s; constructor|]. destruct (stepW_exists W rank s R C) as [s1 T].
  destruct (defect_stepW W rank s s1 0 0 R C T) as (? & ? & ? & ? & ? & ? & _ & _ & _ & _ & _ & _ & _ & _ & R1 & C1). destruct (IH s1 R1 C1) as [s' T']. exists s'. econstructor; eassumption.
Qed.

(** a species that is off stays as it is *)
Lemma wrapped_in p r : (p < n)%nat -> in_patch D p r -> gwrap Nx Ny (d_dx D) (d_dy D) r = r.
Proof.
  intros Hp (x & y & E1 & E2 & A1 & A2 & _). destruct (ok_n D OK) as [N1 N2]. destruct (ok_d D OK) as [D1 D2]. destruct (ok_g D OK) as (G1 & G2 & G3). destruct (pij D OK p Hp) as [I1 I2].
  unfold gwrap. rewrite E1, E2. cbn [option_map].
  assert (forall a m d i v, 0 <= i < ax_n a -> 1 <= m -> (0 < d)%Q -> in_cells m d i v -> wrap1 (ax_n a * m) d v = v) as K.
  { intros a m d i v Hi Hm Hd [B1 B2]. pose proof (edge_mono m d 0 i Hm Hd ltac:(lia)) as M3. pose proof (edge_mono m d (i + 1) (ax_n a) Hm Hd ltac:(lia)) as M4.
    assert (cell_edge m d 0 == - (d / 2))%Q as E0 by (unfold cell_edge; change (inject_Z (0 * m)) with 0%Q; ring).
    assert (cell_edge m d (ax_n a) == inject_Z (ax_n a * m) * d - d / 2)%Q as En by reflexivity.
    apply wrap1_in; lra. }
  unfold cells_x, cells_y. rewrite (K (d_ax D) (d_nx D) (d_dx D) (pi D p) x I1 ltac:(lia) D1 A1). rewrite (K (d_ay D) (d_ny D) (d_dy D) (pj D p) y I2 ltac:(lia) D2 A2).
  rewrite <- E1, <- E2. destruct r; reflexivity.
Qed.
Lemma wrapped_all st : settled D st -> map (fun r => canon (gwrap Nx Ny (d_dx D) (d_dy D) r)) (particles st) = map canon (particles st).
Proof.
  intros [L H]. apply map_ext_in. intros r I. unfold particles in I. apply in_flat_map in I. destruct I as (l & Il & I). destruct (In_nth _ _ [] Il) as (p & Hp & <-).
  rewrite (wrapped_in p r ltac:(lia) (H p r ltac:(lia) I)). reflexivity.
Qed.
Lemma off_same W k : forall ps ps1 ps2 ps3 i, w_on W (i + k) = false -> Forall (settled D) ps -> sorted_w W i ps ps1 -> pushed_all D W i ps1 ps2 ->
  Forall2 (fun st2 st3 => Permutation (map canon (particles st3)) (map (fun r => canon (gwrap Nx Ny (d_dx D) (d_dy D) r)) (particles st2))) ps2 ps3 ->
  same_particles (nth k ps []) (nth k ps3 []).
Proof.
  induction k as [|k IH]; intros [|st ps] [|st1 ps1] [|st2 ps2] [|st3 p3] i Off F So P X; cbn [sorted_w pushed_all] in So, P; try contradiction; try (inversion X; fail); try apply Permutation_refl; cbn [nth].
  - destruct So as [So _]. destruct P as (_ & P0 & _). rewrite Nat.add_0_r in Off. rewrite Off in So. subst st1. pose proof (P0 Off) as ->. inversion X as [|? ? ? ? X1 _]; subst.
    rewrite wrapped_all in X1 by (inversion F; assumption). apply Permutation_sym. exact X1.
  - destruct So as [_ So]. destruct P as (_ & _ & P'). rewrite Nat.add_succ_r in Off. apply (IH ps ps1 ps2 p3 (Datatypes.S i) Off); [inversion F; assumption|exact So|exact P'|inversion X; assumption].
Qed.
Lemma off_steps k : forall Ws s s', ready D sps s -> consistent D s -> stepsW rsqrt eps D sps Ws s s' -> (forall W, In W Ws -> w_on W k = false) ->
  same_particles (nth k (t_parts s) []) (nth k (t_parts s') []).
Proof.
  induction Ws as [|W Ws IH]; intros s s' R C T H; inversion T as [|W' Ws' rank s0 s1 s2 T1 T2]; subst; [apply Permutation_refl|].
  destruct (defect_stepW W rank s s1 0 0 R C T1) as (ps1 & mE & mB & mJ & mJ1 & ps2 & Sw & _ & P & X & _ & _ & _ & _ & R1 & C1).
  apply Permutation_trans with (map canon (particles (nth k (t_parts s1) []))); [|exact (IH s1 s' R1 C1 T2 (fun V I => H V (or_intror I)))].
  apply (off_same W k (t_parts s) ps1 ps2 (t_parts s1) 0); auto; [exact (H W (or_introl eq_refl))|exact (proj2 R)].
Qed.
End W.
