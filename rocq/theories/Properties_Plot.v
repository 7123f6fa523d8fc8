(** Plots (C132, C133). *)
From Verif Require Import Base M_Plot S_Plot P_Plot.
From Coq Require Import QArith Qround String.
Local Open Scope string_scope.
Local Open Scope list_scope.
Local Open Scope nat_scope.

(** ** C132: any number of good calls, on any processes, in one interpreter *)
(** one call: no exception, the colour maps of matplotlib as before; process 0 adds the picture asked for, others add nothing *)
Theorem C132_call : forall builtin k s, good_call builtin k -> (0 < lx k)%Q -> (0 < ly k)%Q ->
  (forall n, In n builtin -> In n (known s)) -> (forall n, In n cmaps -> ~ In n (known s)) ->
  fst (plot k s) = Done /\ known (snd (plot k s)) = known s /\
  if 0 <? rank k then pictures (snd (plot k s)) = pictures s
  else exists os, pictures (snd (plot k s)) = (itime k, os) :: pictures s /\ pictured k os.
Proof.
  intros bi k s G Lx Ly B C. destruct (data_good bi k (configs k) G) as (l & E & H). unfold plot. rewrite E.
  destruct (0 <? rank k); [cbn; auto|]. rewrite (register_clean (known s) C).
  destruct (draw_good bi k (configs k) G l (rev cmaps ++ known s)) as (os & D & O); auto.
  - intros m [X|X]; apply in_or_app; [right; auto|left; now apply -> in_rev].
  - rewrite D. cbn [fst snd known pictures]. split; [reflexivity|]. split; [now apply unregister_clean|]. exists os. split; auto.
    unfold pictured. clear - O Lx Ly. induction O as [|c o cs os (a & A & reg & I) O IH]; [apply Forall2_nil|]. apply Forall2_cons; auto.
    exists a. split; auto. exact (imshow_shows (lx k) (ly k) reg a c o Lx Ly I).
Qed.
Lemma plots_snoc ks k s : plots (ks ++ [k]) s = (fst (plots ks s) ++ [fst (plot k (snd (plots ks s)))], snd (plot k (snd (plots ks s)))).
Proof. unfold plots. now rewrite fold_left_app. Qed.
(** a whole session: every call succeeds, and the pictures are those of the calls on process 0, in order *)
Theorem C132_session : forall builtin ks s, Forall (fun k => good_call builtin k /\ (0 < lx k)%Q /\ (0 < ly k)%Q) ks ->
  (forall n, In n builtin -> In n (known s)) -> (forall n, In n cmaps -> ~ In n (known s)) ->
  fst (plots ks s) = map (fun _ => Done) ks /\ known (snd (plots ks s)) = known s /\
  exists new, pictures (snd (plots ks s)) = rev new ++ pictures s /\
    Forall2 (fun k p => fst p = itime k /\ pictured k (snd p)) (filter (fun k => rank k =? 0) ks) new.
Proof.
  intros bi ks s. induction ks as [|k ks IH] using rev_ind; intros G B C; [cbn; split; auto; split; auto; exists []; cbn; auto|].
  apply Forall_app in G. destruct G as [G1 G2]. destruct (IH G1 B C) as (R & K & new & P & F). clear IH G1.
  inversion G2 as [|? ? (G & Lx & Ly) _]; subst. rewrite plots_snoc. cbn [fst snd]. set (s1 := snd (plots ks s)) in *. clearbody s1.
  destruct (C132_call bi k s1 G Lx Ly) as (R1 & K1 & X); [rewrite K; auto|rewrite K; auto|].
  rewrite R, R1, map_app, K1. split; auto. split; auto. rewrite filter_app. cbn [filter].
  destruct (rank k) as [|r]; cbn [Nat.ltb Nat.leb Nat.eqb] in *.
  - destruct X as (os & X & Pk). exists (new ++ [(itime k, os)]). split; [rewrite X, P, rev_app_distr; reflexivity|].
    apply Forall2_app; auto.
  - exists new. rewrite X, app_nil_r. split; auto.
Qed.

(** a picture of a field of two by three cells, on a domain of 4 by 6, overlaid with its negative *)
Definition ex_arr : array := mkArr [2; 3] (fun i j => inject_Z (Z.of_nat (10 * i + j))).
Definition ex_call (r t : nat) (cmap : string) : call :=
  mkCall r t 4 6 (fun f => if String.eqb f "ey" then Some ex_arr else None) [mkCfg (Some (Named "ey")) None None; mkCfg (Some (Array ex_arr)) (Some (- (2))%Q) (Some cmap)].
Definition ex_known : list string := ["viridis"; "bwr"].
Example C132_ready : good_call ex_known (ex_call 0 7 "bwr_alpha") /\ (0 < lx (ex_call 0 7 "bwr_alpha"))%Q /\ (0 < ly (ex_call 0 7 "bwr_alpha"))%Q.
Proof.
  split; [|split; reflexivity]. apply Forall_cons; [|apply Forall_cons; [|apply Forall_nil]]; exists ex_arr, 2, 3; cbn; auto 10.
Qed.
Example C132_case : let r := plots [ex_call 0 7 "bwr_alpha"; ex_call 1 8 "bwr"; ex_call 0 9 "red_alpha"] (mkSes ex_known []) in
  fst r = [Done; Done; Done] /\ known (snd r) = ex_known /\
  map (fun p => (fst p, map (fun o => Qred (shown o (7 # 2) (1 # 2))) (snd p))) (pictures (snd r)) = [(9, [(10 # 1)%Q; (-20 # 1)%Q]); (7, [(10 # 1)%Q; (-20 # 1)%Q])].
Proof. vm_compute. auto. Qed.

(** ** C133: after an exception *)
(** whatever goes wrong while drawing, no later plot of the interpreter succeeds, however correct it is, and none is written *)
Theorem C133_stuck_refuted : forall k ks s, rank k = 0 -> (forall n, In n cmaps -> ~ In n (known s)) ->
  fst (plot k s) <> Done -> snd (plot k s) <> s ->
  let s' := snd (plots (k :: ks) s) in
  pictures s' = pictures s /\ forall k', rank k' = 0 -> fst (plot k' s') <> Done.
Proof.
  intros k ks s Rk C E N. cbv zeta.
  (* once all colour maps are known, the session no longer changes on any process and every call on process 0 fails *)
  assert (K : forall k' s', (forall n, In n cmaps -> In n (known s')) -> snd (plot k' s') = s' /\ (rank k' = 0 -> fst (plot k' s') <> Done)).
  { intros k' s' A. unfold plot. destruct (field_data (fields k') (configs k')) as [d|e] eqn:Ed.
    - destruct (0 <? rank k') eqn:Er; [cbn; split; auto; intro Z; rewrite Z in Er; discriminate|].
      assert (Rg : register cmaps (known s') = (ValueError, known s')).
      { change cmaps with ("bwr_alpha" :: tl cmaps). cbn [register]. rewrite (proj2 (mem_in _ _) (A "bwr_alpha" (or_introl eq_refl))). reflexivity. }
      rewrite Rg. cbn [fst snd]. split; [destruct s'; reflexivity|discriminate].
    - cbn [fst snd]. split; auto. intros _ X. subst e. clear - Ed. exfalso. revert Ed. generalize (configs k'). induction l as [|c l IH]; cbn; [discriminate|].
      destruct (c_field c) as [[f|a|]|]; try discriminate; [destruct (fields k' f); [|discriminate]|];
        (destruct (field_data (fields k') l) as [d|e]; [discriminate|]); intro X; injection X as ->; apply IH; reflexivity. }
  assert (S1 : pictures (snd (plot k s)) = pictures s /\ forall n, In n cmaps -> In n (known (snd (plot k s)))).
  { revert E N. unfold plot. rewrite Rk. cbn [Nat.ltb Nat.leb]. destruct (field_data (fields k) (configs k)) as [d|e]; [|cbn; intros _ X; now exfalso].
    rewrite (register_clean (known s) C). destruct (draw (lx k) (ly k) (rev cmaps ++ known s) d) as [os|e]; cbn [fst snd pictures known]; [now intro X; exfalso|].
    intros _ _. split; auto. intros n Hn. apply in_or_app. left. now apply -> in_rev. }
  destruct S1 as [P A]. set (s1 := snd (plot k s)) in *.
  assert (F : snd (plots (k :: ks) s) = s1).
  { unfold plots. cbn [fold_left fst snd]. fold s1. generalize (([] : list outcome) ++ [fst (plot k s)]). clearbody s1. clear - K A.
    induction ks as [|k' ks IH]; intro o; auto. cbn [fold_left fst snd]. rewrite (proj1 (K k' s1 A)). apply IH. }
  rewrite F. split; auto. intros k' R'. exact (proj2 (K k' s1 A) R').
Qed.
(** a mistyped colour map is enough: the corrected script fails as well *)
Theorem C133_typo_refuted : fst (plots [ex_call 0 7 "bwr_alhpa"; ex_call 0 7 "bwr_alpha"; ex_call 0 8 "bwr"] (mkSes ex_known [])) = [ValueError; ValueError; ValueError] /\
  fst (plots [ex_call 0 7 "bwr_alpha"; ex_call 0 8 "bwr"] (mkSes ex_known [])) = [Done; Done].
Proof. vm_compute. auto. Qed.
(** the callback accepts a 3D simulation and fails for every named field of it *)
Theorem C133_volume_refuted : forall k s f c cs a nx ny nz, rank k = 0 -> configs k = c :: cs -> c_field c = Some (Named f) -> fields k f = Some a ->
  dims a = [nx; ny; nz] -> fst (plot k s) <> Done.
Proof.
  intros k s f c cs a nx ny nz Rk Ck Cf Cg Da. unfold plot. rewrite Rk, Ck. cbn [Nat.ltb Nat.leb field_data]. rewrite Cf, Cg.
  destruct (field_data (fields k) cs) as [l|e] eqn:El.
  - destruct (register cmaps (known s)) as [[] reg] eqn:Er; cbn [fst]; try discriminate. cbn [draw]. unfold imshow. rewrite Da. cbn. discriminate.
  - cbn [fst]. intro X. subst e. exfalso. revert El. clear. induction cs as [|c cs IH]; cbn; [discriminate|].
    destruct (c_field c) as [[f|a|]|]; try discriminate; [destruct (fields k f); [|discriminate]|];
      (destruct (field_data (fields k) cs) as [d|e]; [discriminate|]); intro X; injection X as ->; apply IH; reflexivity.
Qed.

(** the constructor refuses exactly the lists with a configuration that names no field, so that a call never meets one *)
Theorem C132_accepted : forall cs, (validate cs = Done \/ validate cs = ValueError) /\ (validate cs = Done <-> forall c, In c cs -> c_field c <> None) /\
  (validate cs = Done -> forall get, field_data get cs <> inr ValueError).
Proof.
  intro cs. assert (validate cs = Done <-> forall c, In c cs -> c_field c <> None) as V.
  { unfold validate. destruct (forallb _ cs) eqn:E; split; intro H; auto; try discriminate.
    - rewrite forallb_forall in E. intros c I N. specialize (E c I). rewrite N in E. discriminate.
    - exfalso. enough (forallb (fun c => match c_field c with Some _ => true | None => false end) cs = true) by congruence. apply forallb_forall. intros c I. specialize (H c I). destruct (c_field c); [reflexivity|congruence]. }
  split; [unfold validate; destruct (forallb _ cs); auto|]. split; [exact V|]. intros D0 get. pose proof (proj1 V D0) as D. clear V D0. induction cs as [|c cs IH]; [discriminate|]. cbn [field_data].
  specialize (IH (fun c' I => D c' (or_intror I))). specialize (D c (or_introl eq_refl)). destruct (c_field c) as [[f|a|]|]; try congruence.
  - destruct (get f); [|discriminate]. destruct (field_data get cs); [discriminate|congruence].
  - destruct (field_data get cs); [discriminate|congruence].
Qed.

Print Assumptions C132_call.
Print Assumptions C132_session.
Print Assumptions C133_stuck_refuted.
Print Assumptions C133_typo_refuted.
Print Assumptions C133_volume_refuted.
Print Assumptions C132_accepted.
