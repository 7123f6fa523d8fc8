(** The list of cell pairs of an exchange and the cell-by-cell result. *)
From Verif Require Import Base M_Layout M_PartSync S_PartSync M_FieldSync S_FieldSync P_Layout P_PartSync P_PartSync2 P_Threads P_FieldGeo P_FieldPar.
Local Open Scope Z_scope.

(** ** list lemmas *)
Lemma flat_map_swap {A B C} (g : A -> B -> list C) l k : Permutation (flat_map (fun a => flat_map (g a) k) l) (flat_map (fun b => flat_map (fun a => g a b) l) k).
Proof.
  induction l as [|a l IH]; cbn [flat_map].
  - induction k as [|b k IHk]; [reflexivity|exact IHk].
  - rewrite IH. clear IH. induction k as [|b k IHk]; [reflexivity|]. cbn [flat_map]. rewrite <- IHk. rewrite <- !app_assoc. apply Permutation_app_head.
    rewrite !app_assoc. apply Permutation_app_tail. apply Permutation_app_comm.
Qed.
Lemma flat_map_map' {A B C} (f : B -> list C) (g : A -> B) l : flat_map f (map g l) = flat_map (fun a => f (g a)) l.
Proof. induction l as [|a l IH]; [reflexivity|]. cbn. now rewrite IH. Qed.
Lemma flat_map_flat_map {A B C} (f : B -> list C) (g : A -> list B) l : flat_map f (flat_map g l) = flat_map (fun a => flat_map f (g a)) l.
Proof. induction l as [|a l IH]; [reflexivity|]. cbn. now rewrite flat_map_app, IH. Qed.
Lemma flat_map_nil {A B} (l : list A) : flat_map (fun _ => @nil B) l = [].
Proof. induction l; auto. Qed.
Lemma flat_map_ext' {A B} (f g : A -> list B) l : (forall a, In a l -> f a = g a) -> flat_map f l = flat_map g l.
Proof. induction l as [|a l IH]; intro H; [reflexivity|]. cbn. rewrite (H a), IH; auto; [intros; apply H; now right|now left]. Qed.
Lemma iterations_in n nf i : In i (iterations n nf) <-> (fst i < nf /\ snd i < n)%nat.
Proof.
  unfold iterations. rewrite in_map_iff. split.
  - intros [k [<- Hk]]. apply in_seq in Hk. cbn [fst snd]. assert (nf <> 0%nat) by nia. split; [apply Nat.mod_upper_bound; auto|].
    apply Nat.div_lt_upper_bound; lia.
  - destruct i as [f p]. cbn [fst snd]. intros [Hf Hp]. exists (f + p * nf)%nat. split.
    + rewrite Nat.mod_add, Nat.mod_small, Nat.div_add, Nat.div_small by lia. reflexivity.
    + apply in_seq. nia.
Qed.
Lemma iterations_NoDup n nf : NoDup (iterations n nf).
Proof.
  unfold iterations. apply nodup_inj; [apply seq_NoDup|]. intros a b Ha Hb E. inversion E as [[E1 E2]]. apply in_seq in Ha. assert (nf <> 0%nat) by nia.
  rewrite (Nat.div_mod a nf), (Nat.div_mod b nf) by auto. congruence.
Qed.
Lemma iterations_perm n nf : Permutation (iterations n nf) (list_prod (seq 0 nf) (seq 0 n)).
Proof.
  apply NoDup_Permutation; [apply iterations_NoDup|apply nodup_prod; apply seq_NoDup|]. intros [f p]. rewrite iterations_in, in_prod_iff, !in_seq. cbn [fst snd]. lia.
Qed.

(** ** what the proofs need to know about the geometry *)
Record geometry (ns : list Z) (ng : Z) (bounds : list (list Z)) (opp : nat -> nat) : Prop := mkGeo {
  g_sizes : sizes_ok ng ns;
  g_dim : length ns = 2%nat \/ length ns = 3%nat;
  g_index : good_index ng ns;
  g_dirs : forall b, (b < length bounds)%nat -> dirs_ok ns (nth b bounds []);
  g_nodup : NoDup bounds;
  g_zero : ~ In (map (fun _ => 0) ns) bounds;
  g_opp : forall b, (b < length bounds)%nat -> nth (opp b) bounds [] = neg (nth b bounds []) /\ (opp b < length bounds)%nat /\ opp (opp b) = b }.
Lemma geometry2 nx ny ng : 0 < ng -> ng <= nx -> ng <= ny -> geometry [nx; ny] ng bounds2 opp2.
Proof.
  intros H1 H2 H3. assert (Sz : sizes_ok ng [nx; ny]) by (split; auto). constructor; auto.
  - now apply good_index2.
  - intros b Hb. change (b < 8)%nat in Hb. do 8 (destruct b as [|b]; [split; [reflexivity|cbn [nth bounds2 bounds3]; repeat apply Forall_cons; try apply Forall_nil; unfold unit_dir; auto]|]). lia.
  - repeat constructor; cbn; intuition discriminate.
  - cbn; intuition discriminate.
  - intros b Hb. apply opposite2_ok. exact Hb.
Qed.
Lemma geometry3 nx ny nz ng : 0 < ng -> ng <= nx -> ng <= ny -> ng <= nz -> geometry [nx; ny; nz] ng bounds3 opp3.
Proof.
  intros H1 H2 H3 H4. assert (Sz : sizes_ok ng [nx; ny; nz]) by (split; auto). constructor; auto.
  - now apply good_index3.
  - intros b Hb. change (b < 26)%nat in Hb. do 26 (destruct b as [|b]; [split; [reflexivity|cbn [nth bounds2 bounds3]; repeat apply Forall_cons; try apply Forall_nil; unfold unit_dir; auto]|]). lia.
  - repeat constructor; cbn; intuition discriminate.
  - cbn; intuition discriminate.
  - intros b Hb. apply opposite3_ok. exact Hb.
Qed.

Section Geo.
Variables (ns : list Z) (ng : Z) (bounds : list (list Z)) (opp : nat -> nat) (n : nat).
Hypothesis G : geometry ns ng bounds opp.
Notation nb := (length bounds).
Notation dir b := (nth b bounds []).
Notation Ns := (extents ns ng).
Notation cel := (cell ns ng).

Lemma cell_inj f p c f' p' c' : within ng ns c -> within ng ns c' -> cel f p c = cel f' p' c' -> f = f' /\ p = p' /\ c = c'.
Proof. intros H H' E. unfold cell in E. inversion E. repeat split; auto. eapply (proj1 (g_index _ _ _ _ G)); eauto. Qed.
Lemma dir_inj b b' : (b < nb)%nat -> (b' < nb)%nat -> dir b = dir b' -> b = b'.
Proof. intros. eapply NoDup_nth; eauto. apply (g_nodup _ _ _ _ G). Qed.
Lemma within_len c : within ng ns c -> length c = length ns. Proof. apply within_length. Qed.
Lemma neg_inj d d' : neg d = neg d' -> d = d'. Proof. intro E. rewrite <- (neg_neg d), <- (neg_neg d'). congruence. Qed.

(** facing *)
Lemma facing_some (nbr' : nat -> nat -> option nat) p d q : facing bounds nbr' p d = Some q <-> exists b, (b < nb)%nat /\ dir b = d /\ nbr' p b = Some q.
Proof.
  unfold facing. destruct (find (fun b => list_eqb (dir b) d) (seq 0 nb)) as [b|] eqn:E.
  - apply find_some in E as [Hb E]. apply list_eqb_eq in E. apply in_seq in Hb. split.
    + intro H. exists b. repeat split; auto; lia.
    + intros [b' [Hb' [E' H]]]. rewrite (dir_inj b b'); auto; [lia|congruence].
  - split; [discriminate|]. intros [b [Hb [E' _]]]. exfalso. assert (Hi : In b (seq 0 nb)) by (apply in_seq; lia).
    apply (find_none _ _ E) in Hi. cbn in Hi. rewrite E' in Hi. assert (list_eqb d d = true) by now apply list_eqb_eq. congruence.
Qed.
Lemma facing_interior nbr' p c : interior ns c -> facing bounds nbr' p (sides_of ns c) = None.
Proof.
  intro Hi. destruct (facing _ _ _ _) as [q|] eqn:E; auto. apply facing_some in E as [b [Hb [E _]]]. exfalso. apply (g_zero _ _ _ _ G).
  rewrite (proj1 (sides_zero ns c (eq_sym (Forall2_len _ _ _ Hi))) Hi) in E. rewrite <- E. now apply nth_In.
Qed.

(** ** the pairs of an exchange *)
Section X.
Variable X : Z -> Z -> Z * Z * Z.
Variable P : Z -> Z -> Z -> Prop.
Hypothesis HX : forall k d, 0 <= ng <= k -> 0 < k -> unit_dir d -> ax_spec X P k d.
Notation reg b := (region (map2 X ns (dir b))).
Hypothesis HR : forall b c, (b < nb)%nat -> In c (reg b) -> within ng ns c /\ within ng ns (seen_from ns (dir b) c).
Variable nbr' : nat -> nat -> option nat.
Definition side (f p b : nat) : list (addr * addr) :=
  match nbr' p b with Some q => map (fun c => (cel f p c, cel f q (seen_from ns (dir b) c))) (reg b) | None => [] end.
Definition canon1 (f : nat) : list (addr * addr) := flat_map (fun p => flat_map (side f p) (seq 0 nb)) (seq 0 n).
Definition canon (nf : nat) : list (addr * addr) := flat_map canon1 (seq 0 nf).
Lemma side_in x f p b : In x (side f p b) <-> exists q c, nbr' p b = Some q /\ In c (reg b) /\ x = (cel f p c, cel f q (seen_from ns (dir b) c)).
Proof using.
  clear HX HR P.
  unfold side. destruct (nbr' p b) as [q|].
  - rewrite in_map_iff. split.
    + intros [c [<- Hc]]. eauto.
    + intros [q' [c [E [Hc ->]]]]. inversion E; subst. eauto.
  - split; [intros []|intros [q [c [E _]]]; discriminate].
Qed.
Lemma canon1_in x f : In x (canon1 f) <-> exists p b, (p < n)%nat /\ (b < nb)%nat /\ In x (side f p b).
Proof using.
  clear HX HR P.
  unfold canon1. rewrite in_flat_map. split.
  - intros [p [Hp Hx]]. apply in_flat_map in Hx as [b [Hb Hx]]. apply in_seq in Hp, Hb. exists p, b. repeat split; auto; lia.
  - intros [p [b [Hp [Hb Hx]]]]. exists p. split; [apply in_seq; lia|]. apply in_flat_map. exists b. split; [apply in_seq; lia|auto].
Qed.
Lemma canon_in x nf : In x (canon nf) <-> exists f p b, (f < nf)%nat /\ (p < n)%nat /\ (b < nb)%nat /\ In x (side f p b).
Proof using.
  clear HX HR P.
  unfold canon. rewrite in_flat_map. split.
  - intros [f [Hf Hx]]. apply canon1_in in Hx as [p [b [Hp [Hb Hx]]]]. apply in_seq in Hf. exists f, p, b. repeat split; auto; lia.
  - intros [f [p [b [Hf [Hp [Hb Hx]]]]]]. exists f. split; [apply in_seq; lia|]. apply canon1_in. eauto.
Qed.
Lemma side_same x f p b f' p' b' : (b < nb)%nat -> (b' < nb)%nat -> In x (side f p b) -> In x (side f' p' b') -> f = f' /\ p = p' /\ b = b'.
Proof using G HR.
  clear HX P.
  intros Hb Hb' H H'. apply side_in in H as [q [c [E [Hc ->]]]]. apply side_in in H' as [q' [c' [E' [Hc' Ex]]]].
  destruct (HR b c Hb Hc) as [W1 W2], (HR b' c' Hb' Hc') as [W1' W2']. pose proof (f_equal fst Ex) as E1. pose proof (f_equal snd Ex) as E2. cbn [fst snd] in E1, E2.
  apply cell_inj in E1 as (-> & -> & ->); auto. apply cell_inj in E2 as (_ & _ & E2); auto. split; auto. split; auto.
  apply dir_inj; auto. apply (seen_dir_inj ng ns (dir b) (dir b') c'); auto; [apply G|apply (g_dirs _ _ _ _ G); auto|apply (g_dirs _ _ _ _ G); auto|now apply within_len].
Qed.
Lemma side_NoDup f p b : (b < nb)%nat -> NoDup (side f p b).
Proof using G HR.
  clear HX P.
  intro Hb. unfold side. destruct (nbr' p b) as [q|]; [|constructor]. apply nodup_inj; [apply region_NoDup|].
  intros c c' Hc Hc' E. inversion E as [[E1 E2]]. apply (proj1 (g_index _ _ _ _ G)) in E1; auto; [apply (HR b c)|apply (HR b c')]; auto.
Qed.
Lemma canon1_NoDup f : NoDup (canon1 f).
Proof using G HR.
  clear HX P.
  unfold canon1. apply nodup_flat; [apply seq_NoDup| |].
  - intros p Hp. apply nodup_flat; [apply seq_NoDup| |].
    + intros b Hb. apply in_seq in Hb. apply side_NoDup. lia.
    + intros b b' x Hb Hb' H H'. apply in_seq in Hb, Hb'. destruct (side_same x f p b f p b') as [_ [_ E]]; auto; lia.
  - intros p p' x _ _ H H'. apply in_flat_map in H as [b [Hb H]]. apply in_flat_map in H' as [b' [Hb' H']]. apply in_seq in Hb, Hb'.
    destruct (side_same x f p b f p' b') as [_ [E _]]; auto; lia.
Qed.
Lemma canon_NoDup nf : NoDup (canon nf).
Proof using G HR.
  clear HX P.
  unfold canon. apply nodup_flat; [apply seq_NoDup|intros; apply canon1_NoDup|].
  intros f f' x _ _ H H'. apply canon1_in in H as [p [b [Hp [Hb H]]]]. apply canon1_in in H' as [p' [b' [Hp' [Hb' H']]]].
  destruct (side_same x f p b f' p' b') as [E _]; auto.
Qed.

(** the loops of the C code visit exactly these pairs *)
Lemma side_pairs_eq f p q b : (b < nb)%nat -> nbr' p b = Some q -> side_pairs Ns f p q (map2 X ns (dir b)) = side f p b.
Proof using G HX.
  clear HR.
  intros Hb E. unfold side, side_pairs. rewrite E. unfold region. rewrite map_map. apply map_ext_in. intros k Hk. unfold cell.
  rewrite (region_src X P ns (dir b) k); auto.
  - apply (specs X P ng); [auto|apply G|apply (g_dirs _ _ _ _ G); auto].
  - rewrite (block_length _ _ Hk), cnt_length. unfold map2. rewrite map_length, combine_length. destruct (g_dirs _ _ _ _ G b Hb). lia.
Qed.
Lemma task_perm tab f p : tab_is X ns bounds tab -> Permutation (task_pairs Ns tab nbr' f p) (flat_map (side f p) (seq 0 nb)).
Proof using G HX.
  clear HR.
  intros [T1 T2]. etransitivity; [|apply flat_map_perm; exact T1]. rewrite flat_map_map'. apply perm_eq. unfold task_pairs. apply flat_map_ext'.
  intros [b row] Hi. cbn [fst snd]. assert (Hb : (b < nb)%nat).
  { assert (Hb : In b (map fst tab)) by (apply in_map_iff; exists (b, row); auto). apply (Permutation_in _ T1) in Hb. apply in_seq in Hb. lia. }
  rewrite (T2 _ _ Hi). destruct (nbr' p b) as [q|] eqn:E; [now apply side_pairs_eq|]. unfold side. now rewrite E.
Qed.
Lemma tasks_perm tab nf : tab_is X ns bounds tab -> Permutation (concat (map (fun i => task_pairs Ns tab nbr' (fst i) (snd i)) (iterations n nf))) (canon nf).
Proof using G HX.
  clear HR.
  intro T. rewrite <- flat_map_concat_map. etransitivity; [apply flat_map_perm, iterations_perm|].
  rewrite <- (flat_map_prod (fun f p => task_pairs Ns tab nbr' f p)). unfold canon, canon1. apply flat_map_perm_ext. intros f _. apply flat_map_perm_ext. intros p _. now apply task_perm.
Qed.
End X.
Lemma side_ext X nbr1 nbr2 f p b : nbr1 p b = nbr2 p b -> side X nbr1 f p b = side X nbr2 f p b.
Proof. intro E. unfold side. now rewrite E. Qed.

(** ** copying *)
Lemma guard_HR b c : (b < nb)%nat -> In c (region (map2 (ax_guard ng) ns (dir b))) -> within ng ns c /\ within ng ns (seen_from ns (dir b) c).
Proof.
  intros Hb Hc. apply guard_region in Hc as [Hw E]; [|apply G|apply (g_dirs _ _ _ _ G); auto]. split; auto. rewrite <- E.
  apply interior_within; [destruct (g_sizes _ _ _ _ G); lia|]. apply (guard_seen ng); auto. apply G.
Qed.
Notation gcanon := (canon (ax_guard ng)).
Lemma gcanon_in nbr' nf d s : In (d, s) (gcanon nbr' nf) <-> exists f p c q, (f < nf)%nat /\ (p < n)%nat /\ within ng ns c /\
  facing bounds nbr' p (sides_of ns c) = Some q /\ d = cel f p c /\ s = cel f q (seen_from ns (sides_of ns c) c).
Proof.
  rewrite canon_in. split.
  - intros (f & p & b & Hf & Hp & Hb & H). apply side_in in H as (q & c & E & Hc & Ex). inversion Ex; subst.
    apply guard_region in Hc as [Hw Es]; [|apply G|apply (g_dirs _ _ _ _ G); auto]. exists f, p, c, q. repeat split; auto.
    + apply facing_some. exists b. auto.
    + now rewrite Es.
  - intros (f & p & c & q & Hf & Hp & Hw & Hq & -> & ->). apply facing_some in Hq as (b & Hb & Es & Hq). exists f, p, b. repeat split; auto.
    apply side_in. exists q, c. repeat split; auto; [|now rewrite Es]. apply guard_region; [apply G|apply (g_dirs _ _ _ _ G); auto|split; [auto|congruence]].
Qed.
Lemma gcanon_ok nbr' nf : copy_ok (gcanon nbr' nf).
Proof.
  split.
  - apply nodup_inj; [apply canon_NoDup; intros; now apply guard_HR|]. intros [d s] [d' s'] H H' E. cbn in E. subst d'.
    apply gcanon_in in H as (f & p & c & q & Hf & Hp & Hw & Hq & -> & ->). apply gcanon_in in H' as (f' & p' & c' & q' & Hf' & Hp' & Hw' & Hq' & E & ->).
    apply cell_inj in E as (-> & -> & ->); auto. congruence.
  - intros d Hd Hs. apply in_map_iff in Hd as ([d1 s1] & E & Hd). cbn in E. subst d1. apply in_map_iff in Hs as ([d2 s2] & E & Hs). cbn in E. subst s2.
    apply gcanon_in in Hd as (f & p & c & q & Hf & Hp & Hw & Hq & -> & _). apply gcanon_in in Hs as (f' & p' & c' & q' & Hf' & Hp' & Hw' & Hq' & _ & E).
    assert (I : interior ns (seen_from ns (sides_of ns c') c')) by (apply (guard_seen ng); auto; apply G).
    apply cell_inj in E as (-> & -> & ->); auto; [|apply interior_within; auto; destruct (g_sizes _ _ _ _ G); lia].
    rewrite facing_interior in Hq; [discriminate|auto].
Qed.
Lemma gcanon_result {V} nbr' nf (m : addr -> V) f p c : (f < nf)%nat -> (p < n)%nat -> within ng ns c ->
  copied (gcanon nbr' nf) m (cel f p c) = guard_result bounds ns ng nbr' m f p c.
Proof.
  intros Hf Hp Hw. unfold guard_result. destruct (facing bounds nbr' p (sides_of ns c)) as [q|] eqn:E.
  - apply copied_in; [apply gcanon_ok|]. apply gcanon_in. exists f, p, c, q. auto 10.
  - apply copied_out. intro H. apply in_map_iff in H as ([d s] & Ed & H). cbn in Ed. subst d.
    apply gcanon_in in H as (f' & p' & c' & q' & Hf' & Hp' & Hw' & Hq' & Ec & _). apply cell_inj in Ec as (-> & -> & ->); auto. congruence.
Qed.
Lemma gcanon_frame {V} nbr' nf (m : addr -> V) a : (forall f p c, (f < nf)%nat -> (p < n)%nat -> within ng ns c -> a <> cel f p c) -> copied (gcanon nbr' nf) m a = m a.
Proof.
  intro H. apply copied_out. intro Hi. apply in_map_iff in Hi as ([d s] & Ed & Hi). cbn in Ed. subst d. apply gcanon_in in Hi as (f & p & c & q & Hf & Hp & Hw & _ & E & _).
  apply (H f p c); auto.
Qed.

(** ** accumulating *)
Lemma cur_HR b c : (b < nb)%nat -> In c (region (map2 (ax_currents ng) ns (dir b))) -> within ng ns c /\ within ng ns (seen_from ns (dir b) c).
Proof.
  intros Hb Hc. apply cur_region in Hc as [Hw E]; [|apply G|apply (g_dirs _ _ _ _ G); auto]. split; auto.
  apply interior_within; [destruct (g_sizes _ _ _ _ G); lia|auto].
Qed.
Notation ccanon := (canon (ax_currents ng)).
Notation ccanon1 := (canon1 (ax_currents ng)).
Notation cside := (side (ax_currents ng)).
Lemma cside_in nbr' d s f p b : (b < nb)%nat -> In (d, s) (cside nbr' f p b) <-> exists q c, nbr' p b = Some q /\ interior ns c /\ within ng ns (seen_from ns (dir b) c) /\
  d = cel f p c /\ s = cel f q (seen_from ns (dir b) c).
Proof.
  intro Hb. rewrite side_in. split.
  - intros (q & c & E & Hc & Ex). inversion Ex; subst. apply cur_region in Hc as [Hi Hw]; [|apply G|apply (g_dirs _ _ _ _ G); auto]. eauto 10.
  - intros (q & c & E & Hi & Hw & -> & ->). exists q, c. repeat split; auto. apply cur_region; auto; [apply G|apply (g_dirs _ _ _ _ G); auto].
Qed.
Section Cur.
Variable nbr' : nat -> nat -> option nat.
Hypothesis Sym : nbr_symmetric n nb opp nbr'.
Lemma src_guard c b : (b < nb)%nat -> interior ns c -> within ng ns (seen_from ns (dir b) c) -> sides_of ns (seen_from ns (dir b) c) = dir (opp b).
Proof. intros Hb Hi Hw. rewrite (cur_seen_sides ng); auto; [|apply G|apply (g_dirs _ _ _ _ G); auto]. symmetry. apply (g_opp _ _ _ _ G); auto. Qed.
Lemma seen_opp c b : (b < nb)%nat -> length c = length ns -> seen_from ns (dir (opp b)) (seen_from ns (dir b) c) = c.
Proof. intros Hb Hc. rewrite (proj1 (g_opp _ _ _ _ G b Hb)). apply seen_back; auto. apply (g_dirs _ _ _ _ G); auto. Qed.
Lemma not_interior c b : (b < nb)%nat -> interior ns c -> within ng ns (seen_from ns (dir b) c) -> ~ interior ns (seen_from ns (dir b) c).
Proof.
  intros Hb Hi Hw Hs. apply (g_zero _ _ _ _ G).
  pose proof (src_guard c b Hb Hi Hw) as E. rewrite (proj1 (sides_zero ns _ (eq_sym (Forall2_len _ _ _ Hs))) Hs) in E. rewrite E. apply nth_In. apply (g_opp _ _ _ _ G); auto.
Qed.
Lemma interior_len c : interior ns c -> length c = length ns. Proof. intro H. symmetry. exact (Forall2_len _ _ _ H). Qed.
Lemma ng_pos : 0 <= ng. Proof. destruct (g_sizes _ _ _ _ G). lia. Qed.
Lemma ccanon_ok nf : pairs_ok (ccanon nbr' nf).
Proof.
  split.
  - apply nodup_inj; [apply canon_NoDup; intros; now apply cur_HR|]. intros [d s] [d' s'] H H' E. cbn in E. subst s'.
    apply canon_in in H as (f & p & b & Hf & Hp & Hb & H). apply canon_in in H' as (f' & p' & b' & Hf' & Hp' & Hb' & H').
    apply cside_in in H as (q & c & Eq & Hi & Hw & -> & ->); auto. apply cside_in in H' as (q' & c' & Eq' & Hi' & Hw' & -> & E); auto.
    apply cell_inj in E as (-> & -> & E); auto.
    assert (Hbb : b = b').
    { apply dir_inj; auto. pose proof (src_guard c b Hb Hi Hw) as S1. pose proof (src_guard c' b' Hb' Hi' Hw') as S2. rewrite E in S1. rewrite S1 in S2.
      rewrite (proj1 (g_opp _ _ _ _ G b Hb)), (proj1 (g_opp _ _ _ _ G b' Hb')) in S2. now apply neg_inj. }
    subst b'. destruct (Sym p b q') as (_ & _ & _ & B1); auto. destruct (Sym p' b q') as (_ & _ & _ & B2); auto. assert (p = p') by congruence. subst p'.
    assert (c = c') by (rewrite <- (seen_opp c b), <- (seen_opp c' b), E; auto; now apply interior_len). now subst.
  - intros d Hd Hs. apply in_map_iff in Hd as ([d1 s1] & E & Hd). cbn in E. subst d1. apply in_map_iff in Hs as ([d2 s2] & E & Hs). cbn in E. subst s2.
    apply canon_in in Hd as (f & p & b & Hf & Hp & Hb & H). apply canon_in in Hs as (f' & p' & b' & Hf' & Hp' & Hb' & H').
    apply cside_in in H as (q & c & Eq & Hi & Hw & -> & ->); auto. apply cside_in in H' as (q' & c' & Eq' & Hi' & Hw' & -> & E); auto.
    apply cell_inj in E as (-> & -> & ->); auto; [|apply interior_within; [apply ng_pos|auto]]. apply (not_interior c' b'); auto.
Qed.
Lemma ccanon_src f p c nf : (f < nf)%nat -> (p < n)%nat -> within ng ns c -> In (cel f p c) (map snd (ccanon nbr' nf)) <-> exists q, facing bounds nbr' p (sides_of ns c) = Some q.
Proof.
  intros Hf Hp Hw. rewrite in_map_iff. split.
  - intros ([d s] & E & H). cbn in E. subst s. apply canon_in in H as (f' & p' & b & _ & Hp' & Hb & H). apply cside_in in H as (q & c' & Eq & Hi & Hw' & -> & E); auto.
    apply cell_inj in E as (-> & -> & ->); auto. destruct (Sym p' b q) as (_ & Hob & _ & B); auto. exists p'. apply facing_some. exists (opp b). repeat split; auto.
    rewrite src_guard; auto.
  - intros [q H]. apply facing_some in H as (b & Hb & Es & Hq). destruct (Sym p b q) as (Hqn & Hob & Hoo & B); auto.
    assert (D : neg (dir (opp b)) = sides_of ns c) by (rewrite (proj1 (g_opp _ _ _ _ G b Hb)), neg_neg; auto).
    destruct (guard_cell_image ng ns (dir (opp b)) c) as [I1 I2]; auto; [apply G|apply (g_dirs _ _ _ _ G); auto|].
    exists (cel f q (seen_from ns (sides_of ns c) c), cel f p c). split; auto. apply canon_in. exists f, q, (opp b). repeat split; auto.
    apply cside_in; auto. exists p, (seen_from ns (sides_of ns c) c). rewrite D in I1, I2. repeat split; auto; rewrite I2; auto.
Qed.
Section Val.
Context {V : Type} (zero : V) (plus : V -> V -> V).
Hypothesis Hm : monoid zero plus.
Notation tot := (total zero plus).
Lemma cside_total (m : addr -> V) f p b c : (b < nb)%nat -> interior ns c ->
  tot (vals (cside nbr' f p b) m (cel f p c)) = match nbr' p b with Some q => deposited zero ns ng m f q (dir b) c | None => zero end.
Proof.
  intros Hb Hi. destruct (nbr' p b) as [q|] eqn:E.
  - unfold deposited. assert (Hl : length (seen_from ns (dir b) c) = length ns) by (apply seen_length; [apply (g_dirs _ _ _ _ G); auto|now apply interior_len]).
    destruct (within_b ng ns (seen_from ns (dir b) c)) eqn:W.
    + apply within_b_ok in W; auto. rewrite (vals_one _ _ _ (cel f q (seen_from ns (dir b) c))).
      * cbn. apply (plus_0_r zero plus Hm).
      * unfold side. rewrite E, map_map. cbn [fst]. apply nodup_inj; [apply region_NoDup|]. intros x y Hx Hy Ex.
        apply cell_inj in Ex; [tauto| |]; [apply (cur_HR b x)|apply (cur_HR b y)]; auto.
      * apply cside_in; auto. exists q, c. auto.
    + rewrite vals_none; [reflexivity|]. intro H. apply in_map_iff in H as ([d s] & Ed & H). cbn in Ed. subst d.
      apply cside_in in H as (q' & c' & Eq & Hi' & Hw & Ed & _); auto. apply cell_inj in Ed as (_ & _ & ->); [|apply interior_within; [apply ng_pos|auto]|apply interior_within; [apply ng_pos|auto]].
      apply within_b_ok in Hw; [congruence|auto].
  - unfold side. rewrite E. reflexivity.
Qed.
Lemma ccanon_result nf (m : addr -> V) f p c : (f < nf)%nat -> (p < n)%nat -> within ng ns c ->
  accumulated zero plus (ccanon nbr' nf) m (cel f p c) = current_result zero plus bounds ns ng nbr' m f p c.
Proof.
  intros Hf Hp Hw. pose proof (within_len _ Hw) as Hl. unfold accumulated, current_result.
  destruct (interior_b ns c) eqn:I.
  - apply interior_b_ok in I; auto. rewrite (proj2 (existsb_snd_false _ _)).
    2:{ rewrite ccanon_src; auto. intros [q H]. rewrite facing_interior in H; [discriminate|auto]. }
    f_equal. unfold canon, canon1. rewrite (tot_vals_flat zero plus Hm). rewrite (tot_single zero plus Hm _ f).
    + rewrite (tot_vals_flat zero plus Hm). rewrite (tot_single zero plus Hm _ p).
      * rewrite (tot_vals_flat zero plus Hm). apply tot_ext. intros b Hb. apply in_seq in Hb. apply cside_total; auto. lia.
      * apply seq_NoDup.
      * apply in_seq. lia.
      * intros p' Hp' Hne. rewrite vals_none; [reflexivity|]. intro H. apply in_map_iff in H as ([d s] & Ed & H). cbn in Ed. subst d.
        apply in_flat_map in H as (b & Hb & H). apply in_seq in Hb. apply cside_in in H as (q' & c' & Eq & Hi' & Hw' & Ed & _); [|lia].
        apply cell_inj in Ed; auto; [|apply interior_within; [apply ng_pos|auto]]. destruct Ed as (_ & -> & _). congruence.
    + apply seq_NoDup.
    + apply in_seq. lia.
    + intros f' Hf' Hne. rewrite vals_none; [reflexivity|]. intro H. apply in_map_iff in H as ([d s] & Ed & H). cbn in Ed. subst d.
      apply in_flat_map in H as (p' & Hp' & H). apply in_flat_map in H as (b & Hb & H). apply in_seq in Hb. apply cside_in in H as (q' & c' & Eq & Hi' & Hw' & Ed & _); [|lia].
      apply cell_inj in Ed; auto; [|apply interior_within; [apply ng_pos|auto]]. destruct Ed as (-> & _ & _). congruence.
  - destruct (facing bounds nbr' p (sides_of ns c)) as [q|] eqn:E.
    + rewrite (proj2 (existsb_snd _ _)); auto. apply ccanon_src; eauto.
    + rewrite (proj2 (existsb_snd_false _ _)); [|rewrite ccanon_src; auto; intros [q H]; congruence].
      rewrite vals_none; [cbn; apply (plus_0_r zero plus Hm)|]. intro H. apply in_map_iff in H as ([d s] & Ed & H). cbn in Ed. subst d.
      apply canon_in in H as (f' & p' & b & _ & _ & Hb & H). apply cside_in in H as (q' & c' & Eq & Hi' & Hw' & Ed & _); auto.
      apply cell_inj in Ed as (_ & _ & ->); auto; [|apply interior_within; [apply ng_pos|auto]]. apply interior_b_ok in Hi'; [congruence|auto].
Qed.
Lemma ccanon_frame nf (m : addr -> V) a : (forall f p c, (f < nf)%nat -> (p < n)%nat -> within ng ns c -> a <> cel f p c) -> accumulated zero plus (ccanon nbr' nf) m a = m a.
Proof.
  intro H. unfold accumulated. rewrite (proj2 (existsb_snd_false _ _)).
  - rewrite vals_none; [cbn; apply (plus_0_r zero plus Hm)|]. intro Hi. apply in_map_iff in Hi as ([d s] & Ed & Hi). cbn in Ed. subst d.
    apply canon_in in Hi as (f & p & b & Hf & Hp & Hb & Hi). apply cside_in in Hi as (q & c & Eq & Hi' & Hw' & Ed & _); auto. apply (H f p c); auto. apply interior_within; [apply ng_pos|auto].
  - intro Hi. apply in_map_iff in Hi as ([d s] & Ed & Hi). cbn in Ed. subst s.
    apply canon_in in Hi as (f & p & b & Hf & Hp & Hb & Hi). apply cside_in in Hi as (q & c & Eq & Hi' & Hw' & _ & Ed); auto. destruct (Sym p b q) as (Hq & _); auto. apply (H f q (seen_from ns (dir b) c)); auto.
Qed.
(** the sum of every component is unchanged *)
Lemma canon1_part nf (m : addr -> V) f p o : (f < nf)%nat -> accumulated zero plus (ccanon nbr' nf) m (Fld f p o) = accumulated zero plus (ccanon1 nbr' f) m (Fld f p o).
Proof.
  intro Hf. assert (Ff : forall f' x, In x (ccanon1 nbr' f') -> (exists p o, fst x = Fld f' p o) /\ (exists p o, snd x = Fld f' p o)).
  { intros f' x H. apply canon1_in in H as (p' & b & _ & _ & H). apply side_in in H as (q & c & _ & _ & ->). unfold cell. cbn. split; eexists; eexists; reflexivity. }
  unfold accumulated.
  assert (E : existsb (fun ds => addr_eqb (snd ds) (Fld f p o)) (ccanon nbr' nf) = existsb (fun ds => addr_eqb (snd ds) (Fld f p o)) (ccanon1 nbr' f)).
  { destruct (existsb _ (ccanon1 nbr' f)) eqn:E.
    - apply existsb_snd in E. apply existsb_snd. apply in_map_iff in E as (x & Ex & Hx). apply in_map_iff. exists x. split; auto. unfold canon. apply in_flat_map. exists f. split; auto. apply in_seq. lia.
    - apply existsb_snd_false in E. apply existsb_snd_false. intro H. apply E. apply in_map_iff in H as (x & Ex & Hx). apply in_map_iff. exists x. split; auto.
      unfold canon in Hx. apply in_flat_map in Hx as (f' & _ & Hx). destruct (Ff f' x Hx) as [_ (p' & o' & E')]. assert (f' = f) by congruence. subst f'. exact Hx. }
  rewrite E. destruct (existsb _ (ccanon1 nbr' f)); auto. f_equal. unfold canon. rewrite (tot_vals_flat zero plus Hm).
  apply (tot_single zero plus Hm (seq 0 nf) f (fun x => tot (vals (ccanon1 nbr' x) m (Fld f p o)))); [apply seq_NoDup|apply in_seq; lia|].
  intros f' _ Hne. rewrite vals_none; [reflexivity|]. intro H. apply in_map_iff in H as (x & Ex & Hx). destruct (Ff f' x Hx) as [(p' & o' & E') _]. congruence.
Qed.
Lemma canon1_incl f nf x : (f < nf)%nat -> In x (ccanon1 nbr' f) -> In x (ccanon nbr' nf).
Proof. intros Hf Hx. unfold canon. apply in_flat_map. exists f. split; auto. apply in_seq. lia. Qed.
Lemma canon1_ok f : pairs_ok (ccanon1 nbr' f).
Proof.
  destruct (ccanon_ok (S f)) as [H1 H2]. split.
  - apply nodup_inj; [apply canon1_NoDup; intros; now apply cur_HR|]. intros x y Hx Hy E. apply (canon1_incl f (S f)) in Hx, Hy; auto.
    clear - H1 Hx Hy E. induction (ccanon nbr' (S f)) as [|z l IH]; [contradiction|]. cbn [map] in H1. apply NoDup_cons_iff in H1 as [H1 H3].
    destruct Hx as [->|Hx], Hy as [->|Hy]; auto; exfalso; apply H1; [rewrite E|rewrite <- E]; now apply in_map.
  - intros d Hd Hs. apply (H2 d); [apply in_map_iff in Hd as (x & <- & Hx)|apply in_map_iff in Hs as (x & <- & Hx)]; apply in_map; apply (canon1_incl f); auto.
Qed.
Lemma ccanon_total nf (m : addr -> V) f : (f < nf)%nat -> domain_total zero plus ns ng n f (accumulated zero plus (ccanon nbr' nf) m) = domain_total zero plus ns ng n f m.
Proof.
  intro Hf. unfold domain_total.
  set (A := flat_map (fun p => map (Fld f p) (zseq (volume Ns))) (seq 0 n)).
  assert (EA : forall g : addr -> V, flat_map (fun p => map (fun o => g (Fld f p o)) (zseq (volume Ns))) (seq 0 n) = map g A).
  { intro g. unfold A. clear. induction (seq 0 n) as [|p l IH]; [reflexivity|]. cbn [flat_map]. now rewrite map_app, map_map, IH. }
  rewrite !EA. transitivity (tot (map (accumulated zero plus (ccanon1 nbr' f) m) A)).
  - apply tot_ext. intros a Ha. unfold A in Ha. apply in_flat_map in Ha as (p & _ & Ha). apply in_map_iff in Ha as (o & <- & _). now apply canon1_part.
  - assert (InA : forall p c, (p < n)%nat -> within ng ns c -> In (cel f p c) A).
    { intros p c Hp Hw. unfold A. apply in_flat_map. exists p. split; [apply in_seq; lia|]. unfold cell. apply in_map. apply zseq_in. apply (proj2 (g_index _ _ _ _ G)); auto. }
    apply (accumulated_total zero plus Hm); [apply canon1_ok| | |].
    + unfold A. apply nodup_flat; [apply seq_NoDup| |].
      * intros p _. apply nodup_inj; [apply zseq_NoDup|]. intros; congruence.
      * intros p p' x _ _ H H'. apply in_map_iff in H as (o & <- & _). apply in_map_iff in H' as (o' & E & _). congruence.
    + intros a Ha. apply in_map_iff in Ha as ([d s] & <- & Ha). apply canon1_in in Ha as (p & b & Hp & Hb & Ha). apply cside_in in Ha as (q & c & Eq & Hi & Hw & -> & ->); auto.
      apply InA; auto. apply interior_within; [apply ng_pos|auto].
    + intros a Ha. apply in_map_iff in Ha as ([d s] & <- & Ha). apply canon1_in in Ha as (p & b & Hp & Hb & Ha). apply cside_in in Ha as (q & c & Eq & Hi & Hw & -> & ->); auto.
      apply InA; auto. destruct (Sym p b q); auto.
Qed.
End Val.
End Cur.
End Geo.
