(** Theorems about synchronising currents within a step (C09, C56) and the per-species density output (C46, C57). *)
From Verif Require Import Base M_Layout S_Layout M_PartSync S_PartSync M_FieldSync S_FieldSync P_PartSync3 P_FieldGeo P_FieldSync P_FieldSync5 M_CurrentSync S_CurrentSync P_CurrentSync.
Local Open Scope Z_scope.

Section Sync.
Context {V : Type} (zero : V) (plus : V -> V -> V).

(** ** 2D.  The pairs moved inside the processes and by messages, for any neighbour relation and any assignment of patches to processes *)
Definition loc2 (nx ny ng : Z) n nbr rank := exchange_pairs (extents [nx; ny] ng) (local_currents2 nx ny ng) (here nbr rank) n.
Definition rem2 (nx ny ng : Z) n nbr rank := exchange_pairs (extents [nx; ny] ng) (local_currents2 nx ny ng) (away nbr rank) n.
(** Whatever depositions and callbacks happen in a step, as long as no callback leaves an exchange in flight:
    when the fields are advanced nothing is in flight and every cell holds what one exchange of all deposits
    gives. *)
Theorem C09_step_2d : forall nx ny ng n nbr rank single st es, monoid zero plus -> 0 < ng -> ng <= nx -> ng <= ny -> nbr_symmetric n 8 opp2 nbr ->
  (single = true -> forall p q, rank p = rank q) -> pending st = None -> all_finish es ->
  let st' := before_fields zero plus (loc2 nx ny ng n nbr rank) (rem2 nx ny ng n nbr rank) single st es in
  pending st' = None /\ synced st' = true /\
  forall f p c, (f < 4)%nat -> (p < n)%nat -> within ng [nx; ny] c ->
    cur st' (cell [nx; ny] ng f p c) = current_result zero plus bounds2 [nx; ny] ng nbr (deposited_sum zero plus es) f p c.
Proof.
  intros nx ny ng n nbr rank single st es Hm Hg Hx Hy Sy Hs Hp F st'. pose proof (geometry2 nx ny ng Hg Hx Hy) as G.
  destruct (before_fields_ok zero plus Hm (loc2 nx ny ng n nbr rank) (rem2 nx ny ng n nbr rank) single
    (pairs_fine _ _ _ _ n G nbr rank Sy _ (local_currents2_is nx ny ng)) (fun H => one_process _ _ n nbr rank _ (Hs H)) st es Hp F) as (A & B & C).
  split; [exact A|]. split; [exact B|]. intros f p c Hf Hpn Hc. unfold st'. rewrite C. now apply (E_result _ _ _ _ n G nbr rank Sy _ (local_currents2_is nx ny ng)).
Qed.
(** The same as doing all depositions first and synchronising once. *)
Theorem C09_same_as_once_2d : forall nx ny ng n nbr rank single st es, monoid zero plus -> 0 < ng -> ng <= nx -> ng <= ny -> nbr_symmetric n 8 opp2 nbr ->
  (single = true -> forall p q, rank p = rank q) -> pending st = None -> all_finish es ->
  forall a, cur (before_fields zero plus (loc2 nx ny ng n nbr rank) (rem2 nx ny ng n nbr rank) single st es) a =
            cur (before_fields zero plus (loc2 nx ny ng n nbr rank) (rem2 nx ny ng n nbr rank) single st
                   (filter (fun e => match e with Deposits _ => true | Calls _ => false end) es)) a.
Proof.
  intros nx ny ng n nbr rank single st es Hm Hg Hx Hy Sy Hs Hp F a. pose proof (geometry2 nx ny ng Hg Hx Hy) as G.
  exact (calls_invisible zero plus Hm (loc2 nx ny ng n nbr rank) (rem2 nx ny ng n nbr rank) single
    (pairs_fine _ _ _ _ n G nbr rank Sy _ (local_currents2_is nx ny ng)) (fun H => one_process _ _ n nbr rank _ (Hs H)) st es Hp F a).
Qed.
(** When sync_currents returns in a callback, every cell holds the exchange of everything deposited so far. *)
Theorem C09_callback_sees_2d : forall nx ny ng n nbr rank single st es cs, monoid zero plus -> 0 < ng -> ng <= nx -> ng <= ny -> nbr_symmetric n 8 opp2 nbr ->
  (single = true -> forall p q, rank p = rank q) -> pending st = None -> all_finish es ->
  let st' := fold_left (do_event zero plus (loc2 nx ny ng n nbr rank) (rem2 nx ny ng n nbr rank) single) (es ++ [Calls (cs ++ [Sync])]) (reset zero st) in
  forall f p c, (f < 4)%nat -> (p < n)%nat -> within ng [nx; ny] c ->
    cur st' (cell [nx; ny] ng f p c) = current_result zero plus bounds2 [nx; ny] ng nbr (deposited_sum zero plus es) f p c.
Proof.
  intros nx ny ng n nbr rank single st es cs Hm Hg Hx Hy Sy Hs Hp F st' f p c Hf Hpn Hc. pose proof (geometry2 nx ny ng Hg Hx Hy) as G.
  unfold st'. rewrite (sync_sees zero plus Hm _ _ single
    (pairs_fine _ _ _ _ n G nbr rank Sy _ (local_currents2_is nx ny ng)) (fun H => one_process _ _ n nbr rank _ (Hs H)) st es cs Hp F).
  now apply (E_result _ _ _ _ n G nbr rank Sy _ (local_currents2_is nx ny ng)).
Qed.
(** A start followed by a wait is the exchange between processes of C11, under every schedule of it. *)
Theorem C09_is_exchange_2d : forall nx ny ng n nbr rank single sched1 sched2 (m m' : addr -> V), monoid zero plus -> 0 < ng -> ng <= nx -> ng <= ny -> nbr_symmetric n 8 opp2 nbr ->
  (single = true -> forall p q, rank p = rank q) ->
  current_exchange [nx; ny] ng n 8 opp2 nbr rank zero plus (local_currents2 nx ny ng) (mpi_currents2 nx ny ng) sched1 sched2 m = Some m' ->
  forall f p o, cur (sync_wait plus (sync_start zero plus (loc2 nx ny ng n nbr rank) (rem2 nx ny ng n nbr rank) single (State m false None))) (Fld f p o) = m' (Fld f p o).
Proof.
  intros nx ny ng n nbr rank single s1 s2 m m' Hm Hg Hx Hy Sy Hs H f p o. pose proof (geometry2 nx ny ng Hg Hx Hy) as G.
  rewrite (start_wait zero plus Hm _ _ single (pairs_fine _ _ _ _ n G nbr rank Sy _ (local_currents2_is nx ny ng)) (fun H => one_process _ _ n nbr rank _ (Hs H)) m).
  exact (E_exchange _ _ _ _ n G nbr rank Sy _ (local_currents2_is nx ny ng) zero plus _ s1 s2 m m' Hm (mpi_currents2_is nx ny ng) H f p o).
Qed.
(** The density written for an enabled species, when the species before it in the list is enabled or there is
    none: exactly one array is written, and in every cell it is the exchanged charge of that species alone over
    its charge, whatever other species deposit, whichever later or earlier ones are disabled, and whatever
    synchronisation other callbacks do. *)
Theorem C46_density_2d : forall nx ny ng n nbr rank single st o target ts t minus per_charge, monoid zero plus -> undoes plus minus -> 0 < ng -> ng <= nx -> ng <= ny -> nbr_symmetric n 8 opp2 nbr ->
  (single = true -> forall p q, rank p = rank q) -> pending st = None -> turns_finish ts ->
  nth_error ts target = Some t -> enabled t = true ->
  (forall b tb, target = S b -> nth_error ts b = Some tb -> enabled tb = true) ->
  exists st' prev w,
    density_step zero plus (loc2 nx ny ng n nbr rank) (rem2 nx ny ng n nbr rank) single minus per_charge target ts st o = Some (st', Output prev (written o ++ [w])) /\
    forall p c, (p < n)%nat -> interior [nx; ny] c ->
      w (cell [nx; ny] ng 3 p c) = per_charge (current_result zero plus bounds2 [nx; ny] ng nbr (share t) 3 p c).
Proof.
  intros nx ny ng n nbr rank single st o target ts t minus per_charge Hm Hu Hg Hx Hy Sy Hs Hp F Ht En Hb. pose proof (geometry2 nx ny ng Hg Hx Hy) as G.
  destruct (density_ok zero plus Hm (loc2 nx ny ng n nbr rank) (rem2 nx ny ng n nbr rank) single
    (pairs_fine _ _ _ _ n G nbr rank Sy _ (local_currents2_is nx ny ng)) (fun H => one_process _ _ n nbr rank _ (Hs H)) minus per_charge Hu target ts st o t Hp F Ht En Hb) as (st' & prev & w & E1 & E2).
  exists st', prev, w. split; auto. intros p c Hpn Hc. rewrite E2. f_equal.
  apply (E_result _ _ _ _ n G nbr rank Sy _ (local_currents2_is nx ny ng)); auto. apply interior_within; auto; lia.
Qed.

(** ** 3D.  The pairs moved inside the processes and by messages, for any neighbour relation and any assignment of patches to processes *)
Definition loc3 (nx ny nz ng : Z) n nbr rank := exchange_pairs (extents [nx; ny; nz] ng) (local_currents3 nx ny nz ng) (here nbr rank) n.
Definition rem3 (nx ny nz ng : Z) n nbr rank := exchange_pairs (extents [nx; ny; nz] ng) (local_currents3 nx ny nz ng) (away nbr rank) n.
(** Whatever depositions and callbacks happen in a step, as long as no callback leaves an exchange in flight:
    when the fields are advanced nothing is in flight and every cell holds what one exchange of all deposits
    gives. *)
Theorem C09_step_3d : forall nx ny nz ng n nbr rank single st es, monoid zero plus -> 0 < ng -> ng <= nx -> ng <= ny -> ng <= nz -> nbr_symmetric n 26 opp3 nbr ->
  (single = true -> forall p q, rank p = rank q) -> pending st = None -> all_finish es ->
  let st' := before_fields zero plus (loc3 nx ny nz ng n nbr rank) (rem3 nx ny nz ng n nbr rank) single st es in
  pending st' = None /\ synced st' = true /\
  forall f p c, (f < 4)%nat -> (p < n)%nat -> within ng [nx; ny; nz] c ->
    cur st' (cell [nx; ny; nz] ng f p c) = current_result zero plus bounds3 [nx; ny; nz] ng nbr (deposited_sum zero plus es) f p c.
Proof.
  intros nx ny nz ng n nbr rank single st es Hm Hg Hx Hy Hz Sy Hs Hp F st'. pose proof (geometry3 nx ny nz ng Hg Hx Hy Hz) as G.
  destruct (before_fields_ok zero plus Hm (loc3 nx ny nz ng n nbr rank) (rem3 nx ny nz ng n nbr rank) single
    (pairs_fine _ _ _ _ n G nbr rank Sy _ (local_currents3_is nx ny nz ng)) (fun H => one_process _ _ n nbr rank _ (Hs H)) st es Hp F) as (A & B & C).
  split; [exact A|]. split; [exact B|]. intros f p c Hf Hpn Hc. unfold st'. rewrite C. now apply (E_result _ _ _ _ n G nbr rank Sy _ (local_currents3_is nx ny nz ng)).
Qed.
(** The same as doing all depositions first and synchronising once. *)
Theorem C09_same_as_once_3d : forall nx ny nz ng n nbr rank single st es, monoid zero plus -> 0 < ng -> ng <= nx -> ng <= ny -> ng <= nz -> nbr_symmetric n 26 opp3 nbr ->
  (single = true -> forall p q, rank p = rank q) -> pending st = None -> all_finish es ->
  forall a, cur (before_fields zero plus (loc3 nx ny nz ng n nbr rank) (rem3 nx ny nz ng n nbr rank) single st es) a =
            cur (before_fields zero plus (loc3 nx ny nz ng n nbr rank) (rem3 nx ny nz ng n nbr rank) single st
                   (filter (fun e => match e with Deposits _ => true | Calls _ => false end) es)) a.
Proof.
  intros nx ny nz ng n nbr rank single st es Hm Hg Hx Hy Hz Sy Hs Hp F a. pose proof (geometry3 nx ny nz ng Hg Hx Hy Hz) as G.
  exact (calls_invisible zero plus Hm (loc3 nx ny nz ng n nbr rank) (rem3 nx ny nz ng n nbr rank) single
    (pairs_fine _ _ _ _ n G nbr rank Sy _ (local_currents3_is nx ny nz ng)) (fun H => one_process _ _ n nbr rank _ (Hs H)) st es Hp F a).
Qed.
(** When sync_currents returns in a callback, every cell holds the exchange of everything deposited so far. *)
Theorem C09_callback_sees_3d : forall nx ny nz ng n nbr rank single st es cs, monoid zero plus -> 0 < ng -> ng <= nx -> ng <= ny -> ng <= nz -> nbr_symmetric n 26 opp3 nbr ->
  (single = true -> forall p q, rank p = rank q) -> pending st = None -> all_finish es ->
  let st' := fold_left (do_event zero plus (loc3 nx ny nz ng n nbr rank) (rem3 nx ny nz ng n nbr rank) single) (es ++ [Calls (cs ++ [Sync])]) (reset zero st) in
  forall f p c, (f < 4)%nat -> (p < n)%nat -> within ng [nx; ny; nz] c ->
    cur st' (cell [nx; ny; nz] ng f p c) = current_result zero plus bounds3 [nx; ny; nz] ng nbr (deposited_sum zero plus es) f p c.
Proof.
  intros nx ny nz ng n nbr rank single st es cs Hm Hg Hx Hy Hz Sy Hs Hp F st' f p c Hf Hpn Hc. pose proof (geometry3 nx ny nz ng Hg Hx Hy Hz) as G.
  unfold st'. rewrite (sync_sees zero plus Hm _ _ single
    (pairs_fine _ _ _ _ n G nbr rank Sy _ (local_currents3_is nx ny nz ng)) (fun H => one_process _ _ n nbr rank _ (Hs H)) st es cs Hp F).
  now apply (E_result _ _ _ _ n G nbr rank Sy _ (local_currents3_is nx ny nz ng)).
Qed.
(** A start followed by a wait is the exchange between processes of C11, under every schedule of it. *)
Theorem C09_is_exchange_3d : forall nx ny nz ng n nbr rank single sched1 sched2 (m m' : addr -> V), monoid zero plus -> 0 < ng -> ng <= nx -> ng <= ny -> ng <= nz -> nbr_symmetric n 26 opp3 nbr ->
  (single = true -> forall p q, rank p = rank q) ->
  current_exchange [nx; ny; nz] ng n 26 opp3 nbr rank zero plus (local_currents3 nx ny nz ng) (mpi_currents3 nx ny nz ng) sched1 sched2 m = Some m' ->
  forall f p o, cur (sync_wait plus (sync_start zero plus (loc3 nx ny nz ng n nbr rank) (rem3 nx ny nz ng n nbr rank) single (State m false None))) (Fld f p o) = m' (Fld f p o).
Proof.
  intros nx ny nz ng n nbr rank single s1 s2 m m' Hm Hg Hx Hy Hz Sy Hs H f p o. pose proof (geometry3 nx ny nz ng Hg Hx Hy Hz) as G.
  rewrite (start_wait zero plus Hm _ _ single (pairs_fine _ _ _ _ n G nbr rank Sy _ (local_currents3_is nx ny nz ng)) (fun H => one_process _ _ n nbr rank _ (Hs H)) m).
  exact (E_exchange _ _ _ _ n G nbr rank Sy _ (local_currents3_is nx ny nz ng) zero plus _ s1 s2 m m' Hm (mpi_currents3_is nx ny nz ng) H f p o).
Qed.
(** The density written for an enabled species, when the species before it in the list is enabled or there is
    none: exactly one array is written, and in every cell it is the exchanged charge of that species alone over
    its charge, whatever other species deposit, whichever later or earlier ones are disabled, and whatever
    synchronisation other callbacks do. *)
Theorem C46_density_3d : forall nx ny nz ng n nbr rank single st o target ts t minus per_charge, monoid zero plus -> undoes plus minus -> 0 < ng -> ng <= nx -> ng <= ny -> ng <= nz -> nbr_symmetric n 26 opp3 nbr ->
  (single = true -> forall p q, rank p = rank q) -> pending st = None -> turns_finish ts ->
  nth_error ts target = Some t -> enabled t = true ->
  (forall b tb, target = S b -> nth_error ts b = Some tb -> enabled tb = true) ->
  exists st' prev w,
    density_step zero plus (loc3 nx ny nz ng n nbr rank) (rem3 nx ny nz ng n nbr rank) single minus per_charge target ts st o = Some (st', Output prev (written o ++ [w])) /\
    forall p c, (p < n)%nat -> interior [nx; ny; nz] c ->
      w (cell [nx; ny; nz] ng 3 p c) = per_charge (current_result zero plus bounds3 [nx; ny; nz] ng nbr (share t) 3 p c).
Proof.
  intros nx ny nz ng n nbr rank single st o target ts t minus per_charge Hm Hu Hg Hx Hy Hz Sy Hs Hp F Ht En Hb. pose proof (geometry3 nx ny nz ng Hg Hx Hy Hz) as G.
  destruct (density_ok zero plus Hm (loc3 nx ny nz ng n nbr rank) (rem3 nx ny nz ng n nbr rank) single
    (pairs_fine _ _ _ _ n G nbr rank Sy _ (local_currents3_is nx ny nz ng)) (fun H => one_process _ _ n nbr rank _ (Hs H)) minus per_charge Hu target ts st o t Hp F Ht En Hb) as (st' & prev & w & E1 & E2).
  exists st', prev, w. split; auto. intros p c Hpn Hc. rewrite E2. f_equal.
  apply (E_result _ _ _ _ n G nbr rank Sy _ (local_currents3_is nx ny nz ng)); auto. apply interior_within; auto; lia.
Qed.

(** Nothing is written for a disabled species. *)
Theorem C46_disabled_2d : forall nx ny ng n nbr rank single st o target ts minus per_charge, monoid zero plus -> 0 < ng -> ng <= nx -> ng <= ny -> nbr_symmetric n 8 opp2 nbr ->
  (single = true -> forall p q, rank p = rank q) -> pending st = None -> turns_finish ts ->
  (forall t, nth_error ts target = Some t -> enabled t = false) ->
  exists st' o', density_step zero plus (loc2 nx ny ng n nbr rank) (rem2 nx ny ng n nbr rank) single minus per_charge target ts st o = Some (st', o') /\ written o' = written o.
Proof.
  intros nx ny ng n nbr rank single st o target ts minus per_charge Hm Hg Hx Hy Sy Hs Hp F Hd. pose proof (geometry2 nx ny ng Hg Hx Hy) as G.
  destruct (inv_reset zero plus (loc2 nx ny ng n nbr rank) (rem2 nx ny ng n nbr rank) st Hp) as [H0 Hc0].
  refine (loop_disabled zero plus Hm (loc2 nx ny ng n nbr rank) (rem2 nx ny ng n nbr rank) single
    (pairs_fine _ _ _ _ n G nbr rank Sy _ (local_currents2_is nx ny ng)) (fun H => one_process _ _ n nbr rank _ (Hs H)) minus per_charge target ts 0 _ o _ _ F H0 Hc0).
  intros _ t. rewrite Nat.sub_0_r. apply Hd.
Qed.
End Sync.
Print Assumptions C09_step_2d.
Print Assumptions C09_step_3d.
Print Assumptions C09_same_as_once_2d.
Print Assumptions C09_same_as_once_3d.
Print Assumptions C09_callback_sees_2d.
Print Assumptions C09_callback_sees_3d.
Print Assumptions C09_is_exchange_2d.
Print Assumptions C09_is_exchange_3d.
Print Assumptions C46_density_2d.
Print Assumptions C46_density_3d.
Print Assumptions C46_disabled_2d.

(** *** Two patches of 2 x 2 cells in a row on two processes; each species deposits 1 in the guard cell of
    patch 0 that lies on patch 1, and 10 inside patch 1. *)
Definition two_x : axis := mkAxis 2 Pml Pml.
Definition two_y : axis := mkAxis 1 Pml Pml.
Definition two_rank (p : nat) : nat := p.
Definition two_loc := loc2 2 2 1 2 (nbr2 two_x two_y) two_rank.
Definition two_rem := rem2 2 2 1 2 (nbr2 two_x two_y) two_rank.
Definition gift : addr -> Z := fun a => if addr_eqb a (cell [2; 2] 1 3 0 [2; 0]) then 1 else if addr_eqb a (cell [2; 2] 1 3 1 [0; 0]) then 10 else 0.
Definition clean : state := State (fun _ : addr => 0) true None.
Definition here_now (st : @state Z) : Z * Z := (cur st (cell [2; 2] 1 3 1 [0; 0]), cur st (cell [2; 2] 1 3 0 [2; 0])).
Example C09_example :
  here_now (before_fields 0 Z.add two_loc two_rem false clean [Deposits gift; Calls [Sync; Start; Wait]; Deposits gift; Calls [Start; Sync]]) = (22, 0) /\
  (forall cs, In (Calls cs) [Deposits gift; Calls [Sync; Start; Wait]; Deposits gift; Calls [Start; Sync]] -> finishes cs).
Proof.
  split; [vm_compute; reflexivity|]. intros cs [H|[H|[H|[H|[]]]]]; inversion H; unfold finishes; cbn; discriminate.
Qed.

(** A callback that only starts the exchange: what is deposited afterwards is never exchanged. *)
Definition starts_harmless : Prop := forall nx ny ng n nbr rank single (st : @state Z) es, monoid 0 Z.add -> 0 < ng -> ng <= nx -> ng <= ny -> nbr_symmetric n 8 opp2 nbr ->
  (single = true -> forall p q, rank p = rank q) -> pending st = None ->
  forall f p c, (f < 4)%nat -> (p < n)%nat -> within ng [nx; ny] c ->
    cur (before_fields 0 Z.add (loc2 nx ny ng n nbr rank) (rem2 nx ny ng n nbr rank) single st es) (cell [nx; ny] ng f p c) =
    current_result 0 Z.add bounds2 [nx; ny] ng nbr (deposited_sum 0 Z.add es) f p c.
Theorem C56_bare_start_refuted : ~ starts_harmless.
Proof.
  intro H. specialize (H 2 2 1 2%nat (nbr2 two_x two_y) two_rank false clean [Deposits gift; Calls [Start]; Deposits gift]).
  assert (X : cur (before_fields 0 Z.add two_loc two_rem false clean [Deposits gift; Calls [Start]; Deposits gift]) (cell [2; 2] 1 3 1 [0; 0]) =
    current_result 0 Z.add bounds2 [2; 2] 1 (nbr2 two_x two_y) (deposited_sum 0 Z.add [Deposits gift; Calls [Start]; Deposits gift]) 3 1 [0; 0]).
  { apply H; try lia; try discriminate; try reflexivity.
    - unfold monoid. repeat split; intros; lia.
    - apply (sym2 two_x two_y); try (cbn; lia). repeat constructor.
    - unfold within. repeat constructor; lia. }
  revert X. vm_compute. discriminate.
Qed.
Print Assumptions C56_bare_start_refuted.
(** 21 instead of 22 arrives in patch 1, one unit stays in the guard cell of patch 0 *)
Example C56_lost : here_now (before_fields 0 Z.add two_loc two_rem false clean [Deposits gift; Calls [Start]; Deposits gift]) = (21, 1).
Proof. vm_compute. reflexivity. Qed.

(** *** density of species 1 of 3, with other callbacks synchronising *)
Definition plain (en : bool) : turn := Turn en gift [] [] [].
Definition busy (en : bool) : turn := Turn en gift [Sync] [Start; Wait] [Sync].
Definition first_written (r : option (@state Z * output)) : option (list Z) :=
  option_map (fun so => map (fun w => w (cell [2; 2] 1 3 1 [0; 0])) (written (snd so))) r.
Example C46_example :
  first_written (density_step 0 Z.add two_loc two_rem false Z.sub (fun x => x) 1 [busy true; busy true; plain true] clean (Output None [])) = Some [11] /\
  first_written (density_step 0 Z.add two_loc two_rem false Z.sub (fun x => x) 0 [plain true; plain false] clean (Output None [])) = Some [11] /\
  first_written (density_step 0 Z.add two_loc two_rem false Z.sub (fun x => x) 2 [plain false; plain true; plain true] clean (Output None [])) = Some [11].
Proof. vm_compute. auto. Qed.

(** With the species before it disabled, the output raises an error ... *)
Definition density_for_every_enabled_set : Prop := forall nx ny ng n nbr rank single (st : @state Z) o target ts t, monoid 0 Z.add -> 0 < ng -> ng <= nx -> ng <= ny -> nbr_symmetric n 8 opp2 nbr ->
  (single = true -> forall p q, rank p = rank q) -> pending st = None -> turns_finish ts ->
  nth_error ts target = Some t -> enabled t = true ->
  exists st' prev w,
    density_step 0 Z.add (loc2 nx ny ng n nbr rank) (rem2 nx ny ng n nbr rank) single Z.sub (fun x => x) target ts st o = Some (st', Output prev (written o ++ [w])) /\
    forall p c, (p < n)%nat -> interior [nx; ny] c ->
      w (cell [nx; ny] ng 3 p c) = current_result 0 Z.add bounds2 [nx; ny] ng nbr (share t) 3 p c.
Theorem C57_previous_disabled_refuted : ~ density_for_every_enabled_set.
Proof.
  intro H. destruct (H 2 2 1 2%nat (nbr2 two_x two_y) two_rank false clean (Output None []) 1%nat [plain false; plain true] (plain true)) as (st' & prev & w & E & _);
    try lia; try discriminate; try reflexivity.
  - unfold monoid. repeat split; intros; lia.
  - apply (sym2 two_x two_y); try (cbn; lia). repeat constructor.
  - unfold turns_finish. repeat apply Forall_cons; try apply Forall_nil; unfold finishes; cbn; repeat split; discriminate.
Qed.
Print Assumptions C57_previous_disabled_refuted.
(** ... or, after a step in which the species before it was enabled and the species itself was not, silently
    uses the charge density of that earlier step: 0 is written instead of 11. *)
Example C57_stale :
  match density_step 0 Z.add two_loc two_rem false Z.sub (fun x => x) 1 [plain true; plain false] clean (Output None []) with
  | Some (st, o) => first_written (density_step 0 Z.add two_loc two_rem false Z.sub (fun x => x) 1 [plain false; plain true] (sync_currents 0 Z.add two_loc two_rem false st) o)
  | None => None
  end = Some [0].
Proof. vm_compute. reflexivity. Qed.
