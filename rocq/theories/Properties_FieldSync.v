(** Field exchange: guard cells (C07), currents (C08), message matching (C10), independence of the process layout (C11),
    the accumulation race with several threads (C52) and patches narrower than the guard width (C53).
    Values are any type with an addition; neighbour relations are arbitrary (symmetric where stated), rectangular grids are instances. *)
From Verif Require Import Base M_Layout S_Layout M_PartSync S_PartSync M_FieldSync S_FieldSync P_Layout P_PartSync3 P_Threads P_FieldGeo P_FieldPar P_FieldSync P_FieldSync2 P_FieldSync3 P_FieldSync4 P_FieldSync5.
Local Open Scope Z_scope.

Section Fields.
Context {V : Type} (zero : V) (plus : V -> V -> V).

(** ** C07: guard cells, inside one process; every schedule of the parallel loop *)
Theorem C07_guard_2d : forall nx ny ng n nbr nattrs sched (m m' : addr -> V), 0 < ng -> ng <= nx -> ng <= ny ->
  parallel zero plus (guard_tasks (extents [nx; ny] ng) (local_guard2 nx ny ng) nbr n nattrs) sched m = Some m' ->
  guards_exchanged bounds2 [nx; ny] ng n nbr nattrs m m'.
Proof.
  intros nx ny ng n nbr nattrs sched m m' Hg Hx Hy H. pose proof (geometry2 nx ny ng Hg Hx Hy) as G. apply (guard_done_canon _ _ _ _ _ G).
  exact (local_guard_canon _ _ _ _ n G nbr zero plus nattrs _ sched m m' (local_guard2_is nx ny ng) H).
Qed.
Theorem C07_guard_3d : forall nx ny nz ng n nbr nattrs sched (m m' : addr -> V), 0 < ng -> ng <= nx -> ng <= ny -> ng <= nz ->
  parallel zero plus (guard_tasks (extents [nx; ny; nz] ng) (local_guard3 nx ny nz ng) nbr n nattrs) sched m = Some m' ->
  guards_exchanged bounds3 [nx; ny; nz] ng n nbr nattrs m m'.
Proof.
  intros nx ny nz ng n nbr nattrs sched m m' Hg Hx Hy Hz H. pose proof (geometry3 nx ny nz ng Hg Hx Hy Hz) as G. apply (guard_done_canon _ _ _ _ _ G).
  exact (local_guard_canon _ _ _ _ n G nbr zero plus nattrs _ sched m m' (local_guard3_is nx ny nz ng) H).
Qed.
(** every schedule that gives each iteration enough turns finishes (any table, so 2D and 3D) *)
Theorem C07_completes : forall Ns tab nbr n nattrs sched (m : addr -> V),
  (forall t, (t < n * nattrs)%nat -> (length (nth t (guard_tasks Ns tab nbr n nattrs) []) <= count_occ Nat.eq_dec sched t)%nat) ->
  exists m', parallel zero plus (guard_tasks Ns tab nbr n nattrs) sched m = Some m'.
Proof.
  intros Ns tab nbr n nattrs sched m H. apply parallel_completes. intros t Ht. apply H. unfold guard_tasks, iterations in Ht. now rewrite !map_length, seq_length in Ht.
Qed.
(** on a rectangular grid: if the interior cells hold the values of one field of the whole grid, then after the exchange all cells do,
    except guard cells beyond an open end, which keep their value *)
Theorem C07_grid_2d : forall ax ay nx ny ng nattrs sched (m m' : addr -> V) (F : nat -> list Z -> V), paired [ax; ay] -> 1 <= ax_n ax -> 1 <= ax_n ay ->
  0 < ng -> ng <= nx -> ng <= ny ->
  parallel zero plus (guard_tasks (extents [nx; ny] ng) (local_guard2 nx ny ng) (nbr2 ax ay) (npatch2 ax ay) nattrs) sched m = Some m' ->
  forall f, (f < nattrs)%nat ->
  (forall p c g, (p < npatch2 ax ay)%nat -> interior [nx; ny] c -> place [ax; ay] [nx; ny] (position2 ax p) c = Some g -> m (cell [nx; ny] ng f p c) = F f g) ->
  forall p c, (p < npatch2 ax ay)%nat -> within ng [nx; ny] c ->
  m' (cell [nx; ny] ng f p c) = match place [ax; ay] [nx; ny] (position2 ax p) c with Some g => F f g | None => m (cell [nx; ny] ng f p c) end.
Proof.
  intros ax ay nx ny ng nattrs sched m m' F Hp Nx Ny Hg Hx Hy H f Hf HF p c Hpn Hc. destruct (C07_guard_2d _ _ _ _ _ _ _ _ _ Hg Hx Hy H) as [R _]. rewrite R by auto.
  apply (guard_global [nx; ny] ng bounds2 opp2 (npatch2 ax ay) (geometry2 nx ny ng Hg Hx Hy) (nbr2 ax ay) [ax; ay] (position2 ax)); auto.
  - intros; now apply hgrid2.
  - apply all2.
  - intros p0 b q Hp0 Hb. apply (nbr2_spec ax ay Nx Ny p0 b q Hp0 Hb).
  - apply (honto2 ax ay Nx Ny).
Qed.
Theorem C07_grid_3d : forall ax ay az nx ny nz ng nattrs sched (m m' : addr -> V) (F : nat -> list Z -> V), paired [ax; ay; az] -> 1 <= ax_n ax -> 1 <= ax_n ay -> 1 <= ax_n az ->
  0 < ng -> ng <= nx -> ng <= ny -> ng <= nz ->
  parallel zero plus (guard_tasks (extents [nx; ny; nz] ng) (local_guard3 nx ny nz ng) (nbr3 ax ay az) (npatch3 ax ay az) nattrs) sched m = Some m' ->
  forall f, (f < nattrs)%nat ->
  (forall p c g, (p < npatch3 ax ay az)%nat -> interior [nx; ny; nz] c -> place [ax; ay; az] [nx; ny; nz] (position3 ax ay p) c = Some g -> m (cell [nx; ny; nz] ng f p c) = F f g) ->
  forall p c, (p < npatch3 ax ay az)%nat -> within ng [nx; ny; nz] c ->
  m' (cell [nx; ny; nz] ng f p c) = match place [ax; ay; az] [nx; ny; nz] (position3 ax ay p) c with Some g => F f g | None => m (cell [nx; ny; nz] ng f p c) end.
Proof.
  intros ax ay az nx ny nz ng nattrs sched m m' F Hp Nx Ny Nz Hg Hx Hy Hz H f Hf HF p c Hpn Hc. destruct (C07_guard_3d _ _ _ _ _ _ _ _ _ _ Hg Hx Hy Hz H) as [R _]. rewrite R by auto.
  apply (guard_global [nx; ny; nz] ng bounds3 opp3 (npatch3 ax ay az) (geometry3 nx ny nz ng Hg Hx Hy Hz) (nbr3 ax ay az) [ax; ay; az] (position3 ax ay)); auto.
  - intros; now apply hgrid3.
  - apply all3.
  - intros p0 b q Hp0 Hb. apply (nbr3_spec ax ay az Nx Ny Nz p0 b q Hp0 Hb).
  - apply (honto3 ax ay az Nx Ny Nz).
Qed.

(** ** C08: currents, inside one process *)
Theorem C08_current_2d : forall nx ny ng n nbr sched (m m' : addr -> V), monoid zero plus -> 0 < ng -> ng <= nx -> ng <= ny -> nbr_symmetric n 8 opp2 nbr ->
  parallel zero plus (current_tasks (extents [nx; ny] ng) (local_currents2 nx ny ng) nbr n) sched m = Some m' ->
  currents_exchanged bounds2 [nx; ny] ng n nbr zero plus m m' /\
  (forall sched' m'', parallel zero plus (current_tasks (extents [nx; ny] ng) (local_currents2 nx ny ng) nbr n) sched' m' = Some m'' -> forall a, m'' a = m' a).
Proof.
  intros nx ny ng n nbr sched m m' Hm Hg Hx Hy Sy H. pose proof (geometry2 nx ny ng Hg Hx Hy) as G.
  pose proof (local_current_canon _ _ _ _ n G zero plus Hm nbr _ sched m m' Sy (local_currents2_is nx ny ng) H) as E. split.
  - apply (current_done_canon _ _ _ _ _ G); auto.
  - intros sched' m'' H' a. rewrite (local_current_canon _ _ _ _ n G zero plus Hm nbr _ sched' m' m'' Sy (local_currents2_is nx ny ng) H' a), (E a).
    erewrite accumulated_ext by exact E. apply accumulated_idem; auto. apply (ccanon_ok _ _ _ _ _ G); auto.
Qed.
Theorem C08_current_3d : forall nx ny nz ng n nbr sched (m m' : addr -> V), monoid zero plus -> 0 < ng -> ng <= nx -> ng <= ny -> ng <= nz -> nbr_symmetric n 26 opp3 nbr ->
  parallel zero plus (current_tasks (extents [nx; ny; nz] ng) (local_currents3 nx ny nz ng) nbr n) sched m = Some m' ->
  currents_exchanged bounds3 [nx; ny; nz] ng n nbr zero plus m m' /\
  (forall sched' m'', parallel zero plus (current_tasks (extents [nx; ny; nz] ng) (local_currents3 nx ny nz ng) nbr n) sched' m' = Some m'' -> forall a, m'' a = m' a).
Proof.
  intros nx ny nz ng n nbr sched m m' Hm Hg Hx Hy Hz Sy H. pose proof (geometry3 nx ny nz ng Hg Hx Hy Hz) as G.
  pose proof (local_current_canon _ _ _ _ n G zero plus Hm nbr _ sched m m' Sy (local_currents3_is nx ny nz ng) H) as E. split.
  - apply (current_done_canon _ _ _ _ _ G); auto.
  - intros sched' m'' H' a. rewrite (local_current_canon _ _ _ _ n G zero plus Hm nbr _ sched' m' m'' Sy (local_currents3_is nx ny nz ng) H' a), (E a).
    erewrite accumulated_ext by exact E. apply accumulated_idem; auto. apply (ccanon_ok _ _ _ _ _ G); auto.
Qed.
Theorem C08_completes : forall Ns tab nbr n sched (m : addr -> V),
  (forall t, (t < n * 4)%nat -> (length (nth t (current_tasks Ns tab nbr n) []) <= count_occ Nat.eq_dec sched t)%nat) ->
  exists m', parallel zero plus (current_tasks Ns tab nbr n) sched m = Some m'.
Proof.
  intros Ns tab nbr n sched m H. apply parallel_completes. intros t Ht. apply H. unfold current_tasks, iterations in Ht. now rewrite !map_length, seq_length in Ht.
Qed.
(** on a rectangular grid: afterwards an interior cell holds the sum of everything deposited at its place by any patch *)
Theorem C08_grid_2d : forall ax ay nx ny ng sched (m m' : addr -> V), monoid zero plus -> paired [ax; ay] -> 1 <= ax_n ax -> 1 <= ax_n ay ->
  0 < ng -> ng <= nx -> ng <= ny ->
  parallel zero plus (current_tasks (extents [nx; ny] ng) (local_currents2 nx ny ng) (nbr2 ax ay) (npatch2 ax ay)) sched m = Some m' ->
  forall f p c g, (f < 4)%nat -> (p < npatch2 ax ay)%nat -> interior [nx; ny] c -> place [ax; ay] [nx; ny] (position2 ax p) c = Some g ->
  m' (cell [nx; ny] ng f p c) = total zero plus (map (fun qc => m (cell [nx; ny] ng f (fst qc) (snd qc))) (copies_of [ax; ay] [nx; ny] ng (npatch2 ax ay) (position2 ax) g)).
Proof.
  intros ax ay nx ny ng sched m m' Hm Hp Nx Ny Hg Hx Hy H f p c g Hf Hpn Hc Eg. destruct (C08_current_2d _ _ _ _ _ _ _ _ Hm Hg Hx Hy (sym2 ax ay Hp Nx Ny) H) as [[R _] _].
  rewrite R by (auto; apply interior_within; auto; lia).
  apply (current_global [nx; ny] ng bounds2 opp2 (npatch2 ax ay) (geometry2 nx ny ng Hg Hx Hy) (nbr2 ax ay) (sym2 ax ay Hp Nx Ny) [ax; ay] (position2 ax)); auto.
  - intros; now apply hgrid2.
  - apply all2.
  - intros p0 b q Hp0 Hb. apply (nbr2_spec ax ay Nx Ny p0 b q Hp0 Hb).
  - apply (honto2 ax ay Nx Ny).
  - apply (hpos2 ax ay Nx Ny).
Qed.
Theorem C08_grid_3d : forall ax ay az nx ny nz ng sched (m m' : addr -> V), monoid zero plus -> paired [ax; ay; az] -> 1 <= ax_n ax -> 1 <= ax_n ay -> 1 <= ax_n az ->
  0 < ng -> ng <= nx -> ng <= ny -> ng <= nz ->
  parallel zero plus (current_tasks (extents [nx; ny; nz] ng) (local_currents3 nx ny nz ng) (nbr3 ax ay az) (npatch3 ax ay az)) sched m = Some m' ->
  forall f p c g, (f < 4)%nat -> (p < npatch3 ax ay az)%nat -> interior [nx; ny; nz] c -> place [ax; ay; az] [nx; ny; nz] (position3 ax ay p) c = Some g ->
  m' (cell [nx; ny; nz] ng f p c) = total zero plus (map (fun qc => m (cell [nx; ny; nz] ng f (fst qc) (snd qc))) (copies_of [ax; ay; az] [nx; ny; nz] ng (npatch3 ax ay az) (position3 ax ay) g)).
Proof.
  intros ax ay az nx ny nz ng sched m m' Hm Hp Nx Ny Nz Hg Hx Hy Hz H f p c g Hf Hpn Hc Eg. destruct (C08_current_3d _ _ _ _ _ _ _ _ _ Hm Hg Hx Hy Hz (sym3 ax ay az Hp Nx Ny Nz) H) as [[R _] _].
  rewrite R by (auto; apply interior_within; auto; lia).
  apply (current_global [nx; ny; nz] ng bounds3 opp3 (npatch3 ax ay az) (geometry3 nx ny nz ng Hg Hx Hy Hz) (nbr3 ax ay az) (sym3 ax ay az Hp Nx Ny Nz) [ax; ay; az] (position3 ax ay)); auto.
  - intros; now apply hgrid3.
  - apply all3.
  - intros p0 b q Hp0 Hb. apply (nbr3_spec ax ay az Nx Ny Nz p0 b q Hp0 Hb).
  - apply (honto3 ax ay az Nx Ny Nz).
  - apply (hpos3 ax ay az Nx Ny Nz).
Qed.

(** ** C10: messages. Each posted receive has exactly one send with its envelope, the intended one, and vice versa *)
Definition matched (n nb nitems : nat) (opp : nat -> nat) (nbr : nat -> nat -> option nat) (rank : nat -> nat) (tag : Z -> Z -> Z -> Z) : Prop :=
  (forall r, In r (recvs n nb nitems opp nbr rank tag) -> exists s, In s (sends n nb nitems nbr rank tag) /\ intended opp nbr rank r s /\
     filter (same_envelope r) (sends n nb nitems nbr rank tag) = [s]) /\
  (forall s, In s (sends n nb nitems nbr rank tag) -> exists r, In r (recvs n nb nitems opp nbr rank tag) /\ intended opp nbr rank r s /\
     filter (fun r => same_envelope r s) (recvs n nb nitems opp nbr rank tag) = [r]).
Lemma matched_if n nb nitems opp nbr rank tag : nbr_symmetric n nb opp nbr -> tags_differ nb nitems tag -> matched n nb nitems opp nbr rank tag.
Proof. intros Sy T. split; [intros; now apply every_receive|intros; now apply every_send]. Qed.
Theorem C10_current_messages : forall n nb opp nbr rank, nbr_symmetric n nb opp nbr -> matched n nb 1 opp nbr rank (tag_currents (Z.of_nat nb)).
Proof. intros n nb opp nbr rank Sy. exact (matched_if n nb 1 opp nbr rank _ Sy (tags_currents nb)). Qed.
Theorem C10_guard_messages : forall n nb nattrs opp nbr rank, nbr_symmetric n nb opp nbr -> matched n nb nattrs opp nbr rank (tag_guard (Z.of_nat nb) (Z.of_nat nattrs)).
Proof. intros n nb nattrs opp nbr rank Sy. exact (matched_if n nb nattrs opp nbr rank _ Sy (tags_guard nb nattrs)). Qed.
Theorem C10_particle_messages : forall n nb nspec opp nbr rank, nbr_symmetric n nb opp nbr -> matched n nb nspec opp nbr rank (tag_particles (Z.of_nat nb) (Z.of_nat nspec)).
Proof. intros n nb nspec opp nbr rank Sy. exact (matched_if n nb nspec opp nbr rank _ Sy (tags_particles nb nspec)). Qed.

(** ** C11: any distribution of the patches over processes, any interleaving of local threads and messages *)
Theorem C11_guard_2d : forall nx ny ng n nbr rank nattrs sched (m m' : addr -> V), 0 < ng -> ng <= nx -> ng <= ny -> nbr_symmetric n 8 opp2 nbr ->
  guard_exchange [nx; ny] ng n 8 opp2 nbr rank zero plus nattrs (local_guard2 nx ny ng) (mpi_types2 (nx + 2 * ng) (ny + 2 * ng) ng) sched m = Some m' ->
  guards_exchanged bounds2 [nx; ny] ng n nbr nattrs m m'.
Proof.
  intros nx ny ng n nbr rank nattrs sched m m' Hg Hx Hy Sy H. pose proof (geometry2 nx ny ng Hg Hx Hy) as G. apply (guard_done_canon _ _ _ _ _ G).
  exact (guard_exchange_canon _ _ _ _ n G nbr rank Sy zero plus nattrs _ _ sched m m' (local_guard2_is nx ny ng) (mpi_types2_is (nx + 2 * ng) (ny + 2 * ng) ng) H).
Qed.
Theorem C11_guard_3d : forall nx ny nz ng n nbr rank nattrs sched (m m' : addr -> V), 0 < ng -> ng <= nx -> ng <= ny -> ng <= nz -> nbr_symmetric n 26 opp3 nbr ->
  guard_exchange [nx; ny; nz] ng n 26 opp3 nbr rank zero plus nattrs (local_guard3 nx ny nz ng) (mpi_types3 (nx + 2 * ng) (ny + 2 * ng) (nz + 2 * ng) ng) sched m = Some m' ->
  guards_exchanged bounds3 [nx; ny; nz] ng n nbr nattrs m m'.
Proof.
  intros nx ny nz ng n nbr rank nattrs sched m m' Hg Hx Hy Hz Sy H. pose proof (geometry3 nx ny nz ng Hg Hx Hy Hz) as G. apply (guard_done_canon _ _ _ _ _ G).
  exact (guard_exchange_canon _ _ _ _ n G nbr rank Sy zero plus nattrs _ _ sched m m' (local_guard3_is nx ny nz ng) (mpi_types3_is (nx + 2 * ng) (ny + 2 * ng) (nz + 2 * ng) ng) H).
Qed.
Theorem C11_current_2d : forall nx ny ng n nbr rank sched1 sched2 (m m' : addr -> V), monoid zero plus -> 0 < ng -> ng <= nx -> ng <= ny -> nbr_symmetric n 8 opp2 nbr ->
  current_exchange [nx; ny] ng n 8 opp2 nbr rank zero plus (local_currents2 nx ny ng) (mpi_currents2 nx ny ng) sched1 sched2 m = Some m' ->
  currents_exchanged bounds2 [nx; ny] ng n nbr zero plus m m'.
Proof.
  intros nx ny ng n nbr rank s1 s2 m m' Hm Hg Hx Hy Sy H. pose proof (geometry2 nx ny ng Hg Hx Hy) as G. apply (current_done_canon _ _ _ _ _ G); auto.
  exact (current_exchange_canon _ _ _ _ n G nbr rank Sy zero plus Hm _ _ s1 s2 m m' (local_currents2_is nx ny ng) (mpi_currents2_is nx ny ng) H).
Qed.
Theorem C11_current_3d : forall nx ny nz ng n nbr rank sched1 sched2 (m m' : addr -> V), monoid zero plus -> 0 < ng -> ng <= nx -> ng <= ny -> ng <= nz -> nbr_symmetric n 26 opp3 nbr ->
  current_exchange [nx; ny; nz] ng n 26 opp3 nbr rank zero plus (local_currents3 nx ny nz ng) (mpi_currents3 nx ny nz ng) sched1 sched2 m = Some m' ->
  currents_exchanged bounds3 [nx; ny; nz] ng n nbr zero plus m m'.
Proof.
  intros nx ny nz ng n nbr rank s1 s2 m m' Hm Hg Hx Hy Hz Sy H. pose proof (geometry3 nx ny nz ng Hg Hx Hy Hz) as G. apply (current_done_canon _ _ _ _ _ G); auto.
  exact (current_exchange_canon _ _ _ _ n G nbr rank Sy zero plus Hm _ _ s1 s2 m m' (local_currents3_is nx ny nz ng) (mpi_currents3_is nx ny nz ng) H).
Qed.
(** no receive waits forever: all transfers are matched, and enough turns for everything finish the exchange *)
Theorem C11_guard_completes_2d : forall nx ny ng n nbr rank nattrs sched (m : addr -> V), 0 < ng -> ng <= nx -> ng <= ny -> nbr_symmetric n 8 opp2 nbr ->
  let types := mpi_types2 (nx + 2 * ng) (ny + 2 * ng) ng in
  exists ts, guard_transfers [nx; ny] ng n 8 opp2 nbr rank nattrs types = Some ts /\
    let threads := guard_tasks (extents [nx; ny] ng) (local_guard2 nx ny ng) (here nbr rank) n nattrs ++ ts in
    ((forall t, (t < length threads)%nat -> (length (nth t threads []) <= count_occ Nat.eq_dec sched t)%nat) ->
     exists m', guard_exchange [nx; ny] ng n 8 opp2 nbr rank zero plus nattrs (local_guard2 nx ny ng) types sched m = Some m').
Proof.
  intros nx ny ng n nbr rank nattrs sched m Hg Hx Hy Sy types. pose proof (geometry2 nx ny ng Hg Hx Hy) as G.
  exact (guard_exchange_completes _ _ _ _ n G nbr Sy zero plus rank nattrs _ types sched m (local_guard2_is nx ny ng) (mpi_types2_is (nx + 2 * ng) (ny + 2 * ng) ng)).
Qed.
Theorem C11_guard_completes_3d : forall nx ny nz ng n nbr rank nattrs sched (m : addr -> V), 0 < ng -> ng <= nx -> ng <= ny -> ng <= nz -> nbr_symmetric n 26 opp3 nbr ->
  let types := mpi_types3 (nx + 2 * ng) (ny + 2 * ng) (nz + 2 * ng) ng in
  exists ts, guard_transfers [nx; ny; nz] ng n 26 opp3 nbr rank nattrs types = Some ts /\
    let threads := guard_tasks (extents [nx; ny; nz] ng) (local_guard3 nx ny nz ng) (here nbr rank) n nattrs ++ ts in
    ((forall t, (t < length threads)%nat -> (length (nth t threads []) <= count_occ Nat.eq_dec sched t)%nat) ->
     exists m', guard_exchange [nx; ny; nz] ng n 26 opp3 nbr rank zero plus nattrs (local_guard3 nx ny nz ng) types sched m = Some m').
Proof.
  intros nx ny nz ng n nbr rank nattrs sched m Hg Hx Hy Hz Sy types. pose proof (geometry3 nx ny nz ng Hg Hx Hy Hz) as G.
  exact (guard_exchange_completes _ _ _ _ n G nbr Sy zero plus rank nattrs _ types sched m (local_guard3_is nx ny nz ng) (mpi_types3_is (nx + 2 * ng) (ny + 2 * ng) (nz + 2 * ng) ng)).
Qed.
Theorem C11_current_completes_2d : forall nx ny ng n nbr rank sched1 sched2 (m : addr -> V), 0 < ng -> ng <= nx -> ng <= ny -> nbr_symmetric n 8 opp2 nbr ->
  exists ts, current_transfers [nx; ny] ng n 8 opp2 nbr rank (mpi_currents2 nx ny ng) = Some ts /\
    let tasks := current_tasks (extents [nx; ny] ng) (local_currents2 nx ny ng) (here nbr rank) n in
    ((forall t, (t < length tasks)%nat -> (length (nth t tasks []) <= count_occ Nat.eq_dec sched1 t)%nat) ->
     (forall t, (t < length ts)%nat -> (length (nth t ts []) <= count_occ Nat.eq_dec sched2 t)%nat) ->
     exists m', current_exchange [nx; ny] ng n 8 opp2 nbr rank zero plus (local_currents2 nx ny ng) (mpi_currents2 nx ny ng) sched1 sched2 m = Some m').
Proof.
  intros nx ny ng n nbr rank s1 s2 m Hg Hx Hy Sy. pose proof (geometry2 nx ny ng Hg Hx Hy) as G.
  exact (current_exchange_completes _ _ _ _ n G nbr Sy zero plus rank _ _ s1 s2 m (mpi_currents2_is nx ny ng)).
Qed.
Theorem C11_current_completes_3d : forall nx ny nz ng n nbr rank sched1 sched2 (m : addr -> V), 0 < ng -> ng <= nx -> ng <= ny -> ng <= nz -> nbr_symmetric n 26 opp3 nbr ->
  exists ts, current_transfers [nx; ny; nz] ng n 26 opp3 nbr rank (mpi_currents3 nx ny nz ng) = Some ts /\
    let tasks := current_tasks (extents [nx; ny; nz] ng) (local_currents3 nx ny nz ng) (here nbr rank) n in
    ((forall t, (t < length tasks)%nat -> (length (nth t tasks []) <= count_occ Nat.eq_dec sched1 t)%nat) ->
     (forall t, (t < length ts)%nat -> (length (nth t ts []) <= count_occ Nat.eq_dec sched2 t)%nat) ->
     exists m', current_exchange [nx; ny; nz] ng n 26 opp3 nbr rank zero plus (local_currents3 nx ny nz ng) (mpi_currents3 nx ny nz ng) sched1 sched2 m = Some m').
Proof.
  intros nx ny nz ng n nbr rank s1 s2 m Hg Hx Hy Hz Sy. pose proof (geometry3 nx ny nz ng Hg Hx Hy Hz) as G.
  exact (current_exchange_completes _ _ _ _ n G nbr Sy zero plus rank _ _ s1 s2 m (mpi_currents3_is nx ny nz ng)).
Qed.
End Fields.

(** *** concrete cases: 2 x 2 patches of 2 x 2 cells, one guard cell, periodic in x and open in y *)
Definition demo_x : axis := mkAxis 2 Periodic Periodic.
Definition demo_y : axis := mkAxis 2 Pml Pml.
Definition demo_nbr := nbr2 demo_x demo_y.
Example demo_symmetric : npatch2 demo_x demo_y = 4%nat /\ nbr_symmetric 4 8 opp2 demo_nbr /\ monoid 0 Z.add.
Proof.
  split; [reflexivity|]. split; [|unfold monoid; repeat split; intros; lia]. apply (sym2 demo_x demo_y); try (cbn; lia). repeat constructor.
Qed.
(** a grid field: value 10 gx + gy in the interior, 99 in the guard cells *)
Definition demo_mem : addr -> Z := fun a => match a with
  | Fld _ p o => let i := o / 4 in let j := o mod 4 in if (i <? 2) && (j <? 2) then 10 * ((Z.of_nat p mod 2) * 2 + i) + ((Z.of_nat p / 2) * 2 + j) else 99 | _ => 0 end.
Definition round_robin (k turns : nat) : list nat := concat (repeat (seq 0 k) turns).
Definition show (m : option (addr -> Z)) (f p : nat) : option (list (list Z)) :=
  option_map (fun m => map (fun i => map (fun j => m (cell [2; 2] 1 f p [i; j])) [-1; 0; 1; 2]) [-1; 0; 1; 2]) m.
Definition demo_guard := parallel 0 Z.add (guard_tasks (extents [2; 2] 1) (local_guard2 2 2 1) demo_nbr 4 1) (round_robin 4 60) demo_mem.
(** rows x = -1 .. 2, columns y = -1 .. 2 of patch 0: the lower y guard cells are beyond the open end *)
Example C07_example : show demo_guard 0 0 = Some [[99; 30; 31; 32]; [99; 0; 1; 2]; [99; 10; 11; 12]; [99; 20; 21; 22]].
Proof. vm_compute. reflexivity. Qed.
Definition demo_ones : addr -> Z := fun a => match a with Fld _ _ _ => 1 | _ => 0 end.
Definition demo_current := parallel 0 Z.add (current_tasks (extents [2; 2] 1) (local_currents2 2 2 1) demo_nbr 4) (round_robin 16 100) demo_ones.
Example C08_example : show demo_current 3 3 = Some [[0; 0; 0; 1]; [0; 4; 2; 1]; [0; 4; 2; 1]; [0; 0; 0; 1]] /\
  option_map (domain_total 0 Z.add [2; 2] 1 4 3) demo_current = Some 64.
Proof. vm_compute. auto. Qed.
Example C08_copies : copies_of [demo_x; demo_y] [2; 2] 1 4 (position2 demo_x) [2; 2] =
  [(0%nat, [2; 2]); (1%nat, [0; 2]); (2%nat, [2; 0]); (3%nat, [0; 0])].
Proof. vm_compute. reflexivity. Qed.
(** the same on two processes *)
Definition demo_rank (p : nat) : nat := (p mod 2)%nat.
Example C10_example : length (recvs 4 8 1 opp2 demo_nbr demo_rank (tag_currents 8)) = 16%nat /\ length (sends 4 8 1 demo_nbr demo_rank (tag_currents 8)) = 16%nat.
Proof. vm_compute. auto. Qed.
Example C11_guard_example :
  show (guard_exchange [2; 2] 1 4 8 opp2 demo_nbr demo_rank 0 Z.add 1 (local_guard2 2 2 1) (mpi_types2 4 4 1) (round_robin 20 60) demo_mem) 0 0 = show demo_guard 0 0.
Proof. vm_compute. reflexivity. Qed.
Example C11_current_example :
  show (current_exchange [2; 2] 1 4 8 opp2 demo_nbr demo_rank 0 Z.add (local_currents2 2 2 1) (mpi_currents2 2 2 1) (round_robin 16 100) (round_robin 16 100) demo_ones) 3 3 = show demo_current 3 3.
Proof. vm_compute. reflexivity. Qed.

(** ** C52: several worker threads add received currents of one patch. The sides of a patch overlap in corner cells and += is not atomic:
    process 3 of 4 (one patch each) received ones on all sides; sides 0-3 on one thread and 4-7 on another. One schedule adds all three
    contributions to cell (0, 0), another loses one *)
Definition race_rank (p : nat) : nat := p.
Definition race_mem : addr -> Z := fun a => match a with RBuf _ _ _ => 1 | _ => 0 end.
Definition race_threads := unpack_threads [2; 2] 1 demo_nbr race_rank (mpi_currents2 2 2 1)
  [[(3%nat, 0%nat); (3%nat, 1%nat); (3%nat, 2%nat); (3%nat, 3%nat)]; [(3%nat, 4%nat); (3%nat, 5%nat); (3%nat, 6%nat); (3%nat, 7%nat)]].
Definition race_good : list nat := (repeat 0 200 ++ repeat 1 200)%nat.
Definition race_bad : list nat := ([0; 1; 1; 1] ++ repeat 0 200 ++ repeat 1 200)%nat.
Theorem C52_threads_lose_current_refuted :
  option_map (fun m => m (cell [2; 2] 1 0 3 [0; 0])) (parallel 0 Z.add race_threads race_good race_mem) = Some 3 /\
  option_map (fun m => m (cell [2; 2] 1 0 3 [0; 0])) (parallel 0 Z.add race_threads race_bad race_mem) = Some 2.
Proof. vm_compute. auto. Qed.

(** ** C53: patches narrower than the guard width are accepted; the copied cells are then themselves guard cells of the neighbour, so the
    result depends on the order of the threads. Three patches of 1 x 2 cells in a row (open ends), two guard cells *)
Definition narrow_x : axis := mkAxis 3 Pml Pml.
Definition narrow_y : axis := mkAxis 1 Pml Pml.
Definition narrow_mem : addr -> Z := fun a => match a with Fld _ p _ => Z.of_nat p | _ => 0 end.
Definition narrow (sched : list nat) := option_map (fun m => m (cell [1; 2] 2 0 2 [-2; 0]))
  (parallel 0 Z.add (guard_tasks (extents [1; 2] 2) (local_guard2 1 2 2) (nbr2 narrow_x narrow_y) 3 1) sched narrow_mem).
Theorem C53_narrow_patches_refuted : exists s1 s2 v1 v2, narrow s1 = Some v1 /\ narrow s2 = Some v2 /\ v1 <> v2.
Proof. exists (repeat 0 100 ++ repeat 1 100 ++ repeat 2 100)%nat, (repeat 2 100 ++ repeat 1 100 ++ repeat 0 100)%nat. vm_compute. eexists _, _. split; [reflexivity|]. split; [reflexivity|]. discriminate. Qed.

Print Assumptions C07_grid_3d.
Print Assumptions C08_current_2d.
Print Assumptions C08_grid_3d.
Print Assumptions C10_particle_messages.
Print Assumptions C11_guard_3d.
Print Assumptions C11_current_3d.
Print Assumptions C11_current_completes_2d.
Print Assumptions C52_threads_lose_current_refuted.
Print Assumptions C53_narrow_patches_refuted.
