(** Particle exchange: conservation (C04), room (C05), positions (C06), independence of the process layout (C50), memory safety (C51),
    absorption at open sides (C43). *)
From Verif Require Import Base M_Layout S_Layout M_PartSync S_PartSync P_PartSync P_PartSync2 P_PartSync3.
From Coq Require Import QArith Permutation.
Local Open Scope list_scope.
Local Open Scope nat_scope.

Section Generic.
(** any row type, any geometry: the 2D and 3D code are instances (below) *)
Variables R Geo : Type.
Variable nb : nat.
Variable opp : nat -> nat.
Variable classify : Geo -> R -> option nat.
Variable shift : Geo -> R -> R.
Variable outside : Geo -> R -> bool.
Variable clear : R -> R.
Variable clear_dead : bool.
Variable geo : nat -> Geo.
Variable nbr : nat -> nat -> option nat.
Variable fresh : nat -> nat -> R.
Local Notation exchange := (exchange R Geo nb opp classify shift outside clear clear_dead geo nbr fresh).
Local Notation index_events st := (all_writes R Geo nb opp classify geo nbr (extend_all R nb opp nbr fresh (outgoing R Geo nb classify geo st) st)).
Local Notation arrivals := (arrivals nb opp classify geo nbr).
Local Notation inside q := (fun r => negb (outside (geo q) r)).

(** result of the exchange for every order of the index writes and every interleaving of the copying threads *)
Theorem C04_exchange : forall st es sched st', sides_ok nb classify outside -> nbr_symmetric (length st) nb opp nbr ->
  Permutation es (index_events st) -> exchange st es sched = Some st' ->
  length st' = length st /\ forall q, q < length st ->
   Permutation (alive (nth q st' [])) (stayed classify (geo q) (nth q st []) ++ filter (inside q) (map (shift (geo q)) (arrivals st q))) /\
   (forall i s, nth_error (nth q st []) i = Some s -> dead R s = false -> classify (geo q) (row R s) = None -> nth_error (nth q st' []) i = Some s).
Proof. intros st es sched st' Sd Sy P E. exact (exchange_result nb opp classify shift outside clear clear_dead geo nbr fresh Sd st Sy es sched st' P E). Qed.
(** over all patches, the arrivals are exactly the particles that left towards a neighbour, each once *)
Theorem C04_arrive_once : forall st, sides_ok nb classify outside -> nbr_symmetric (length st) nb opp nbr ->
  Permutation (flat_map (arrivals st) (seq 0 (length st))) (flat_map (leavers classify geo nbr st) (seq 0 (length st))).
Proof. intros st Sd Sy. exact (arrivals_leavers nb opp classify outside geo nbr Sd st Sy). Qed.
(** a particle either stayed, left towards a neighbour, or left through a side without neighbour *)
Theorem C04_stayed_left_or_lost : forall st p,
  Permutation (alive (nth p st [])) (stayed classify (geo p) (nth p st []) ++ leavers classify geo nbr st p ++
    filter (fun r => match classify (geo p) r with Some b => match nbr p b with Some _ => false | None => true end | None => false end) (alive (nth p st []))).
Proof. exact (patch_split classify geo nbr). Qed.
(** the exchange always completes: enough turns for every thread, in any order, and no access is invalid on the way *)
Theorem C04_completes : forall st es sched, sides_ok nb classify outside -> nbr_symmetric (length st) nb opp nbr ->
  Permutation es (index_events st) ->
  (forall q, q < length st -> length (arrivals st q) +
     length (nth q (extend_all R nb opp nbr fresh (outgoing R Geo nb classify geo st) st) []) < count_occ Nat.eq_dec sched q) ->
  exists st', exchange st es sched = Some st'.
Proof. intros st es sched Sd Sy P S. exact (exchange_some nb opp classify shift outside clear clear_dead geo nbr fresh Sd st Sy es sched P S). Qed.

(** ** C05 *)
Theorem C05_room : forall st q, sides_ok nb classify outside -> nbr_symmetric (length st) nb opp nbr -> q < length st ->
  length (arrivals st q) <= countb (dead R) (nth q (extend_all R nb opp nbr fresh (outgoing R Geo nb classify geo st) st) []).
Proof. intros st q Sd Sy Hq. exact (room nb opp classify geo nbr fresh st Sy q Hq). Qed.
Theorem C05_room_between_processes : forall remote st q, nbr_symmetric (length st) nb opp nbr -> remote_ok (length st) nb opp nbr remote -> q < length st ->
  length (S_PartSync.arrivals nb opp classify geo (over_mpi remote nbr) st q) <=
  countb (dead R) (nth q (mpi_extend_all R nb opp nbr fresh remote (mpi_outgoing R Geo nb classify geo remote st) st) []).
Proof. intros remote st q Sy Rm Hq. exact (mroom nb opp classify geo nbr fresh remote st Sy Rm q Hq). Qed.

(** ** C06, first half: whatever happened before, no particle is outside its patch afterwards *)
Theorem C06_nothing_outside : forall st es sched st' q r, sides_ok nb classify outside -> nbr_symmetric (length st) nb opp nbr ->
  Permutation es (index_events st) -> exchange st es sched = Some st' -> q < length st ->
  In r (alive (nth q st' [])) -> outside (geo q) r = false.
Proof.
  intros st es sched st' q r Sd Sy P E Hq H. destruct (C04_exchange st es sched st' Sd Sy P E) as [_ X]. destruct (X q Hq) as [X1 _].
  apply (Permutation_in r X1) in H. apply in_app_or in H. destruct H as [H|H]; apply filter_In in H; destruct H as [_ H].
  - destruct Sd as [_ SO]. apply SO. destruct (classify (geo q) r); congruence.
  - now apply negb_true_iff.
Qed.

(** ** C50: messages between processes, then the exchange inside each process *)
Variable remote : nat -> nat -> bool.
Local Notation mpi_exchange := (mpi_exchange R Geo nb opp classify shift geo nbr fresh remote).
(** the message exchange alone never fails, hands every particle that left towards another process over once, and touches nothing else *)
Theorem C50_messages : forall st, nbr_symmetric (length st) nb opp nbr -> remote_ok (length st) nb opp nbr remote ->
  exists st', mpi_exchange st = Some st' /\ length st' = length st /\ forall q, q < length st ->
   Permutation (alive (nth q st' []))
     (filter (fun r => match classify (geo q) r with Some b => negb (remote q b) | None => true end) (alive (nth q st [])) ++
      map (shift (geo q)) (S_PartSync.arrivals nb opp classify geo (over_mpi remote nbr) st q)) /\
   (forall i s, nth_error (nth q st []) i = Some s -> dead R s = false ->
      match classify (geo q) (row R s) with Some b => negb (remote q b) | None => true end = true -> nth_error (nth q st' []) i = Some s).
Proof. intros st Sy Rm. exact (mpi_result nb opp classify shift clear geo nbr fresh remote st Sy Rm). Qed.
(** both together give the result of C04, which does not mention [remote], when arriving particles are either inside their new patch or
    beyond a side without neighbour *)
Theorem C50_distribution : forall st es sched st' st'', sides_ok nb classify outside ->
  nbr_symmetric (length st) nb opp nbr -> remote_ok (length st) nb opp nbr remote ->
  (forall q b p r c, q < length st -> b < nb -> nbr q b = Some p ->
     In r (left_by classify (geo p) (opp b) (nth p st [])) -> classify (geo q) (shift (geo q) r) = Some c -> nbr q c = None) ->
  mpi_exchange st = Some st' ->
  Permutation es (all_writes R Geo nb opp classify geo (in_process remote nbr)
                    (extend_all R nb opp (in_process remote nbr) fresh (outgoing R Geo nb classify geo st') st')) ->
  M_PartSync.exchange R Geo nb opp classify shift outside clear clear_dead geo (in_process remote nbr) fresh st' es sched = Some st'' ->
  length st'' = length st /\ forall q, q < length st ->
   Permutation (alive (nth q st'' [])) (stayed classify (geo q) (nth q st []) ++ filter (inside q) (map (shift (geo q)) (arrivals st q))).
Proof.
  intros st es sched st' st'' Sd Sy Rm Settle E1 P E2.
  exact (world_result nb opp classify shift outside clear clear_dead geo nbr fresh remote Sd st Sy Rm es sched st' st'' Settle E1 P E2).
Qed.
End Generic.

(** ** the 2D and 3D code *)
Theorem C04_sides : forall A, sides_ok 8 (cl2 A) (out2 A) /\ sides_ok 26 (cl3 A) (out3 A).
Proof. intro A. split; [apply sides2|apply sides3]. Qed.
Theorem C04_rectangular : forall ax ay az, (paired [ax; ay; az] -> 1 <= ax_n ax -> 1 <= ax_n ay -> 1 <= ax_n az ->
  nbr_symmetric (Z.to_nat (ax_n ax * ax_n ay)) 8 opp2 (nbr2 ax ay) /\
  nbr_symmetric (Z.to_nat (ax_n ax * ax_n ay * ax_n az)) 26 opp3 (nbr3 ax ay az))%Z.
Proof.
  intros ax ay az P Nx Ny Nz. split.
  - apply (sym2 ax ay); auto. constructor; [exact (Forall_inv P)|]. constructor; [exact (Forall_inv (Forall_inv_tail P))|constructor].
  - apply (sym3 ax ay az); auto.
Qed.

Section Positions.
Local Open Scope Z_scope.
Variable A : Type.
Variables ax ay az : axis.
Variables mx my mz th : Z.
Variables dx dy dz : Q.
Definition i2 (p : nat) := pnum p mod ax_n ax.
Definition j2 (p : nat) := pnum p / ax_n ax.
Definition j3 (p : nat) := (pnum p / ax_n ax) mod ax_n ay.
Definition k3 (p : nat) := pnum p / ax_n ax / ax_n ay.
Local Notation geo2 := (geo2 ax ay mx my th dx dy).
Local Notation geo3 := (geo3 ax ay az mx my mz th dx dy dz).

(** 2D: a particle that moved at most one patch and left patch p towards q lies, after the periodic shift, in the cells of q;
    it is removed only if it is in an absorbing layer, where q has no neighbour *)
Theorem C06_arrivals_2d : forall p b q r, paired [ax; ay] -> 1 <= ax_n ax -> 1 <= ax_n ay -> 1 <= mx -> 1 <= my -> 0 <= th -> (0 < dx)%Q -> (0 < dy)%Q ->
  (p < Z.to_nat (ax_n ax * ax_n ay))%nat -> (b < 8)%nat -> nbr2 ax ay p b = Some q -> cl2 A (geo2 p) r = Some b ->
  near mx dx (i2 p) (px A r) -> near my dy (j2 p) (py A r) ->
  let r' := sh2 A (geo2 q) r in
  in_cells' mx dx (i2 q) (px A r') /\ in_cells' my dy (j2 q) (py A r') /\
  (forall c, cl2 A (geo2 q) r' = Some c -> nbr2 ax ay q c = None /\
     (in_layer ax mx th dx (i2 q) (px A r') \/ in_layer ay my th dy (j2 q) (py A r'))).
Proof.
  intros p b q r P Nx Ny Mx My Th Dx Dy Hp Hb E C N1 N2 r'.
  destruct (arrival2 ax ay mx my th dx dy P Nx Ny Mx My Th Dx Dy A p b q r Hp Hb E C (conj N1 N2)) as [[I1 I2] L]. auto.
Qed.
Theorem C06_arrivals_3d : forall p b q r, paired [ax; ay; az] -> 1 <= ax_n ax -> 1 <= ax_n ay -> 1 <= ax_n az -> 1 <= mx -> 1 <= my -> 1 <= mz -> 0 <= th ->
  (0 < dx)%Q -> (0 < dy)%Q -> (0 < dz)%Q ->
  (p < Z.to_nat (ax_n ax * ax_n ay * ax_n az))%nat -> (b < 26)%nat -> nbr3 ax ay az p b = Some q -> cl3 A (geo3 p) r = Some b ->
  near mx dx (i2 p) (px A r) -> near my dy (j3 p) (py A r) -> near mz dz (k3 p) (pz A r) ->
  let r' := sh3 A (geo3 q) r in
  in_cells' mx dx (i2 q) (px A r') /\ in_cells' my dy (j3 q) (py A r') /\ in_cells' mz dz (k3 q) (pz A r') /\
  (forall c, cl3 A (geo3 q) r' = Some c -> nbr3 ax ay az q c = None /\
     (in_layer ax mx th dx (i2 q) (px A r') \/ in_layer ay my th dy (j3 q) (py A r') \/ in_layer az mz th dz (k3 q) (pz A r'))).
Proof.
  intros p b q r P Nx Ny Nz Mx My Mz Th Dx Dy Dz Hp Hb E C N1 N2 N3 r'.
  destruct (arrival3 ax ay az mx my mz th dx dy dz P Nx Ny Nz Mx My Mz Th Dx Dy Dz A p b q r Hp Hb E C (conj N1 (conj N2 N3))) as [(I1 & I2 & I3) L]. auto.
Qed.
(** a particle kept by a patch is inside the cells of the patch and outside of every absorbing layer *)
Theorem C43_absorbed_2d : forall p r, 1 <= ax_n ax -> 1 <= ax_n ay -> 0 <= th -> (0 < dx)%Q -> (0 < dy)%Q ->
  out2 A (geo2 p) r = false ->
  in_cells' mx dx (i2 p) (px A r) /\ in_cells' my dy (j2 p) (py A r) /\ ~ in_layer ax mx th dx (i2 p) (px A r) /\ ~ in_layer ay my th dy (j2 p) (py A r).
Proof.
  intros p r Nx Ny Th Dx Dy O. unfold out2 in O. apply orb_false_iff in O. destruct O as [O1 O2].
  destruct (inside_axis ax mx th dx (i2 p) (px A r) Nx Th Dx O1). destruct (inside_axis ay my th dy (j2 p) (py A r) Ny Th Dy O2). auto.
Qed.
Theorem C43_absorbed_3d : forall p r, 1 <= ax_n ax -> 1 <= ax_n ay -> 1 <= ax_n az -> 0 <= th -> (0 < dx)%Q -> (0 < dy)%Q -> (0 < dz)%Q ->
  out3 A (geo3 p) r = false ->
  (in_cells' mx dx (i2 p) (px A r) /\ in_cells' my dy (j3 p) (py A r) /\ in_cells' mz dz (k3 p) (pz A r)) /\
  ~ in_layer ax mx th dx (i2 p) (px A r) /\ ~ in_layer ay my th dy (j3 p) (py A r) /\ ~ in_layer az mz th dz (k3 p) (pz A r).
Proof.
  intros p r Nx Ny Nz Th Dx Dy Dz O. unfold out3, S_PartSync.geo3 in O. apply orb_false_iff in O. destruct O as [O O3]. apply orb_false_iff in O. destruct O as [O1 O2].
  destruct (inside_axis ax mx th dx (i2 p) (px A r) Nx Th Dx O1). destruct (inside_axis ay my th dy (j3 p) (py A r) Ny Th Dy O2).
  destruct (inside_axis az mz th dz (k3 p) (pz A r) Nz Th Dz O3). auto 10.
Qed.

(** the whole 2D step on any number of processes *)
Theorem C50_rectangular_2d : forall (clear : prow A -> prow A) clear_dead fresh rank st es sched st' st'',
  paired [ax; ay] -> 1 <= ax_n ax -> 1 <= ax_n ay -> 1 <= mx -> 1 <= my -> 0 <= th -> (0 < dx)%Q -> (0 < dy)%Q ->
  length st = Z.to_nat (ax_n ax * ax_n ay) ->
  (forall p r, (p < length st)%nat -> In r (alive (nth p st [])) -> near mx dx (i2 p) (px A r) /\ near my dy (j2 p) (py A r)) ->
  let remote := remote_of rank (nbr2 ax ay) in let local := in_process remote (nbr2 ax ay) in
  mpi_exchange (prow A) _ 8 opp2 (cl2 A) (sh2 A) geo2 (nbr2 ax ay) fresh remote st = Some st' ->
  Permutation es (all_writes (prow A) _ 8 opp2 (cl2 A) geo2 local (extend_all (prow A) 8 opp2 local fresh (outgoing (prow A) _ 8 (cl2 A) geo2 st') st')) ->
  exchange (prow A) _ 8 opp2 (cl2 A) (sh2 A) (out2 A) clear clear_dead geo2 local fresh st' es sched = Some st'' ->
  forall q, (q < length st)%nat ->
   Permutation (alive (nth q st'' [])) (stayed (cl2 A) (geo2 q) (nth q st []) ++
     filter (fun r => negb (out2 A (geo2 q) r)) (map (sh2 A (geo2 q)) (arrivals 8 opp2 (cl2 A) geo2 (nbr2 ax ay) st q))).
Proof.
  intros clear clear_dead fresh rank st es sched st' st'' P Nx Ny Mx My Th Dx Dy L Near remote local E1 Pm E2 q Hq.
  assert (Sy : nbr_symmetric (length st) 8 opp2 (nbr2 ax ay)) by (rewrite L; apply (sym2 ax ay); auto).
  assert (Rm : remote_ok (length st) 8 opp2 (nbr2 ax ay) remote) by (apply remote_of_ok; auto).
  refine (proj2 (C50_distribution _ _ 8 opp2 (cl2 A) (sh2 A) (out2 A) clear clear_dead geo2 (nbr2 ax ay) fresh remote st es sched st' st'' (sides2 A) Sy Rm _ E1 Pm E2) q Hq).
  intros q0 b p r c Hq0 Hb N Hr C. destruct (Sy q0 b p Hq0 Hb N) as (Hp & Ho & Hoo & N').
  unfold left_by in Hr. apply filter_In in Hr. destruct Hr as [Hr Hs]. destruct (Near p r Hp Hr) as [N1 N2].
  assert (Cp : cl2 A (geo2 p) r = Some (opp2 b)). { unfold on_side in Hs. destruct (cl2 A (geo2 p) r) as [b'|]; [|discriminate]. apply Nat.eqb_eq in Hs. congruence. }
  rewrite L in Hp. destruct (C06_arrivals_2d p (opp2 b) q0 r P Nx Ny Mx My Th Dx Dy Hp Ho N' Cp N1 N2) as (_ & _ & X). apply (X c C).
Qed.
Theorem C50_rectangular_3d : forall (clear : prow A -> prow A) clear_dead fresh rank st es sched st' st'',
  paired [ax; ay; az] -> 1 <= ax_n ax -> 1 <= ax_n ay -> 1 <= ax_n az -> 1 <= mx -> 1 <= my -> 1 <= mz -> 0 <= th -> (0 < dx)%Q -> (0 < dy)%Q -> (0 < dz)%Q ->
  length st = Z.to_nat (ax_n ax * ax_n ay * ax_n az) ->
  (forall p r, (p < length st)%nat -> In r (alive (nth p st [])) -> near mx dx (i2 p) (px A r) /\ near my dy (j3 p) (py A r) /\ near mz dz (k3 p) (pz A r)) ->
  let remote := remote_of rank (nbr3 ax ay az) in let local := in_process remote (nbr3 ax ay az) in
  mpi_exchange (prow A) _ 26 opp3 (cl3 A) (sh3 A) geo3 (nbr3 ax ay az) fresh remote st = Some st' ->
  Permutation es (all_writes (prow A) _ 26 opp3 (cl3 A) geo3 local (extend_all (prow A) 26 opp3 local fresh (outgoing (prow A) _ 26 (cl3 A) geo3 st') st')) ->
  exchange (prow A) _ 26 opp3 (cl3 A) (sh3 A) (out3 A) clear clear_dead geo3 local fresh st' es sched = Some st'' ->
  forall q, (q < length st)%nat ->
   Permutation (alive (nth q st'' [])) (stayed (cl3 A) (geo3 q) (nth q st []) ++
     filter (fun r => negb (out3 A (geo3 q) r)) (map (sh3 A (geo3 q)) (arrivals 26 opp3 (cl3 A) geo3 (nbr3 ax ay az) st q))).
Proof.
  intros clear clear_dead fresh rank st es sched st' st'' P Nx Ny Nz Mx My Mz Th Dx Dy Dz L Near remote local E1 Pm E2 q Hq.
  assert (Sy : nbr_symmetric (length st) 26 opp3 (nbr3 ax ay az)) by (rewrite L; apply (sym3 ax ay az); auto).
  assert (Rm : remote_ok (length st) 26 opp3 (nbr3 ax ay az) remote) by (apply remote_of_ok; auto).
  refine (proj2 (C50_distribution _ _ 26 opp3 (cl3 A) (sh3 A) (out3 A) clear clear_dead geo3 (nbr3 ax ay az) fresh remote st es sched st' st'' (sides3 A) Sy Rm _ E1 Pm E2) q Hq).
  intros q0 b p r c Hq0 Hb N Hr C. destruct (Sy q0 b p Hq0 Hb N) as (Hp & Ho & Hoo & N').
  unfold left_by in Hr. apply filter_In in Hr. destruct Hr as [Hr Hs]. destruct (Near p r Hp Hr) as (N1 & N2 & N3).
  assert (Cp : cl3 A (geo3 p) r = Some (opp3 b)). { unfold on_side in Hs. destruct (cl3 A (geo3 p) r) as [b'|]; [|discriminate]. apply Nat.eqb_eq in Hs. congruence. }
  rewrite L in Hp. destruct (C06_arrivals_3d p (opp3 b) q0 r P Nx Ny Nz Mx My Mz Th Dx Dy Dz Hp Ho N' Cp N1 N2 N3) as (_ & _ & _ & X). apply (X c C).
Qed.
End Positions.

(** ** C51: memory safety *)
(** axes with equal conditions at both ends (C04_completes gives the same for every symmetric relation, 2D and 3D) *)
Theorem C51_safe_2d_partial : forall A ax ay mx my th dx dy clear clear_dead fresh st es sched,
  paired [ax; ay] -> (1 <= ax_n ax)%Z -> (1 <= ax_n ay)%Z -> length st = Z.to_nat (ax_n ax * ax_n ay) ->
  let geo := geo2 ax ay mx my th dx dy in
  let st1 := extend_all (prow A) 8 opp2 (nbr2 ax ay) fresh (outgoing (prow A) _ 8 (cl2 A) geo st) st in
  Permutation es (all_writes (prow A) _ 8 opp2 (cl2 A) geo (nbr2 ax ay) st1) ->
  (forall q, q < length st -> length (arrivals 8 opp2 (cl2 A) geo (nbr2 ax ay) st q) + length (nth q st1 []) < count_occ Nat.eq_dec sched q) ->
  exists st', exchange (prow A) _ 8 opp2 (cl2 A) (sh2 A) (out2 A) clear clear_dead geo (nbr2 ax ay) fresh st es sched = Some st'.
Proof.
  intros A ax ay mx my th dx dy clear clear_dead fresh st es sched P Nx Ny L geo st1 Pm S.
  apply C04_completes; auto; [apply sides2|]. rewrite L. apply (sym2 ax ay); auto.
Qed.

(** *** concrete worlds: three patches of four cells along x, one along y *)
Definition ax_per : axis := mkAxis 3 Periodic Periodic.
Definition ax_open : axis := mkAxis 3 Pml Pml.
Definition ax_mixed : axis := mkAxis 3 Periodic Pml.
Definition ay_one : axis := mkAxis 1 Periodic Periodic.
Definition demo_row (x : Q) (k : nat) : prow nat := mkRow nat (Some x) (Some (1 # 1)%Q) None k.
Definition demo_fresh (q i : nat) : prow nat := mkRow nat None None None 0.
Definition S1 (x : Q) (k : nat) : slot (prow nat) := mkSlot _ (demo_row x k) false.
Definition D1 : slot (prow nat) := mkSlot _ (demo_fresh 0 0) true.
(** patch 0: one staying, one leaving to the right, one leaving through the lower end; patch 2 full, one leaving upwards *)
Definition demo_world : patches (prow nat) :=
  [[S1 (1 # 1) 10; S1 (5 # 1) 11; S1 (- 2 # 1) 12]; [D1; S1 (3 # 1) 20]; [S1 (9 # 1) 30; S1 (12 # 1) 31]].
Definition demo_geo (ax : axis) := geo2 ax ay_one 4 4 1 (1 # 1) (1 # 1).
Definition demo_writes (ax : axis) := all_writes (prow nat) _ 8 opp2 (cl2 nat) (demo_geo ax) (nbr2 ax ay_one)
  (extend_all (prow nat) 8 opp2 (nbr2 ax ay_one) demo_fresh (outgoing (prow nat) _ 8 (cl2 nat) (demo_geo ax) demo_world) demo_world).
Definition demo_sched : list nat := flat_map (fun _ => [2; 0; 1]) (seq 0 12).
Definition demo_exchange (ax : axis) := exchange (prow nat) _ 8 opp2 (cl2 nat) (sh2 nat) (out2 nat) (clear2 nat) false (demo_geo ax) (nbr2 ax ay_one) demo_fresh demo_world
  (rev (demo_writes ax)) demo_sched.
Definition tags (o : option (patches (prow nat))) : option (list (list nat)) := option_map (map (fun l => map (other nat) (alive l))) o.
Example C04_example_periodic : tags (demo_exchange ax_per) = Some [[10; 31; 20]; [11]; [30; 12]] /\ length (demo_writes ax_per) = 4.
Proof. vm_compute. auto. Qed.
Example C04_example_open : tags (demo_exchange ax_open) = Some [[10; 20]; [11]; [30]].
Proof. vm_compute. reflexivity. Qed.
Example C06_example_shift : option_map (fun st => map (fun s => option_map Qred (px nat (row _ s))) (nth 2 st [])) (demo_exchange ax_per) = Some [Some (9 # 1); None; Some (10 # 1)]%Q.
Proof. vm_compute. reflexivity. Qed.
(** more than one patch per step: the particle 40 cells to the right of patch 0 (three patches) is dropped, as the property allows *)
Example C06_far_particle :
  tags (exchange (prow nat) _ 8 opp2 (cl2 nat) (sh2 nat) (out2 nat) (clear2 nat) false (demo_geo ax_open) (nbr2 ax_open ay_one) demo_fresh
     [[S1 (9 # 1) 50]; []; []] [(1, 0, 0, 0)] [0; 1; 2; 1; 1; 1]) = Some [[]; []; []].
Proof. vm_compute. reflexivity. Qed.

(** one axis periodic at the lower and open at the upper end, which the configuration accepts: the index of the particle that left
    patch 0 through the lower end is written through a null pointer, in every schedule *)
Theorem C51_mixed_conditions_refuted : demo_writes ax_mixed = [(1, 0, 0, 1); (2, 1, 0, 2); (0, 1, 0, 1)] /\
  forall sched, exchange (prow nat) _ 8 opp2 (cl2 nat) (sh2 nat) (out2 nat) (clear2 nat) false (demo_geo ax_mixed) (nbr2 ax_mixed ay_one) demo_fresh demo_world
     (demo_writes ax_mixed) sched = None.
Proof. split; [vm_compute; reflexivity|]. intro sched. reflexivity. Qed.

(** the same periodic world on two processes (patch 1 on the second) *)
Definition demo_remote := remote_of (fun p => if p =? 1 then 1 else 0) (nbr2 ax_per ay_one).
Definition demo_local := in_process demo_remote (nbr2 ax_per ay_one).
Example C50_example :
  tags (match mpi_exchange (prow nat) _ 8 opp2 (cl2 nat) (sh2 nat) (demo_geo ax_per) (nbr2 ax_per ay_one) demo_fresh demo_remote demo_world with
        | Some st' => exchange (prow nat) _ 8 opp2 (cl2 nat) (sh2 nat) (out2 nat) (clear2 nat) false (demo_geo ax_per) demo_local demo_fresh st'
            (all_writes (prow nat) _ 8 opp2 (cl2 nat) (demo_geo ax_per) demo_local
               (extend_all (prow nat) 8 opp2 demo_local demo_fresh (outgoing (prow nat) _ 8 (cl2 nat) (demo_geo ax_per) st') st')) demo_sched
        | None => None end) = Some [[10; 20; 31]; [11]; [30; 12]].
Proof. vm_compute. reflexivity. Qed.

Print Assumptions C04_exchange.
Print Assumptions C04_completes.
Print Assumptions C05_room.
Print Assumptions C06_arrivals_3d.
Print Assumptions C50_rectangular_3d.
Print Assumptions C43_absorbed_3d.
