(** Vocabulary for the tables of the QED processes. *)
From Verif Require Import Base M_QedTable.
From Coq Require Import QArith.
Local Open Scope Z_scope.

(** the i-th tabulated log10 chi and the j-th tabulated log10 of the fraction *)
Definition chi_at (g : table_grid) (i : Z) : Q := (log_chi_lo g + inject_Z i * log_chi_d g)%Q.
Definition delta_at (g : table_grid) (j : Z) : Q := (log_delta_lo g + inject_Z j * log_delta_d g)%Q.

(** a grid with at least two values on each axis, chi from lo to hi, fractions up to 1 (log 0) *)
Definition grid_ok (g : table_grid) : Prop :=
  2 <= chi_N g /\ 2 <= delta_N g /\ (0 < log_chi_d g)%Q /\ (0 < log_delta_d g)%Q /\
  (chi_at g (chi_N g - 1) == log_chi_hi g)%Q /\ (delta_at g (delta_N g - 1) == 0)%Q.

(** chi lies between the i-th and the next tabulated value *)
Definition brackets (g : table_grid) (i : Z) (lc : Q) : Prop :=
  0 <= i < chi_N g - 1 /\ (chi_at g i <= lc)%Q /\ (lc < chi_at g (i + 1))%Q.

(** the point (x, y) lies on the line through (x0, y0) and (x1, y1) *)
Definition on_line (x0 y0 x1 y1 x y : Q) : Prop := ((y - y0) * (x1 - x0) == (y1 - y0) * (x - x0))%Q.

(** entries of a one and a two dimensional table *)
Definition at1 (table : list Q) (i : Z) : Q := nth (Z.to_nat i) table 0%Q.
Definition at2 (table : list (list Q)) (i j : Z) : Q := at1 (nth (Z.to_nat i) table nil) j.

Definition rates_ok (g : table_grid) (table : list Q) : Prop := Z.of_nat (length table) = chi_N g.
(** every row is a non-decreasing, not constant, distribution *)
Definition cdfs_ok (g : table_grid) (table : list (list Q)) : Prop :=
  Z.of_nat (length table) = chi_N g /\
  Forall (fun row => Z.of_nat (length row) = delta_N g) table /\
  (forall i j k, 0 <= i < chi_N g -> 0 <= j <= k -> k < delta_N g -> (at2 table i j <= at2 table i k)%Q) /\
  (forall i, 0 <= i < chi_N g -> (at2 table i 0 < at2 table i (delta_N g - 1))%Q).

(** [Y j] is the tabulated distribution at log10 fraction [delta_at g j], interpolated to this chi *)
Definition cdf_at (g : table_grid) (table : list (list Q)) (lc : Q) (Y : Z -> Q) : Prop :=
  exists i, brackets g i lc /\
  forall j, 0 <= j < delta_N g ->
    on_line (chi_at g i) (at2 table i j) (chi_at g (i + 1)) (at2 table (i + 1) j) lc (Y j).
(** the same, interpolated linearly in chi itself *)
Definition cdf_at_s (g : table_grid) (pow10 : Q -> Q) (table : list (list Q)) (lc : Q) (Y : Z -> Q) : Prop :=
  exists i, brackets g i lc /\
  forall j, 0 <= j < delta_N g ->
    on_line (pow10 (chi_at g i)) (at2 table i j) (pow10 (chi_at g (i + 1))) (at2 table (i + 1) j) (pow10 lc) (Y j).
(** the value of the distribution reached by the random number u *)
Definition target (g : table_grid) (Y : Z -> Q) (u : Q) : Q := (Y 0%Z + u * (Y (delta_N g - 1)%Z - Y 0%Z))%Q.
(** the target coincides with a tabulated value *)
Definition hits (g : table_grid) (Y : Z -> Q) (u : Q) : Prop :=
  exists j, 0 <= j < delta_N g /\ (Y j == target g Y u)%Q.

(** ** optical depth *)
(** the depth the particle has passed since its last event *)
Fixpoint passed (acc : Q) (h : list depth_step) (ev : list bool) : Q :=
  match h, ev with
  | Idle :: h', _ :: ev' => passed acc h' ev'
  | Depth d :: h', e :: ev' => passed (if e then 0%Q else acc + d)%Q h' ev'
  | _, _ => acc
  end.
Fixpoint total (h : list depth_step) : Q :=
  match h with [] => 0%Q | Idle :: h' => total h' | Depth d :: h' => (d + total h')%Q end.
Fixpoint sum_draws (dr : draws) (n : nat) : Q := match n with O => 0%Q | S n' => (sum_draws dr n' + dr n')%Q end.
Definition number (ev : list bool) : nat := countb (fun b => b) ev.
Definition depths_positive (h : list depth_step) : Prop :=
  Forall (fun st => match st with Idle => True | Depth d => (0 <= d)%Q end) h.
(** the draw for the event after n events *)
Definition events (e : emitter) (dr : draws) (h : list depth_step) : list bool :=
  snd (depth_run e dr h (mkDepth None 0)).

(** the depth that brings about an event: at least the threshold for photons, more than it for electrons *)
Definition reached (e : emitter) (threshold x : Q) : Prop :=
  match e with ElectronLike => (threshold < x)%Q | PhotonLike => (threshold <= x)%Q end.
(** the depth passed up to and including step t, and the threshold that counts in step t *)
Definition passed_by (h : list depth_step) (ev : list bool) (t : nat) (d : Q) : Q :=
  (passed 0 (firstn t h) (firstn t ev) + d)%Q.
Definition threshold (dr : draws) (ev : list bool) (t : nat) : Q := dr (number (firstn t ev)).
(** no electron meets its threshold exactly *)
Definition never_exact (e : emitter) (dr : draws) (h : list depth_step) : Prop :=
  e = ElectronLike -> forall t d, nth_error h t = Some (Depth d) ->
    ~ (passed_by h (events e dr h) t d == threshold dr (events e dr h) t)%Q.
Fixpoint first_event (ev : list bool) : option nat :=
  match ev with [] => None | true :: _ => Some O | false :: ev' => option_map S (first_event ev') end.
