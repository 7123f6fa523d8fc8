(** Model of the tables of the QED processes and of the optical depth of one particle
    (src/lambdapic/core/qed/optical_depth_tables.py:32-87, core/qed/optical_depth_tables_sigmoid.py:31-103,
    core/qed/optical_depth.py:36-130, core/qed/inline.py:5-14, core/qed/inline.py:66-78).

    Simplifications: exact rational arithmetic ([Q]); the functions take log10 of chi and return log10 of the sampled
    fraction (the conversions np.log10 and 10** at both ends are left out), the powers of ten and the logistic function of
    the second sampling method are functions given from outside; a random number is an argument; NaN occurs only as the
    optical depth "not set" and is [None]. *)
From Verif Require Import Base.
From Coq Require Import QArith Qround.
Local Open Scope Z_scope.
Local Open Scope list_scope.

(** ** reading a table: compiled code wraps a negative index once and checks no bounds; [None] is a read outside the array *)
Definition read {A} (l : list A) (i : Z) : option A :=
  let n := Z.of_nat (length l) in
  let j := if i <? 0 then i + n else i in
  if (0 <=? j) && (j <? n) then nth_error l (Z.to_nat j) else None.

(** the numbers stored beside the tables: chi_N, log_chi_range, log_chi_delta, delta_N, log_delta_range[0], log_delta_delta *)
Record table_grid := mkGrid {
  chi_N : Z; log_chi_lo : Q; log_chi_hi : Q; log_chi_d : Q;
  delta_N : Z; log_delta_lo : Q; log_delta_d : Q }.

(** how a call ends: with a value, by reading outside of a table, or it is still in its loop *)
Inductive outcome (A : Type) := Value (a : A) | Outside | Running.
Arguments Value {A} a. Arguments Outside {A}. Arguments Running {A}.

Section Tables.
Variable g : table_grid.

(** _get_chi_idx, optical_depth_tables.py:32-41 *)
Definition chi_idx (lc : Q) : Z :=
  if negb (Qle_bool (log_chi_lo g) lc) then -1
  else if negb (Qle_bool lc (log_chi_hi g)) then chi_N g - 1
  else Qfloor ((lc - log_chi_lo g) / log_chi_d g).

Definition log_chi_left (i : Z) : Q := log_chi_lo g + inject_Z i * log_chi_d g.

(** _linear_interp1d, optical_depth_tables.py:43-53 *)
Definition rate (lc : Q) (table : list Q) : outcome Q :=
  let i := chi_idx lc in
  if i =? -1 then Value 0%Q
  else match read table (i + 1), read table i with
       | Some b, Some a => Value (a + (b - a) / log_chi_d g * (lc - log_chi_left i))%Q
       | _, _ => Outside
       end.

(** the loop of _bisect_interp, optical_depth_tables.py:69-77: [y j] reads column j of the interpolated row.  A value equal
    to r changes neither bound.  [fuel] bounds the number of passes looked at *)
Fixpoint bisect (fuel : nat) (y : Z -> option Q) (r : Q) (low high : Z) : outcome Z :=
  match fuel with
  | O => if low <=? high then Running else Value high
  | S fuel' =>
      if low <=? high then
        let mid := (low + high) / 2 in
        match y mid with
        | None => Outside
        | Some v =>
            if negb (Qle_bool r v) then bisect fuel' y r (mid + 1) high
            else if negb (Qle_bool v r) then bisect fuel' y r low (mid - 1)
            else bisect fuel' y r low high
        end
      else Value high
  end.

(** an entry of table2d, the first index the row *)
Definition read2 (table : list (list Q)) (i j : Z) : option Q :=
  match read table i with Some row => read row j | None => None end.

(** table2d[chi_idx, j] * (1 - t) + table2d[chi_idx+1, j] * t *)
Definition column (table : list (list Q)) (i : Z) (t : Q) (j : Z) : option Q :=
  match read2 table i j, read2 table (i + 1) j with
  | Some a, Some b => Some (a * (1 - t) + b * t)%Q
  | _, _ => None
  end.

(** _bisect_interp, optical_depth_tables.py:56-87, up to the final 10**: lc is log10 chi, u the random number *)
Definition sample (fuel : nat) (lc u : Q) (table : list (list Q)) : outcome Q :=
  let i := chi_idx lc in
  let t := ((lc - log_chi_left i) / log_chi_d g)%Q in
  let y := column table i t in
  match y 0, y (-1) with
  | Some ymin, Some ymax =>
      let r := (u * (ymax - ymin) + ymin)%Q in
      match bisect fuel y r 0 (delta_N g - 1) with
      | Value h =>
          match y h, y (h + 1) with
          | Some y1, Some y2 =>
              Value (log_delta_lo g + inject_Z h * log_delta_d g + log_delta_d g / (y2 - y1) * (r - y1))%Q
          | _, _ => Outside
          end
      | Outside => Outside
      | Running => Running
      end
  | _, _ => Outside
  end.

(** ** the second method (LAMBDAPIC_USE_SIGMOID_SAMPLING=1), optical_depth_tables_sigmoid.py:60-103: interpolation linear in
    chi, fractions on a logistic grid.  [pow10] is 10**, [grid j] = 1 / (1 + exp(-A (-1 + 2 j / (delta_N-1)))), [first] is
    delta_range[0]; here the result is the fraction itself *)
Variable pow10 : Q -> Q.
Variable grid : Z -> Q.
Variable first : Q.
Definition column_s (table : list (list Q)) (i : Z) (chi : Q) (j : Z) : option Q :=
  let cl := pow10 (log_chi_left i) in
  let ch := pow10 (log_chi_left (i + 1)) in
  match read2 table (i + 1) j, read2 table i j with
  | Some b, Some a => Some (a + (b - a) / (ch - cl) * (chi - cl))%Q
  | _, _ => None
  end.
Definition sample_s (fuel : nat) (lc u : Q) (table : list (list Q)) : outcome Q :=
  let i := chi_idx lc in
  let y := column_s table i (pow10 lc) in
  match y 0, y (-1) with
  | Some ymin, Some ymax =>
      let r := (u * (ymax - ymin) + ymin)%Q in
      if negb (Qle_bool ymin r) then Value (r / ymin * first)%Q
      else match bisect fuel y r 0 (delta_N g - 1) with
           | Value h =>
               match y h, y (h + 1) with
               | Some y1, Some y2 => Value (grid h + (grid (h + 1) - grid h) / (y2 - y1) * (r - y1))%Q
               | _, _ => Outside
               end
           | Outside => Outside
           | Running => Running
           end
  | _, _ => Outside
  end.
End Tables.

(** ** the optical depth of one particle over the steps of a run, update_tau_e and update_tau_gamma,
    optical_depth.py:60-84 and 107-130.  A step of the particle: dead, chi below the table, or rate * dt * inv_gamma *)
Inductive depth_step := Idle | Depth (d : Q).
(** the draws -log(1 - random.rand()) this particle receives, in order *)
Definition draws := nat -> Q.
Record depth_state := mkDepth { tau : option Q; drawn : nat }.

(** the test for an event: [< 0] for electrons (line 78), [<= 0] for photons (line 124) *)
Inductive emitter := ElectronLike | PhotonLike.
Definition crosses (e : emitter) (x : Q) : bool :=
  match e with ElectronLike => negb (Qle_bool 0 x) | PhotonLike => Qle_bool x 0 end.

Definition depth_one (e : emitter) (dr : draws) (st : depth_step) (s : depth_state) : depth_state * bool :=
  match st with
  | Idle => (s, false)
  | Depth d =>
      let unset := match tau s with None => true | Some x => Qeq_bool x 0 end in
      let x0 := if unset then dr (drawn s) else match tau s with Some x => x | None => 0%Q end in
      let n0 := if unset then S (drawn s) else drawn s in
      let x1 := (x0 - d)%Q in
      if crosses e x1 then (mkDepth (Some (dr n0)) (S n0), true) else (mkDepth (Some x1) n0, false)
  end.
Fixpoint depth_run (e : emitter) (dr : draws) (h : list depth_step) (s : depth_state) : depth_state * list bool :=
  match h with
  | [] => (s, [])
  | st :: h' =>
      let (s1, b) := depth_one e dr st s in
      let (s2, bs) := depth_run e dr h' s1 in (s2, b :: bs)
  end.

(** the optical depth of a slot when a particle leaves it (the slot is marked dead, patch/sync_particles_2d.c:197) and when
    a new particle is created in it (inline.py:66-78): both leave tau alone *)
Definition leave (s : depth_state) : depth_state := s.
Definition born_in (s : depth_state) : depth_state := s.

(** ** the argument of the square root in calculate_chi_inline, inline.py:8-14, in units where the constant factor is 1;
    [cB] components are c times B *)
Definition chi_squared (gamma ex ey ez bx by_ bz ux uy uz : Q) : Q :=
  ((gamma*ex + (uy*bz - uz*by_)) * (gamma*ex + (uy*bz - uz*by_)) +
   (gamma*ey + (uz*bx - ux*bz)) * (gamma*ey + (uz*bx - ux*bz)) +
   (gamma*ez + (ux*by_ - uy*bx)) * (gamma*ez + (ux*by_ - uy*bx)) -
   (ux*ex + uy*ey + uz*ez) * (ux*ex + uy*ey + uz*ez))%Q.
