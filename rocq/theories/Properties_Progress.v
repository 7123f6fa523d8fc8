(** C107, C108: progress reports of a run. *)
From Verif Require Import Base M_Progress S_Progress P_Progress.
From Coq Require Import QArith Lqa.
Local Open Scope Z_scope.

(** Process 0, not on a terminal: a run (or a part of it, up to a requested stop) reports increasing counts, never more
    than the interval apart, and the last one is the number of steps done; whatever the clock says. *)
Theorem C107_reports : forall total initial t0 clock sl, 0 < total -> 0 <= initial -> initial + Z.of_nat (length clock) <= total ->
  exists b, closed_run (mkEnv false sl false) total initial t0 clock = Some b /\
  spaced initial (interval total) (b_log b) /\ last (b_log b) initial = initial + Z.of_nat (length clock).
Proof. intros total initial t0 clock sl T I L. destruct (closed_good (mkEnv false sl false) total initial t0 clock eq_refl T I L) as (b & E & H & _). exists b. split; [exact E|]. apply H. reflexivity. Qed.
(** The percentages shown by SLURM are between 0 and 100, and the last one is exact. *)
Theorem C107_comments : forall total initial t0 clock te, 0 < total -> 0 <= initial -> initial + Z.of_nat (length clock) <= total ->
  exists b, closed_run (mkEnv te true false) total initial t0 clock = Some b /\
  Forall (fun p => 0 <= p <= 100)%Q (b_comment b) /\ (last (b_comment b) 0 == inject_Z (100 * (initial + Z.of_nat (length clock))) / inject_Z total)%Q.
Proof. intros total initial t0 clock te T I L. destruct (closed_good (mkEnv te true false) total initial t0 clock eq_refl T I L) as (b & E & _ & _ & _ & H & K). exists b. split; [exact E|]. split; [exact H|]. apply K. reflexivity. Qed.
(** The other processes report nothing, and neither do runs on a terminal (there tqdm draws the bar); without SLURM
    nothing is sent to it.  No other process fails, whatever the number of steps. *)
Theorem C107_silent : forall total initial t0 clock,
  (forall te sl, exists b, closed_run (mkEnv te sl true) total initial t0 clock = Some b /\ b_log b = [] /\ b_comment b = []) /\
  (0 < total -> 0 <= initial -> initial + Z.of_nat (length clock) <= total ->
   (exists b, closed_run (mkEnv true false false) total initial t0 clock = Some b /\ b_log b = [] /\ b_comment b = []) /\
   (exists b, closed_run (mkEnv false false false) total initial t0 clock = Some b /\ b_comment b = [])).
Proof.
  intros total initial t0 clock. split.
  - intros te sl. unfold closed_run. generalize (new_bar total initial t0) (eq_refl : b_log (new_bar total initial t0) = []) (eq_refl : b_comment (new_bar total initial t0) = []). induction clock as [|now r IH]; intros b L C.
    + exists b. auto.
    + cbn [steps]. unfold update. cbn [disabled bind]. apply IH; auto.
  - intros T I L. split.
    + destruct (closed_good (mkEnv true false false) total initial t0 clock eq_refl T I L) as (b & E & _ & A & B & _). exists b. auto.
    + destruct (closed_good (mkEnv false false false) total initial t0 clock eq_refl T I L) as (b & E & _ & _ & B & _). exists b. auto.
Qed.
(** If a step fails with an exception, the last report is less than one interval behind. *)
Theorem C107_lag : forall total initial t0 clock sl, 0 < total -> 0 <= initial -> initial + Z.of_nat (length clock) <= total ->
  exists b, steps (mkEnv false sl false) clock (new_bar total initial t0) = Some b /\
  initial + Z.of_nat (length clock) - interval total < last (b_log b) initial <= initial + Z.of_nat (length clock).
Proof.
  intros total initial t0 clock sl T I L. destruct (good_steps (mkEnv false sl false) total initial clock eq_refl T I 0 _ ltac:(lia) ltac:(lia) (good_new _ total initial t0)) as (b & E & G).
  exists b. split; [exact E|]. destruct G as (_ & _ & G3 & G4 & G5 & G6 & _). destruct (G6 eq_refl) as [_ ->]. lia.
Qed.
(** 25 steps from step 5 on: every third step, and the last one. *)
Example C107_case : option_map b_log (closed_run (mkEnv false false false) 30 5 0 (repeat 1%Q 25)) = Some [8; 11; 14; 17; 20; 23; 26; 29; 30].
Proof. vm_compute. reflexivity. Qed.

(** A run of zero steps from the start fails in a SLURM job, on a terminal or not. *)
Theorem C108_zero_steps_refuted : forall te t0, closed_run (mkEnv te true false) 0 0 t0 [] = None.
Proof. intros [|] t0; reflexivity. Qed.
(** The end of the run lies before the current step (the total is taken from the constructor while earlier runs went on):
    SLURM shows more than 100 percent. *)
Theorem C108_over_100_refuted : exists b p, closed_run (mkEnv false true false) 10 20 0 [] = Some b /\ b_comment b = [p] /\ (p == 200)%Q.
Proof. eexists. eexists. split; [reflexivity|]. split; reflexivity. Qed.
(** An exception in the loop leaves the last steps unreported. *)
Theorem C108_exception_refuted : exists b, steps (mkEnv false false false) (repeat 0%Q 199) (new_bar 2000 0 0) = Some b /\ b_n b = 199 /\ last (b_log b) 0 = 100.
Proof. eexists. split; [vm_compute; reflexivity|]. split; reflexivity. Qed.

Print Assumptions C107_reports.
Print Assumptions C107_comments.
Print Assumptions C107_silent.
Print Assumptions C107_lag.
Print Assumptions C108_zero_steps_refuted.
Print Assumptions C108_over_100_refuted.
Print Assumptions C108_exception_refuted.
