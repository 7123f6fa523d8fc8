(** Model of the progress reports of a run (src/lambdapic/core/utils/progress_bar.py:26-190 [ProgressBar] and its use in
    simulation/simulation.py:929-938, 1124-1137).

    Simplifications: tqdm's own display is left out; elapsed and remaining times, which go into the same log line, are
    left out; the clock is a sequence of rational readings that need not even be monotone; the call of [scontrol] always
    works (its failures are ignored by the code). *)
From Verif Require Import Base.
From Coq Require Import QArith.
Local Open Scope Z_scope.

(** the environment: is the output a terminal, does SLURM_JOB_ID exist, is this a process other than 0 *)
Record env := mkEnv { terminal : bool; slurm : bool; disabled : bool }.
(** progress_bar.py:65-114; [b_log]: the counts in the log lines, [b_comment]: the percentages given to SLURM *)
Record bar := mkBar { b_total : Z; b_interval : Z; b_n : Z; b_last : Z; b_last_time : Q; b_log : list Z; b_comment : list Q }.
Definition new_bar (total initial : Z) (now : Q) : bar := mkBar total (Z.min 100 (Z.max 1 (total / 10))) initial initial now [] [].

(** [100 * self._n / self.total]; [None] is the ZeroDivisionError *)
Definition percent (b : bar) : option Q := if b_total b =? 0 then None else Some (inject_Z (100 * b_n b) / inject_Z (b_total b))%Q.
(** [_log_progress] (progress_bar.py:164-182) *)
Definition log_progress (b : bar) : option bar :=
  match percent b with Some _ => Some (mkBar (b_total b) (b_interval b) (b_n b) (b_last b) (b_last_time b) (b_log b ++ [b_n b]) (b_comment b)) | None => None end.
(** [_update_slurm_comment(job, 100 * n / total)] *)
Definition comment (b : bar) : option bar :=
  match percent b with Some p => Some (mkBar (b_total b) (b_interval b) (b_n b) (b_last b) (b_last_time b) (b_log b) (b_comment b ++ [p])) | None => None end.
Definition when (c : bool) (f : bar -> option bar) (b : bar) : option bar := if c then f b else Some b.
Definition bind (x : option bar) (f : bar -> option bar) : option bar := match x with Some b => f b | None => None end.

(** [update(1)] (progress_bar.py:116-133), [now] from the clock *)
Definition update (e : env) (now : Q) (b : bar) : option bar :=
  let b1 := mkBar (b_total b) (b_interval b) (b_n b + 1) (b_last b) (b_last_time b) (b_log b) (b_comment b) in
  if disabled e then Some b1
  else if (b_interval b <=? b_n b1 - b_last b) || Qle_bool 60 (now - b_last_time b) then
    bind (when (negb (terminal e)) log_progress b1) (fun b2 =>
    bind (when (slurm e) comment b2) (fun b3 =>
    Some (mkBar (b_total b3) (b_interval b3) (b_n b3) (b_n b3) now (b_log b3) (b_comment b3))))
  else Some b1.
(** [close()] (progress_bar.py:184-194) *)
Definition close (e : env) (b : bar) : option bar :=
  if disabled e then Some b
  else bind (when (negb (terminal e) && (b_last b <? b_n b)) log_progress b) (when (slurm e) comment).

(** the steps of a run, one clock reading each; an exception leaves the loop without [close] *)
Fixpoint steps (e : env) (clock : list Q) (b : bar) : option bar :=
  match clock with [] => Some b | now :: r => bind (update e now b) (steps e r) end.
Definition closed_run (e : env) (total initial : Z) (t0 : Q) (clock : list Q) : option bar := bind (steps e clock (new_bar total initial t0)) (close e).
