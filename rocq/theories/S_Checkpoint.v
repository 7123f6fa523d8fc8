(** Specification vocabulary for checkpoints. *)
From Verif Require Import Base M_Checkpoint.
Local Open Scope Z_scope.

(** steps are non-negative and have at most six digits *)
Definition six_digits (s : Z) : Prop := 0 <= s < 10 ^ 6.

(** [steps] are the steps of the checkpoint directories of [d], each present once; everything else in the directory
    is not a "ckpt_" directory. *)
Definition holds_checkpoints {A} (steps : list Z) (d : disk A) : Prop :=
  NoDup (map e_name d) /\
  (forall e, In e d -> starts_with ckpt_prefix (e_name e) = true -> e_dir e = true) /\
  Permutation (map e_name (filter (fun e => starts_with ckpt_prefix (e_name e)) d)) (map ckpt_name steps).

(** all processes can load checkpoint [s] *)
Definition loadable {A} (size : nat) (s : Z) (d : disk A) : Prop :=
  forall r, (r < size)%nat -> load_shard (ckpt_name s) r d <> None.

(** number of elements larger than s *)
Definition newer (s : Z) (l : list Z) : nat := countb (fun x => s <? x) l.

(** the steps on disk once step [s] is written *)
Definition with_step (s : Z) (steps : list Z) : list Z := if in_dec Z.eq_dec s steps then steps else steps ++ [s].

(** a history of dumps: each is a step number and the state each process stores *)
Definition dump_all {A} removable size keep (hist : list (Z * (nat -> A))) (d : disk A) : disk A :=
  fold_left (fun d h => dump removable size keep (fst h) (snd h) d) hist d.
