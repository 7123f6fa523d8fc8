(** Model of checkpoint writing, retention and the checkpoint directory
    (src/lambdapic/callback/restart.py:81-126).  Characters are their code points (integers). *)
From Verif Require Import Base.
Local Open Scope Z_scope.

(** Decimal digits of a non-negative integer, as Python's [str] writes them.  [fuel] is an upper bound of
    the number of digits. *)
Fixpoint decf (fuel : nat) (n : Z) : list Z :=
  match fuel with
  | O => []
  | S f => if n <? 10 then [48 + n] else decf f (n / 10) ++ [48 + n mod 10]
  end.
Definition dec (n : Z) : list Z := decf (S (Z.to_nat (Z.log2 n))) n.

(** "ckpt_" *)
Definition ckpt_prefix : list Z := [99; 107; 112; 116; 95].
(** restart.py:81-82, f"ckpt_{itime:06d}": the digits are left-padded with zeros up to six characters *)
Definition pad6 (l : list Z) : list Z := repeat 48 (6 - length l) ++ l.
Definition ckpt_name (itime : Z) : list Z := ckpt_prefix ++ pad6 (dec itime).

(** Python's order on [str] (code point lexicographic, a prefix is smaller) *)
Fixpoint str_leb (a b : list Z) : bool :=
  match a, b with
  | [], _ => true
  | _ :: _, [] => false
  | x :: a', y :: b' => if x <? y then true else if y <? x then false else str_leb a' b'
  end.
Fixpoint str_eqb (a b : list Z) : bool :=
  match a, b with
  | [], [] => true
  | x :: a', y :: b' => (x =? y) && str_eqb a' b'
  | _, _ => false
  end.
(** [str.startswith] *)
Fixpoint starts_with (p s : list Z) : bool :=
  match p, s with
  | [], _ => true
  | x :: p', y :: s' => (x =? y) && starts_with p' s'
  | _ :: _, [] => false
  end.

Section Disk.
Variable A : Type.

(** A directory entry of [out_dir]: a plain file, or a directory with the shards found in it.  A shard
    that was opened for writing but not completed has no value. *)
Record entry := mkEntry { e_name : list Z; e_dir : bool; e_shards : list (nat * option A) }.
Definition disk := list entry.

(** restart.py:92-94: [mkdir(parents=True, exist_ok=True)] *)
Definition mkdir (n : list Z) (d : disk) : disk :=
  if existsb (fun e => str_eqb (e_name e) n) d then d else d ++ [mkEntry n true []].

(** state of one process's shard during restart.py:98-99: not yet opened, opened with mode "wb"
    (truncated), completely written *)
Inductive phase := NotOpened | Opened | Written.
Definition put_shard (r : nat) (v : option A) (l : list (nat * option A)) : list (nat * option A) :=
  (r, v) :: filter (fun x => negb (fst x =? r)%nat) l.
Definition write_shard (ph : phase) (r : nat) (v : A) (l : list (nat * option A)) : list (nat * option A) :=
  match ph with NotOpened => l | Opened => put_shard r None l | Written => put_shard r (Some v) l end.
(** all processes write their own file; processes are in arbitrary, independent phases [ph].  Between the two
    barriers nothing else happens to the directory. *)
Definition write_shards (size : nat) (ph : nat -> phase) (n : list Z) (v : nat -> A) (d : disk) : disk :=
  map (fun e => if str_eqb (e_name e) n
                then mkEntry (e_name e) (e_dir e)
                       (fold_left (fun l r => write_shard (ph r) r (v r) l) (seq 0 size) (e_shards e))
                else e) d.

(** restart.py:111-112: the candidates in name order ([iterdir] returns them in any order) *)
Fixpoint insert_by_name (e : entry) (l : list entry) : list entry :=
  match l with
  | [] => [e]
  | h :: t => if str_leb (e_name e) (e_name h) then e :: l else h :: insert_by_name e t
  end.
Definition sort_by_name (l : list entry) : list entry := fold_right insert_by_name [] l.
Definition candidates (d : disk) : list entry :=
  sort_by_name (filter (fun e => e_dir e && starts_with ckpt_prefix (e_name e)) d).

(** restart.py:113-115; Python's slice [: len - keep] *)
Definition to_delete (keep : nat) (d : disk) : list entry :=
  let c := candidates d in firstn (length c - keep) c.

(** restart.py:116-126: for each directory, unlink its files one by one, then [rmdir].  [removable n] is
    false when the removal raises (the exception is logged and the loop goes on); then nothing of
    that directory is removed. *)
Inductive fs_act := Unlink (n : list Z) (r : nat) | Rmdir (n : list Z).
Definition do_act (d : disk) (a : fs_act) : disk :=
  match a with
  | Unlink n r => map (fun e => if str_eqb (e_name e) n
                                then mkEntry (e_name e) (e_dir e) (filter (fun x => negb (fst x =? r)%nat) (e_shards e))
                                else e) d
  | Rmdir n => filter (fun e => negb (str_eqb (e_name e) n)) d
  end.
Variable removable : list Z -> bool.
Definition delete_acts (e : entry) : list fs_act :=
  if removable (e_name e)
  then map (fun s => Unlink (e_name e) (fst s)) (e_shards e) ++ [Rmdir (e_name e)] else [].
Definition gc_acts (keep : nat) (d : disk) : list fs_act := flat_map delete_acts (to_delete keep d).

(** restart.py:104-105: retention runs only for a positive [keep] *)
Definition gc (keep : option nat) (d : disk) : disk :=
  match keep with
  | Some (S k) => fold_left do_act (gc_acts (S k) d) d
  | _ => d
  end.

(** restart.py:88-107, the whole dump of step [itime] where process r stores [v r] *)
Definition dump (size : nat) (keep : option nat) (itime : Z) (v : nat -> A) (d : disk) : disk :=
  gc keep (write_shards size (fun _ => Written) (ckpt_name itime) v (mkdir (ckpt_name itime) d)).

(** the states of the directory in which a crash can leave a dump *)
Inductive crash_state (size : nat) (keep : option nat) (itime : Z) (v : nat -> A) (d : disk) : disk -> Prop :=
| crash_before : crash_state size keep itime v d d
| crash_writing : forall ph,
    crash_state size keep itime v d
      (write_shards size ph (ckpt_name itime) v (mkdir (ckpt_name itime) d))
| crash_cleaning : forall k j, keep = Some (S k) ->
    let d1 := write_shards size (fun _ => Written) (ckpt_name itime) v (mkdir (ckpt_name itime) d) in
    crash_state size keep itime v d (fold_left do_act (firstn j (gc_acts (S k) d1)) d1).

(** restart.py:140-149: what process r reads *)
Definition find_dir (n : list Z) (d : disk) : option entry := find (fun e => str_eqb (e_name e) n) d.
Definition load_shard (n : list Z) (r : nat) (d : disk) : option A :=
  match find_dir n d with
  | Some e => match find (fun x => (fst x =? r)%nat) (e_shards e) with Some (_, Some v) => Some v | _ => None end
  | None => None
  end.
End Disk.
Arguments mkEntry {A}. Arguments e_name {A}. Arguments e_dir {A}. Arguments e_shards {A}.
Arguments mkdir {A}. Arguments write_shards {A}. Arguments dump {A}. Arguments gc {A}. Arguments gc_acts {A}.
Arguments candidates {A}. Arguments to_delete {A}. Arguments do_act {A}. Arguments crash_state {A}.
Arguments load_shard {A}. Arguments find_dir {A}. Arguments put_shard {A}. Arguments write_shard {A}.
Arguments sort_by_name {A}. Arguments insert_by_name {A}. Arguments delete_acts {A}. 
