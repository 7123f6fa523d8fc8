(** Model of which particle kernels a step runs on which species, two dimensions (src/lambdapic/simulation/simulation.py:638-655
    [_init_pushers], 657-689 [_init_qed], 896-911 [run, choice of the fused pusher], 983-1040 [run, species loop],
    core/pusher/pusher.py:15-150, core/utils/enable_mixin.py:1-38).

    Simplifications: a step is the list of kernels it runs, each with the species whose particles it works on; what the
    kernels compute is in M_Unified, M_Push, M_Deposit and M_Interp; the kernels of one species run on all patches of the
    process. *)
From Verif Require Import Base.

(** species.py:39: pusher="boris", "photon" or "boris+tbmt" *)
Inductive pkind := Boris | PhotonP | BorisTBMT.
Record spec := mkSpec { kind_of : pkind; on : bool; radiates : bool; makes_pairs : bool }.

(** the kernels *)
Inductive kernel :=
| HalfMove (j : nat)    (* push_position(0.5 dt) *)
| Interpolate (j : nat)
| Events (j : nat)      (* update_chi and event of a QED module *)
| Momentum (j : nat)    (* boris_push_patches *)
| Deposit (j : nat)
| Fused (j : nat).      (* unified_boris_pusher_cpu_2d *)

(** a pusher object: the species index it was made with, its class, and whether it is enabled *)
Record pusher := mkPusher { ispec_of : nat; class_of : pkind; enabled : bool }.

(** _init_pushers: nothing is appended for any other kind; [switched_on k] is the state of the k-th object *)
Fixpoint init_from (i : nat) (switched_on : nat -> bool) (k : nat) (l : list spec) : list pusher :=
  match l with
  | [] => []
  | s :: l' =>
      match kind_of s with
      | Boris => mkPusher i Boris (switched_on k) :: init_from (S i) switched_on (S k) l'
      | PhotonP => mkPusher i PhotonP (switched_on k) :: init_from (S i) switched_on (S k) l'
      | BorisTBMT => init_from (S i) switched_on k l'
      end
  end.
Definition init_pushers (switched_on : nat -> bool) (l : list spec) : list pusher := init_from 0 switched_on 0 l.

(** use_unified_pusher[k]: decided by the k-th pusher object and the k-th entries of radiation and pairproduction *)
Definition unified (stage_callbacks : bool) (l : list spec) (ps : list pusher) (k : nat) : bool :=
  match nth_error ps k, nth_error l k with
  | Some p, Some s =>
      (match class_of p with Boris => true | _ => false end) &&
      negb (radiates s) && negb (makes_pairs s) && negb stage_callbacks
  | _, _ => false
  end.

(** the body of the species loop for index i: [None] is the IndexError of self.pusher[i]; a disabled pusher object does
    nothing in push_position and __call__ (if_enabled); the call of a PhotonPusher does nothing *)
Definition species_body (cb : bool) (l : list spec) (ps : list pusher) (i : nat) (s : spec) : option (list kernel) :=
  if negb (on s) then Some []
  else match nth_error ps i with
  | None => None
  | Some p =>
      let if_on k := if enabled p then k else [] in
      if unified cb l ps i then Some (if_on [Fused (ispec_of p)])
      else Some (if_on [HalfMove (ispec_of p)] ++ [Interpolate i] ++
                 (if radiates s || makes_pairs s then [Events i] else []) ++
                 if_on (match class_of p with Boris => [Momentum (ispec_of p)] | _ => [] end) ++
                 if_on [HalfMove (ispec_of p)] ++ [Deposit i])
  end.
(** the loop: the kernels run, and whether it was left by an exception *)
Fixpoint loop_from (i : nat) (cb : bool) (l : list spec) (ps : list pusher) (rest : list spec) : list kernel * bool :=
  match rest with
  | [] => ([], false)
  | s :: rest' =>
      match species_body cb l ps i s with
      | None => ([], true)
      | Some ks => let (ks', e) := loop_from (S i) cb l ps rest' in (ks ++ ks', e)
      end
  end.
Definition species_loop (switched_on : nat -> bool) (cb : bool) (l : list spec) : list kernel * bool :=
  loop_from 0 cb l (init_pushers switched_on l) l.
