(** Model of a whole time step in which species, pushers, the interpolator and the current depositor can be switched off
    (two dimensions, periodic boundaries).

    Sources: core/utils/enable_mixin.py:4-14 and 30-38 (enable, disable, is_enabled, if_enabled),
    simulation/simulation.py:965-1040 (the loops over species skip a species that is not enabled),
    core/pusher/pusher.py:102-137 (push_position and __call__ do nothing when the pusher is off; with unified=True that covers
    the deposition, which is part of the kernel), core/interpolation/field_interpolation.py:149-171,
    core/current/deposition.py:159-169 (the call does nothing when the depositor is off; [reset] is not guarded).
    The exchange of particles is not skipped (simulation.py:1066-1077).  The rest of the step is [step2] of M_Step.

    Simplifications: as in M_Step.  The switches may be set by callbacks at any time; here they have one value per step. *)
From Coq Require Import QArith Qabs Qcanon Permutation.
From Verif Require Import Base M_Layout M_PartSync S_PartSync M_FieldSync M_Maxwell M_Deposit M_Push M_Step.
Local Open Scope list_scope.
Local Open Scope Z_scope.

(** is_enabled of species [i], of its pusher, of the interpolator and of the current depositor *)
Record switches := mkSwitches { w_on : nat -> bool; w_pusher : nat -> bool; w_interp : bool; w_dep : bool }.

Section StepW.
Variable rsqrt : Q -> Q.
Variable eps : Qc.
Variable D : domain2.

(** simulation.py:993-1031 for a species that is pushed in stages, with [pu] and [it] telling whether pusher and
    interpolator are on *)
Definition staged_push_w (pu it : bool) (G : grid2) (F : six (list Q)) (q m dt : Q) (l : list M_Push.slot) : option (list M_Push.slot) :=
  let cdt := (LIGHT_SPEED * ((1#2) * dt))%Q in
  let l := if pu then stage_position push_position_2d cdt l else l in
  obind (if it then stage_interpolation (fun p => interpolation_2d G F (p_x p) (p_y p)) l else Some l) (fun l =>
  let l := if pu then stage_momentum rsqrt q m dt l else l in
  Some (if pu then stage_position push_position_2d cdt l else l)).
(** simulation.py:988-1031 for one patch *)
Definition push_patch_w (W : switches) (i : nat) (sp : species) (mE mB : memory Qc) (p : nat) (l : list prt) : option (list prt) :=
  match (if sp_unified sp then (if w_pusher W i then fused_push_2d rsqrt (grid_of D p) (fields_of D mE mB p) (sp_q sp) (sp_m sp) (d_dt D) (map load l) else Some (map load l))
         else staged_push_w (w_pusher W i) (w_interp W) (grid_of D p) (fields_of D mE mB p) (sp_q sp) (sp_m sp) (d_dt D) (map load l)) with
  | Some l' => Some (map (fun ss => store (fst ss) (snd ss)) (combine l l'))
  | None => None
  end.
(** does the step add the current of species [i] (if the species is on)? *)
Definition deposits (W : switches) (i : nat) (sp : species) : bool := if sp_unified sp then w_pusher W i else w_dep W.
Fixpoint push_patches_w (W : switches) (i : nat) (sp : species) (mE mB : memory Qc) (mJ : memory Qc) (p : nat) (st : list (list prt)) : option (memory Qc * list (list prt)) :=
  match st with
  | [] => Some (mJ, [])
  | l :: rest =>
      match push_patch_w W i sp mE mB p l with
      | None => None
      | Some l' => match push_patches_w W i sp mE mB (if deposits W i sp then deposit_patch D sp mJ p l' else mJ) (S p) rest with
                   | Some (mJ', rest') => Some (mJ', l' :: rest')
                   | None => None
                   end
      end
  end.
(** simulation.py:983-1040; [i] is the number of the first species of the list *)
Fixpoint push_species_w (W : switches) (i : nat) (sps : list species) (mE mB : memory Qc) (mJ : memory Qc) (pss : list (list (list prt))) : option (memory Qc * list (list (list prt))) :=
  match sps, pss with
  | [], _ => Some (mJ, [])
  | _, [] => Some (mJ, [])
  | sp :: sps', st :: pss' =>
      match (if w_on W i then push_patches_w W i sp mE mB mJ 0 st else Some (mJ, st)) with
      | None => None
      | Some (mJ1, st') => match push_species_w W (S i) sps' mE mB mJ1 pss' with
                           | Some (mJ2, pss'') => Some (mJ2, st' :: pss'')
                           | None => None
                           end
      end
  end.
(** simulation.py:966-971 *)
Fixpoint sorted_w (W : switches) (i : nat) (pss pss' : list (list (list prt))) : Prop :=
  match pss, pss' with
  | [], [] => True
  | st :: pss, st' :: pss' => (if w_on W i then sorted2 st st' else st' = st) /\ sorted_w W (S i) pss pss'
  | _, _ => False
  end.
(** simulation.py:946-1108 *)
Inductive stepW (sps : list species) (W : switches) (rank : nat -> nat) : state2 -> state2 -> Prop :=
| stepW_intro mE mB mJ ps mE1 mB1 ps1 mJ1 ps2 mJ2 ps3 mB2 mE2 :
    sync_guards D rank (up_E eps D mB mJ mE) mE1 ->
    sync_guards D rank (up_B eps D mE1 mB) mB1 ->
    sorted_w W 0 ps ps1 ->
    push_species_w W 0 sps mE1 mB1 (reset_currents D mJ) ps1 = Some (mJ1, ps2) ->
    sync_currents2 D rank mJ1 mJ2 ->
    Forall2 (sync_particles2 D rank) ps2 ps3 ->
    sync_guards D rank (up_B eps D mE1 mB1) mB2 ->
    sync_guards D rank (up_E eps D mB2 mJ2 mE1) mE2 ->
    stepW sps W rank (mkState2 mE mB mJ ps) (mkState2 mE2 mB2 mJ2 ps3).
(** the switches of every turn of the loop *)
Inductive stepsW (sps : list species) : list switches -> state2 -> state2 -> Prop :=
| stepsW_0 s : stepsW sps [] s s
| stepsW_S W Ws rank s s1 s2 : stepW sps W rank s s1 -> stepsW sps Ws s1 s2 -> stepsW sps (W :: Ws) s s2.
End StepW.
