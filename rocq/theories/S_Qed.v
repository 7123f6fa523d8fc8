(** Vocabulary for C37: what a user sees of the particles of a patch. *)
From Verif Require Import Base M_Qed.
From Coq Require Import QArith Qcanon Permutation.
Local Open Scope nat_scope.
Local Open Scope list_scope.

(** an alive particle: position, momentum, inverse Lorentz factor, weight *)
Record particle := mkP { p_pos : Qc * Qc * Qc; p_ux : Qc; p_uy : Qc; p_uz : Qc; p_ig : Qc; p_w : Qc }.
Definition view (s : slot) : particle := mkP (pos s) (ux s) (uy s) (uz s) (inv_gamma s) (wt s).
Definition alive (l : list slot) : list particle := map view (filter (fun s => negb (dead s)) l).
(** particles of the list that emit in this step *)
Definition emits (s : slot) : bool := negb (dead s) && event s.
Definition emitters (l : list slot) : list slot := filter emits l.
(** a particle with a fraction of the momentum of another, at the same place and with the same weight *)
Definition part_of (ig : Qc -> Qc -> Qc -> Qc) (f : Qc) (p : slot) : particle :=
  mkP (pos p) (f * ux p)%Qc (f * uy p)%Qc (f * uz p)%Qc (ig (f * ux p)%Qc (f * uy p)%Qc (f * uz p)%Qc) (wt p).
Definition qsum {A} (f : A -> Qc) (l : list A) : Qc := fold_right (fun a x => f a + x)%Qc 0%Qc l.
(** total momentum of the alive particles of a list, and of species 0 .. n-1 *)
Definition momentum (l : list slot) : Qc * Qc * Qc :=
  (qsum (fun p => p_w p * p_ux p) (alive l), qsum (fun p => p_w p * p_uy p) (alive l),
   qsum (fun p => p_w p * p_uz p) (alive l))%Qc.
Definition add3 (a b : Qc * Qc * Qc) : Qc * Qc * Qc :=
  let '(a1, a2, a3) := a in let '(b1, b2, b3) := b in (a1 + b1, a2 + b2, a3 + b3)%Qc.
Definition total_momentum (n : nat) (w : world) : Qc * Qc * Qc :=
  fold_right (fun i m => add3 (momentum (w i)) m) (0, 0, 0)%Qc (seq 0 n).
(** the emissions decided for a list: slot number and fraction, for alive slots *)
Fixpoint decided_from (k : nat) (decide : nat -> option Qc) (l : list slot) : list (nat * Qc) :=
  match l with
  | [] => []
  | s :: l' => match dead s, decide k with
               | false, Some f => (k, f) :: decided_from (S k) decide l'
               | _, _ => decided_from (S k) decide l'
               end
  end.
Definition decided (i : nat) (decide : nat -> option Qc) (l : list slot) : list (nat * nat * Qc) :=
  map (fun kf => (i, fst kf, snd kf)) (decided_from 0 decide l).
(** targets are other species than the emitter, and the two of a pair differ *)
Definition sane (n : nat) (kinds : nat -> kind) : Prop :=
  forall i, i < n -> match kinds i with
                     | Plain => True
                     | Radiates ph => ph <> i /\ ph < n
                     | Pairs e q => e <> i /\ q <> i /\ e <> q /\ e < n /\ q < n
                     end.
