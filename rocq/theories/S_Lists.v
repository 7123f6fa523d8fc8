(** Vocabulary for C48 / C63: what it means that a kernel works on the live arrays. *)
From Verif Require Import Base M_Lists.

(** the kernel reached the arrays that the particle object (or, for bucket bounds, the sorter) holds at that moment *)
Definition live (u : use) : Prop := u_used u = u_live u.
Definition loads_only (l : list cb) : Prop := forall x, In x l -> exists i g, x = CbLoad i g.
(** no callback of the step moves the window *)
Definition no_window (h : choice) : Prop := forall pl i, loads_only (cbs h pl i).
(** windows move, but no new particles are injected *)
Definition not_injecting (l : list cb) : Prop := forall x, In x l -> forall g b, x = CbWindow g b -> b = false.
Definition no_injection (h : choice) : Prop := forall pl i, not_injecting (cbs h pl i).
(** modules that are handed the particle objects at each call, or check object identity first *)
Definition rechecks (m : module) : Prop := m = Sorter \/ m = FusedPusher \/ m = Interpolator \/ m = Depositor.
