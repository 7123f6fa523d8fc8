(** Specification vocabulary: processes that issue collective calls. *)
From Verif Require Import Base M_Collective.
From Coq Require Import QArith.

(** A collective call returns only when every process has made the same call: all processes finish, and the calls made
    by each of them are [t]. *)
Inductive completes : list prog -> list op -> Prop :=
| C_done : forall ps, Forall (fun p => p = Done) ps -> completes ps []
| C_coll : forall o (vks : list (Q * (list Q -> prog))) t,
    completes (map (fun vk => snd vk (map fst vks)) vks) t ->
    completes (map (fun vk => Coll o (fst vk) (snd vk)) vks) (o :: t).

Definition is_done (p : prog) : Prop := p = Done.
Definition calls (o : op) (p : prog) : Prop := exists v k, p = Coll o v k.
(** after the common calls [t] the processes can neither all finish nor all go on: some make different calls, or some
    have finished while others wait *)
Inductive blocks : list prog -> list op -> Prop :=
| B_mixed : forall ps, ~ Forall is_done ps -> (forall o, ~ Forall (calls o) ps) -> blocks ps []
| B_coll : forall o (vks : list (Q * (list Q -> prog))) t,
    blocks (map (fun vk => snd vk (map fst vks)) vks) t ->
    blocks (map (fun vk => Coll o (fst vk) (snd vk)) vks) (o :: t).

(** the processes agree on everything except the loads of their patches *)
Definition agree (vs : list view) : Prop :=
  forall v w, In v vs -> In w vs -> forall it,
    (forall s, due v it s = due w it s) /\ enabled v it = enabled w it /\ signal v it = signal w it /\ stop v it = stop w it.
(** every process holds a patch at every check *)
Definition all_hold_patches (vs : list view) : Prop :=
  forall v, In v vs -> forall it, loads v it <> [] /\ loads_after v it <> [].
(** no callback is registered *)
Definition no_callbacks (v : view) : Prop := forall it s, due v it s = [].
(** the only collective calls that callbacks make themselves are barriers *)
Definition barriers_only (v : view) : Prop :=
  forall it s b o, In b (due v it s) -> In (CColl o) b -> o = Barrier.
(** like [agree], but signals may differ *)
Definition agree_but_signals (vs : list view) : Prop :=
  forall v w, In v vs -> In w vs -> forall it,
    (forall s, due v it s = due w it s) /\ enabled v it = enabled w it /\ stop v it = stop w it.
