(** C48 (kernels work on the live particle arrays) and C63 (also with a moving window).
    Closed under the global context. *)
From Verif Require Import Base M_Lists S_Lists P_Lists.
Local Open Scope list_scope.

(** Without a moving window: for any modules, species, patches, enabling, callbacks that load particles at any stage, growth
    in QED, exchange and loading, and rebalancing at any step, every kernel of every step reaches the arrays its particle
    object holds. *)
Theorem C48_kernels_use_live_arrays :
  forall c init hs n k arrays, loads_only init -> (forall h, In h hs -> no_window h) ->
  forall u, In u (snd (run c init hs (start c n k arrays))) -> live u.
Proof. exact runs_live. Qed.
Print Assumptions C48_kernels_use_live_arrays.

(** With windows that inject nothing, all kernels still reach the live particle arrays (the bucket bounds are in C63). *)
Theorem C48_moving_window_without_injection :
  forall c init hs n k arrays, not_injecting init -> (forall h, In h hs -> no_injection h) ->
  forall u, In u (snd (run c init hs (start c n k arrays))) -> u_module u <> Bounds -> live u.
Proof. exact runs_live_no_injection. Qed.
Print Assumptions C48_moving_window_without_injection.

(** Whatever the callbacks do, sorting, the fused push, interpolation and deposition reach the live arrays. *)
Theorem C48_rechecking_modules :
  forall c init hs s u, In u (snd (run c init hs s)) -> rechecks (u_module u) -> live u.
Proof. intros c init hs s. exact (exec_all_robust c _ s). Qed.
Print Assumptions C48_rechecking_modules.

(** A run with growth everywhere, loading in the middle of the species loop and a rebalance; references do go out of date
    in between. *)
Definition busy : choice :=
  mkChoice (fun _ => true) (fun _ => true) (fun _ => true) (fun i => i =? 2)
    (fun pl i => match pl with AtInterp => [CbLoad i (fun _ => true)] | _ => [] end)
    (fun _ p => p =? 0) (fun _ _ => true) (fun _ p => p =? 1) (fun p i => i =? 0) (fun _ _ => true)
    (Some (3, fun p i => mkArr (1000 + 10 * p + i) (2000 + 10 * p + i) true)).
Example C48_example_busy :
  no_window busy /\ 100 <= length (snd (run demo_cfg [CbLoad 0 (fun _ => true)] [busy; busy] demo_start))
  /\ r_push (grow demo_cfg (fun _ _ => true) demo_start) 0 0 <> addr (grow demo_cfg (fun _ _ => true) demo_start) 0 0.
Proof.
  split; [|split].
  - intros pl i x H. destruct pl; cbn in H; try contradiction. destruct H as [<-|[]]. eauto.
  - vm_compute. lia.
  - vm_compute. discriminate.
Qed.

(** C63 fails: one injecting shift and the staged pusher, the collisions and both QED modules work on the replaced arrays;
    and a shift even without injection leaves the collisions with the sorters' previous bucket bounds. *)
Theorem C63_window_injection_refuted :
  forall m, m = Pusher \/ m = Collider \/ m = Radiator \/ m = PairMaker ->
  exists u, In u (demo_uses patch1 true) /\ u_module u = m /\ ~ live u.
Proof. intros m [->|[->|[->| ->]]]; apply find_stale; vm_compute; reflexivity. Qed.
Print Assumptions C63_window_injection_refuted.
Theorem C63_window_bucket_bounds_refuted :
  exists u, In u (demo_uses (fun _ _ => false) false) /\ u_module u = Bounds /\ ~ live u.
Proof. apply find_stale. vm_compute. reflexivity. Qed.
Print Assumptions C63_window_bucket_bounds_refuted.
