(** C38 (moving window), C65 (leftover particles), C66 (windows to the left, fast windows).
    Closed under the global context. *)
From Verif Require Import Base M_Window S_Window P_Window.
From Coq Require Import QArith.
Local Open Scope nat_scope.
Local Open Scope list_scope.

(** After any number of calls at any times with any velocity, every place of the grid holds exactly one patch, at the
    coordinate of a window displaced by a whole number of patches; no patch is lost or renamed. *)
Theorem C38_arrangement :
  forall (F P : Type) (zero : F) npx plx lx dt start velocity inject stop dens (fill : nat -> Q -> nat * nat -> P) rows
         times w (ps : list (patch F P)) k,
  0 < npx -> (lx == inject_Z (Z.of_nat npx) * plx)%Q ->
  arranged npx rows plx k ps ->
  exists k', arranged npx rows plx k' (snd (calls F P zero npx plx lx dt start velocity inject stop dens fill times w ps))
    /\ map idx (snd (calls F P zero npx plx lx dt start velocity inject stop dens fill times w ps)) = map idx ps.
Proof.
  intros F P zero npx plx lx dt start velocity inject stop dens fill rows times w ps k H1 H2 H3.
  destruct (arranged_calls zero npx plx lx dt start velocity inject stop dens fill H1 H2 rows times w ps k H3) as [k' [A [_ B]]].
  exists k'. exact (conj A B).
Qed.
Print Assumptions C38_arrangement.

(** Each call moves the window by one patch or not at all; a patch that stays keeps coordinate, fields, memory and
    particles; a recycled one appears at the other end with zero fields and memory and freshly injected particles. *)
Theorem C38_one_call :
  forall (F P : Type) (zero : F) npx plx lx dt start velocity inject stop dens (fill : nat -> Q -> nat * nat -> P)
         t w (ps : list (patch F P)),
  0 < npx ->
  exists d, (d = 1 \/ d = 0 \/ d = -1)%Z /\
  Forall2 (one_call npx lx zero (fun s => injection_on inject stop t /\ dens s = true) fill d) ps
          (snd (call F P zero npx plx lx dt start velocity inject stop dens fill t w ps)).
Proof.
  intros. exists (direction plx dt start velocity t w). split; [|apply injected_on, call_patches; assumption].
  unfold direction. destruct (qltb t start); [tauto|]. destruct (Qle_bool plx _); [tauto|]. destruct (Qle_bool _ (- plx)); tauto.
Qed.
Print Assumptions C38_one_call.

(** With a forward velocity slower than one patch per step the window stays ahead of the distance travelled by at most one
    patch length. *)
Theorem C38_follows_velocity :
  forall (F P : Type) (zero : F) npx plx lx dt start velocity inject stop dens (fill : nat -> Q -> nat * nat -> P) rows
         times (ps : list (patch F P)),
  0 < npx -> (0 < plx)%Q -> (lx == inject_Z (Z.of_nat npx) * plx)%Q ->
  (forall t, In t times -> (start <= t)%Q -> (0 <= velocity t * dt)%Q /\ (velocity t * dt < plx)%Q) ->
  (exists t, In t times /\ (start <= t)%Q) ->
  arranged npx rows plx 0 ps ->
  exists k, arranged npx rows plx k
              (snd (calls F P zero npx plx lx dt start velocity inject stop dens fill times fresh_window ps))
    /\ ((inject_Z k - 1) * plx <= travelled start dt velocity times)%Q
    /\ (travelled start dt velocity times < inject_Z k * plx)%Q.
Proof. intros. apply follows; assumption. Qed.
Print Assumptions C38_follows_velocity.

Example C38_example :
  arranged 2 demo_rows 1 0 demo_patches /\
  map (fun p => (ipx p, idx p, fields p, parts p 0)) (snd (demo_calls (1#2) (fun _ => true) [0; 1#2; 1; 3#2]%Q))
  = [(0, 0, 0, 77); (1, 1, 0, 77)].
Proof. split; [apply demo_arranged; [left; split| | | |]; reflexivity|vm_compute; reflexivity]. Qed.

(** C65 fails in every case it speaks about: whatever the call does, and so also when a patch is recycled, the particles of
    a species that is not injected stay in it. *)
Theorem C65_leftover_particles_refuted :
  forall (F P : Type) (zero : F) npx plx lx dt start velocity inject stop dens (fill : nat -> Q -> nat * nat -> P)
         t w (ps : list (patch F P)) s,
  ~ (injection_on inject stop t /\ dens s = true) ->
  Forall2 (fun p p' => parts p' s = parts p s) ps
          (snd (call F P zero npx plx lx dt start velocity inject stop dens fill t w ps)).
Proof. intros. apply call_leftover, not_injected. assumption. Qed.
Print Assumptions C65_leftover_particles_refuted.
Example C65_example :
  map (fun p => (ipx p, x0 p, fields p, parts p 0)) (snd (demo_calls (1#2) (fun _ => false) [0]%Q))
  = [(1, (0 + 2)%Q, 0, 10); (0, 1%Q, 6, 11)].
Proof. vm_compute. reflexivity. Qed.

(** C66 fails: a window to the left has not moved after one and a half patch lengths, and a window of three patches per
    step moves one patch per step. *)
Theorem C66_leftward_refuted :
  exists times, arranged 2 demo_rows 1 0 (snd (demo_calls (-1) (fun _ => true) times))
             /\ (travelled 0 (1#2) (fun _ => -1) times < -1)%Q.
Proof.
  exists [0; 0; 0]%Q. split; [apply demo_arranged; [left; split| | | |]; reflexivity|vm_compute; reflexivity].
Qed.
Print Assumptions C66_leftward_refuted.
Theorem C66_fast_refuted :
  exists times, arranged 2 demo_rows 1 2 (snd (demo_calls 6 (fun _ => true) times))
             /\ (travelled 0 (1#2) (fun _ => 6) times == 6)%Q.
Proof.
  exists [0; 0]%Q. split; [apply demo_arranged; [left; split| | | |]; reflexivity|vm_compute; reflexivity].
Qed.
Print Assumptions C66_fast_refuted.
