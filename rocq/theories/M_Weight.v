(** Model of the load of a patch, which the load balancer distributes over the processes. *)
From Verif Require Import Base M_PartSync.
From Coq Require Import QArith.
Local Open Scope list_scope.
Local Open Scope nat_scope.

Section Weight.
Variables R Geo : Type.
Variable nb : nat.
Variable opp : nat -> nat.
Variable classify : Geo -> R -> option nat.
Variable geo : nat -> Geo.
Variable nbr : nat -> nat -> option nat.

(** core/patch/sync_particles_2d.c:297-305, 3d.c:459-467: [npart_alive] of patch q, computed while the rooms are counted, that is
    before anything moves; patch.py:718-719, 747-748 keep it as [_npart_alive] of the species *)
Definition recorded (st : patches R) (q : nat) : nat :=
  let ndead := countb (dead R) (pth R st q) in
  let nalive := length (pth R st q) - ndead in
  nalive + npart_new nb opp nbr (outgoing R Geo nb classify geo st) q.
(** patch.py:708, 717, 746, 771: what sync_particles returns, summed over the species *)
Definition recorded_all (sts : list (patches R)) (q : nat) : nat := sumn (map (fun st => recorded st q) sts).
(** core/mpi/load_balancer.py:81-99; [cells] is nx*ny or nx*ny*nz. Simplification: exact halves instead of floats *)
Definition patch_load (cells : nat) (counts : list nat) : Q :=
  (fold_left (fun a c => a + inject_Z (Z.of_nat c)) counts 0 + inject_Z (Z.of_nat cells) / 2)%Q.
(** simulation/simulation.py:718-741: the same load from the flags themselves *)
Definition true_load (cells : nat) (patch : list (list (slot R))) : Q :=
  (fold_left (fun a l => a + inject_Z (Z.of_nat (countb (fun s => negb (dead R s)) l))) patch 0 + inject_Z (Z.of_nat cells) / 2)%Q.
End Weight.
