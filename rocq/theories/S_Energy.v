(** Vocabulary for the energy of the fields over whole runs. *)
From Coq Require Import QArith Qcanon.
From Verif Require Import Base M_Layout M_PartSync S_PartSync M_FieldSync S_FieldSync M_Maxwell S_Maxwell M_Deposit M_Push M_Step S_Step S_Gauss M_Step3D S_Step3D S_Gauss3D.
Local Open Scope list_scope.
Local Open Scope Z_scope.

(** f 0 + ... + f (N-1) *)
Definition zsum (N : Z) (f : Z -> Qc) : Qc := fold_right (fun i s => (f i + s)%Qc) (Q2Qc 0) (zseq N).

(** * Two dimensions *)
Section Two.
Variable D : domain2.
(** Sum over all cells of the product of two vector fields of the whole domain. *)
Definition inner2 (u v : nat -> list Z -> Qc) : Qc :=
  zsum (cells_x D) (fun i => zsum (cells_y D) (fun j => (u 0%nat [i; j] * v 0%nat [i; j] + u 1%nat [i; j] * v 1%nat [i; j] + u 2%nat [i; j] * v 2%nat [i; j])%Qc)).
Definition norm2 (u : nat -> list Z -> Qc) : Qc := inner2 u u.
(** curl B on the staggered grid (backward differences) *)
Definition curl2 (u : nat -> list Z -> Qc) (f : nat) (c : list Z) : Qc :=
  let dx := Q2Qc (d_dx D) in let dy := Q2Qc (d_dy D) in
  match c with
  | [i; j] => match f with
    | 0%nat => ((u 2%nat [i; j] - u 2%nat [i; (j - 1)%Z]) / dy)%Qc
    | 1%nat => (- ((u 2%nat [i; j] - u 2%nat [(i - 1)%Z; j]) / dx))%Qc
    | _ => ((u 1%nat [i; j] - u 1%nat [(i - 1)%Z; j]) / dx - (u 0%nat [i; j] - u 0%nat [i; (j - 1)%Z]) / dy)%Qc
    end
  | _ => Q2Qc 0
  end.
Definition light2 : Qc := Q2Qc (LIGHT_SPEED * LIGHT_SPEED).
(** Energy of the fields E and B of the whole domain (in units of eps0/2 per cell volume), with the correction of the
    leap-frog scheme of order dt^2. *)
Definition energy_of (E B : nat -> list Z -> Qc) : Qc :=
  (norm2 E + light2 * norm2 B - (light2 * half D) * (light2 * half D) * norm2 (curl2 B))%Qc.
(** Energy of a state between two steps; as in S_Gauss.defect the half step with the stored current that is still to come
    is counted in. *)
Definition energy (eps : Qc) (s : state2) : Qc :=
  energy_of (fun f c => (on_domain D (t_E s) f c - half D / eps * on_domain D (t_J s) f c)%Qc) (on_domain D (t_B s)).
End Two.

(** * Three dimensions *)
Section Three.
Variable D : domain3.
Definition inner3 (u v : nat -> list Z -> Qc) : Qc :=
  zsum (cells3_x D) (fun i => zsum (cells3_y D) (fun j => zsum (cells3_z D) (fun k =>
    (u 0%nat [i; j; k] * v 0%nat [i; j; k] + u 1%nat [i; j; k] * v 1%nat [i; j; k] + u 2%nat [i; j; k] * v 2%nat [i; j; k])%Qc))).
Definition norm3 (u : nat -> list Z -> Qc) : Qc := inner3 u u.
Definition curl3 (u : nat -> list Z -> Qc) (f : nat) (c : list Z) : Qc :=
  let dx := Q2Qc (e_dx D) in let dy := Q2Qc (e_dy D) in let dz := Q2Qc (e_dz D) in
  match c with
  | [i; j; k] =>
    let x f := ((u f [i; j; k] - u f [(i - 1)%Z; j; k]) / dx)%Qc in
    let y f := ((u f [i; j; k] - u f [i; (j - 1)%Z; k]) / dy)%Qc in
    let z f := ((u f [i; j; k] - u f [i; j; (k - 1)%Z]) / dz)%Qc in
    match f with 0%nat => (y 2%nat - z 1%nat)%Qc | 1%nat => (z 0%nat - x 2%nat)%Qc | _ => (x 1%nat - y 0%nat)%Qc end
  | _ => Q2Qc 0
  end.
Definition energy_of3 (E B : nat -> list Z -> Qc) : Qc :=
  (norm3 E + light2 * norm3 B - (light2 * half3 D) * (light2 * half3 D) * norm3 (curl3 B))%Qc.
Definition energy3 (eps : Qc) (s : state2) : Qc :=
  energy_of3 (fun f c => (on_domain3 D (t_E s) f c - half3 D / eps * on_domain3 D (t_J s) f c)%Qc) (on_domain3 D (t_B s)).
End Three.

(** No species has a living particle. *)
Definition no_particles (pss : list (list (list prt))) : Prop := Forall (fun st => particles st = []) pss.
(** (c dt)^2 (dx^-2 + dy^-2 (+ dz^-2)) <= q: the time step is at most sqrt(q) times the Courant limit; q = dt_cfl^2. *)
Definition courant2 (D : domain2) (q : Q) : Prop :=
  ((LIGHT_SPEED * d_dt D) * (LIGHT_SPEED * d_dt D) * (/ (d_dx D * d_dx D) + / (d_dy D * d_dy D)) <= q)%Q.
Definition courant3 (D : domain3) (q : Q) : Prop :=
  ((LIGHT_SPEED * e_dt D) * (LIGHT_SPEED * e_dt D) * (/ (e_dx D * e_dx D) + / (e_dy D * e_dy D) + / (e_dz D * e_dz D)) <= q)%Q.
