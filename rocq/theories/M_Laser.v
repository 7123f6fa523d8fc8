(** Model of the injection of laser pulses at the left boundary (callback/laser.py).
    Field values are an arbitrary type with arithmetic as in M_Maxwell, together with the numbers of M_Cpml and the speed of
    light [cl]; times, lengths and coordinates are rationals.  The profile of a pulse (SimpleLaser, GaussianLaser) is an
    arbitrary function of time and of the distance from the centre of the beam; the concrete profiles are in M_Profile.
    Simplifications: the iterations of the parallel loops run in order; the patches of all processes are one memory indexed
    by the global patch number, as in M_FieldSync; the row number times dy stands for yaxis (exact arithmetic). *)
From Coq Require Import QArith.
From Verif Require Import Base M_Layout M_PartSync M_FieldSync M_Maxwell M_Cpml M_Deposit M_Push.
Local Open Scope list_scope.
Local Open Scope Z_scope.

(** range(a, b) *)
Definition zrange (a b : Z) : list Z := map (fun i => a + i) (zseq (b - a)).

Section Laser.
Context {V : Type} (A : arith V) (K : layer V) (cl : V).
Local Notation "x +. y" := (plus_ A x y) (at level 50, left associativity).
Local Notation "x -. y" := (minus_ A x y) (at level 50, left associativity).
Local Notation "x *. y" := (times_ A x y) (at level 40, left associativity).
Local Notation "x /. y" := (over_ A x y) (at level 40, left associativity).
Local Notation two := (ofZ_ K 2).
Local Notation four := (ofZ_ K 4).

(** ** laser.py:17-45: _update_laser_bfields_2d; m starts as the magnetic field of all patches *)
Section Two.
Variables (nx ny ng : Z) (dx dy : V).
Definition inject_2d (laserpos iy_start iy_end : Z) (ey_source ez_source : Z -> V) (dt : V) (mE mJ : memory V) (mB : memory V) (p : nat) : memory V :=
  let at_ i j := at2d nx ny ng i j in
  let ey i j := mE (Fld 1 p (at_ i j)) in let ez i j := mE (Fld 2 p (at_ i j)) in
  let jy i j := mJ (Fld 1 p (at_ i j)) in let jz i j := mJ (Fld 2 p (at_ i j)) in
  let m1 := fold_left (fun m iy => put (Fld 0 p (at_ (laserpos - 1) iy)) (m (Fld 0 p (at_ 0 iy))) m) (zrange iy_start iy_end) mB in
  fold_left (fun m iy =>
    let bx i j := m (Fld 0 p (at_ i j)) in let bz i j := m (Fld 2 p (at_ i j)) in
    let m := put (Fld 2 p (at_ (laserpos - 1) iy))
      (one_ K /. ((cl *. dt /. dx +. one_ K) *. cl) *.
        (four *. ey_source iy
         +. two *. (ey 0 iy +. cl *. half_ K *. (bz 0 iy +. bz (-1) iy))
         -. two *. ey laserpos iy
         +. dt /. eps0 A *. jy laserpos iy
         +. (cl *. dt /. dx -. one_ K) *. cl *. bz laserpos iy)) m in
    let by_ i j := m (Fld 1 p (at_ i j)) in
    put (Fld 1 p (at_ (laserpos - 1) iy))
      (one_ K /. ((cl *. dt /. dx +. one_ K) *. cl) *.
        (minus1_ A four *. ez_source iy
         -. two *. (ez 0 iy -. cl *. half_ K *. (by_ 0 iy +. by_ (-1) iy))
         +. two *. ez laserpos iy
         -. (dt *. csq A) *. (bx laserpos iy -. bx laserpos (iy - 1)) /. dy
         -. dt /. eps0 A *. jz laserpos iy
         +. (cl *. dt /. dx -. one_ K) *. cl *. by_ laserpos iy)) m)
    (zrange iy_start iy_end) m1.
End Two.

(** ** laser.py:47-77: _update_laser_bfields_3d; the slice [:] of the first loop covers the guard cells *)
Section Three.
Variables (nx ny nz ng : Z) (dx dy dz : V).
Definition inject_3d (laserpos iy_start iy_end iz_start iz_end : Z) (ey_source ez_source : Z -> Z -> V) (dt : V) (mE mJ : memory V) (mB : memory V) (p : nat) : memory V :=
  let at_ i j k := at3d nx ny nz ng i j k in
  let ey i j k := mE (Fld 1 p (at_ i j k)) in let ez i j k := mE (Fld 2 p (at_ i j k)) in
  let jy i j k := mJ (Fld 1 p (at_ i j k)) in let jz i j k := mJ (Fld 2 p (at_ i j k)) in
  let m1 := fold_left (fun m iy => fold_left (fun m k => put (Fld 0 p (at_ (laserpos - 1) iy k)) (m (Fld 0 p (at_ 0 iy k))) m) (zseq (nz + 2 * ng)) m)
              (zrange iy_start iy_end) mB in
  fold_left (fun m iy => fold_left (fun m iz =>
    let bx i j k := m (Fld 0 p (at_ i j k)) in let bz i j k := m (Fld 2 p (at_ i j k)) in
    let m := put (Fld 2 p (at_ (laserpos - 1) iy iz))
      (one_ K /. ((cl *. dt /. dx +. one_ K) *. cl) *.
        (four *. ey_source iy iz
         +. two *. (ey 0 iy iz +. cl *. half_ K *. (bz 0 iy iz +. bz (-1) iy iz))
         -. two *. ey laserpos iy iz
         -. (dt *. csq A) *. (bx laserpos iy iz -. bx laserpos iy (iz - 1)) /. dz
         +. dt /. eps0 A *. jy laserpos iy iz
         +. (cl *. dt /. dx -. one_ K) *. cl *. bz laserpos iy iz)) m in
    let by_ i j k := m (Fld 1 p (at_ i j k)) in
    put (Fld 1 p (at_ (laserpos - 1) iy iz))
      (one_ K /. ((cl *. dt /. dx +. one_ K) *. cl) *.
        (minus1_ A four *. ez_source iy iz
         -. two *. (ez 0 iy iz -. cl *. half_ K *. (by_ 0 iy iz +. by_ (-1) iy iz))
         +. two *. ez laserpos iy iz
         -. (dt *. csq A) *. (bx laserpos iy iz -. bx laserpos (iy - 1) iz) /. dy
         -. dt /. eps0 A *. jz laserpos iy iz
         +. (cl *. dt /. dx -. one_ K) *. cl *. by_ laserpos iy iz)) m)
    (zrange iz_start iz_end) m) (zrange iy_start iy_end) m1.
End Three.

(** ** lasers *)
(** A pulse has the attributes tstop, y0 and z0, and computes its fields at the boundary from the time and the coordinates
    relative to the centre (laser.py:154-172, 193-217).  [Both]: _CombinedLaser (laser.py:242-267), made by __add__ *)
Inductive laser := Pulse (tstop : Q) (y0 z0 : option Q) (prof : Q -> Q -> Q -> V * V) | Both (l1 l2 : laser).
(** laser.py:252; max(a, b) *)
Fixpoint tstop_of (l : laser) : Q :=
  match l with Pulse t _ _ _ => t | Both a b => if Qle_bool (tstop_of b) (tstop_of a) then tstop_of a else tstop_of b end.
(** laser.py:156, 168, 195-196: self.y0 or sim.Ly/2; the number 0.0 is false in Python *)
Definition centre (o : option Q) (len : Q) : Q :=
  match o with Some v => if Qeq_bool v 0 then (len / 2)%Q else v | None => (len / 2)%Q end.
Section Where.
Variables (Ly Lz qdy qdz : Q) (three : bool).
(** _calculate_bound_fields as a function of the coordinates of a cell: laser.py:166-172, 209-217 (two and three dimensions),
    355-356, 507-508 (None when the pulse is over), 254-266 *)
Fixpoint bound_fields (time : Q) (l : laser) : option (Q -> Q -> V * V) :=
  match l with
  | Pulse tstop y0 z0 prof =>
      if Qle_bool tstop (LIGHT_SPEED * time) then None
      else Some (fun y z => prof time (y - qdy / 2 - centre y0 Ly)%Q (if three then (z - qdz / 2 - centre z0 Lz)%Q else 0%Q))
  | Both l1 l2 =>
      match bound_fields time l1, bound_fields time l2 with
      | None, None => None
      | None, Some s2 => Some s2
      | Some s1, None => Some s1
      | Some s1, Some s2 => Some (fun y z => (fst (s1 y z) +. fst (s2 y z), snd (s1 y z) +. snd (s2 y z)))
      end
  end.
End Where.

(** ** laser.py:109-137: Laser.__call__ of one process *)
(** get_pml(patch.pml_boundary, side) is not None (boundary/utils.py:27-37) *)
Definition has_side (s : pml_side) (l : list pml_side) : bool := existsb (side_eqb s) l.
(** laser.py:122-127: n_pmlxmin = sum(isinstance(pml, PMLXmin) ..) over the patches of the left edge *)
Definition count_xmin (pmls : nat -> list pml_side) (ps : list nat) : nat := length (filter (side_eqb PXmin) (flat_map pmls ps)).
(** [left p]: ipatch_x == 0; [inj src p m]: _update_bfields of one patch; result: the attribute disabled, the magnetic field *)
Definition call (left : nat -> bool) (pmls : nat -> list pml_side) (stop : Q) (src : option (Q -> Q -> V * V))
    (inj : (Q -> Q -> V * V) -> memory V -> nat -> memory V) (time : Q) (mine : list nat) (disabled : bool) (mB : memory V) : bool * memory V :=
  if disabled then (true, mB)
  else if Qle_bool stop (LIGHT_SPEED * time) then (true, mB)
  else
    let edge := filter left mine in
    if (count_xmin pmls edge <? length edge)%nat then (true, mB)
    else (false, fold_left (fun m p => if left p then match src with Some s => inj s m p | None => m end else m) mine mB).
(** all processes one after another: [dis r] is the attribute of the laser object of process r *)
Definition stage (nproc n : nat) (rank : nat -> nat) (one_call : list nat -> bool -> memory V -> bool * memory V) (st : (nat -> bool) * memory V) : (nat -> bool) * memory V :=
  fold_left (fun st r => let '(dis, m) := st in
    let '(d, m') := one_call (filter (fun p => (rank p =? r)%nat) (seq 0 n)) (dis r) m in
    (fun k => if (k =? r)%nat then d else dis k, m')) (seq 0 nproc) st.

Section Call2.
Variables (ax ay : axis) (nx ny ng : Z) (dx dy : V) (qdy : Q) (pmls : nat -> list pml_side).
(** laser.py:121: laserpos = sim.cpml_thickness + 2 *)
Definition laserpos : Z := thick K + 2.
(** laser.py:176-180 *)
Definition row_start (l : list pml_side) : Z := if has_side PYmin l then thick K else 0.
Definition row_end (l : list pml_side) : Z := if has_side PYmax l then ny - thick K else ny.
(** laser.py:174-190: Laser2D._update_bfields; yaxis[0, iy] = (ipatch_y*ny + iy)*dy (fields.py:108-112, patch.py) *)
Definition update_bfields_2d (dt : V) (mE mJ : memory V) (src : Q -> Q -> V * V) (mB : memory V) (p : nat) : memory V :=
  let y iy := (inject_Z (Z.of_nat p / ax_n ax * ny + iy) * qdy)%Q in
  inject_2d nx ny ng dx dy laserpos (row_start (pmls p)) (row_end (pmls p)) (fun iy => fst (src (y iy) 0%Q)) (fun iy => snd (src (y iy) 0%Q)) dt mE mJ mB p.
Definition left2 (p : nat) : bool := (Z.of_nat p mod ax_n ax =? 0).
(** sim.Ly = ny of the simulation * dy *)
Definition Ly2 : Q := (inject_Z (ax_n ay * ny) * qdy)%Q.
Definition sources2 (l : laser) (time : Q) : option (Q -> Q -> V * V) := bound_fields Ly2 0 qdy 0 false time l.
Definition laser_call_2d (l : laser) (time : Q) (dt : V) (mE mJ : memory V) : list nat -> bool -> memory V -> bool * memory V :=
  call left2 pmls (tstop_of l) (sources2 l time) (update_bfields_2d dt mE mJ) time.
Definition laser_stage_2d (nproc : nat) (rank : nat -> nat) (l : laser) (time : Q) (dt : V) (mE mJ : memory V) : (nat -> bool) * memory V -> (nat -> bool) * memory V :=
  stage nproc (Z.to_nat (ax_n ax * ax_n ay)) rank (laser_call_2d l time dt mE mJ).
End Call2.

Section Call3.
Variables (ax ay az : axis) (nx ny nz ng : Z) (dx dy dz : V) (qdy qdz : Q) (pmls : nat -> list pml_side).
Definition col_start (l : list pml_side) : Z := if has_side PZmin l then thick K else 0.
Definition col_end (l : list pml_side) : Z := if has_side PZmax l then nz - thick K else nz.
(** laser.py:219-240: Laser3D._update_bfields *)
Definition update_bfields_3d (dt : V) (mE mJ : memory V) (src : Q -> Q -> V * V) (mB : memory V) (p : nat) : memory V :=
  let y iy := (inject_Z (Z.of_nat p / ax_n ax mod ax_n ay * ny + iy) * qdy)%Q in
  let z iz := (inject_Z (Z.of_nat p / ax_n ax / ax_n ay * nz + iz) * qdz)%Q in
  inject_3d nx ny nz ng dx dy dz laserpos (row_start (pmls p)) (row_end ny (pmls p)) (col_start (pmls p)) (col_end (pmls p))
    (fun iy iz => fst (src (y iy) (z iz))) (fun iy iz => snd (src (y iy) (z iz))) dt mE mJ mB p.
Definition sources3 (l : laser) (time : Q) : option (Q -> Q -> V * V) :=
  bound_fields (inject_Z (ax_n ay * ny) * qdy) (inject_Z (ax_n az * nz) * qdz) qdy qdz true time l.
Definition laser_call_3d (l : laser) (time : Q) (dt : V) (mE mJ : memory V) : list nat -> bool -> memory V -> bool * memory V :=
  call (fun p => Z.of_nat p mod ax_n ax =? 0) pmls (tstop_of l) (sources3 l time) (update_bfields_3d dt mE mJ) time.
Definition laser_stage_3d (nproc : nat) (rank : nat -> nat) (l : laser) (time : Q) (dt : V) (mE mJ : memory V) : (nat -> bool) * memory V -> (nat -> bool) * memory V :=
  stage nproc (Z.to_nat (ax_n ax * ax_n ay * ax_n az)) rank (laser_call_3d l time dt mE mJ).
End Call3.
End Laser.
Arguments Pulse {V}. Arguments Both {V}.
