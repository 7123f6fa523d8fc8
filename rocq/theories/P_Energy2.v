(** Energy of the fields, part 2: the magnetic correction is bounded by the magnetic energy. *)
From Coq Require Import QArith Qcanon Lqa.
From Verif Require Import Base M_Layout S_Energy P_Gauss2 P_Energy1.
Local Open Scope Qc_scope.

Lemma qc_sq (x : Qc) : 0 <= x * x.
Proof. unfold Qcle. rewrite this_mult. change (this 0) with 0%Q. nra. Qed.
Lemma qc_le_add (x y : Qc) : 0 <= y -> x <= x + y.
Proof. unfold Qcle. rewrite this_plus. change (this 0) with 0%Q. lra. Qed.
Lemma qc_le_sum x y z : 0 <= z -> y = x + z -> x <= y.
Proof. intros H ->. apply qc_le_add. exact H. Qed.

Section Grid.
Variables Nx Ny Nz : Z.
Variables dx dy dz : Qc.
Local Notation tot := (tot Nx Ny Nz). Local Notation per3d := (per3d Nx Ny Nz).
Local Notation bx := (bx dx). Local Notation by_ := (by_ dy). Local Notation bz := (bz dz).
Local Notation fx := (fx dx). Local Notation fy := (fy dy). Local Notation fz := (fz dz).
Local Notation dot := (dot Nx Ny Nz). Local Notation cb := (cb dx dy dz). Local Notation pervec := (pervec Nx Ny Nz).
Definition sq2 (f : Z -> Z -> Z -> Qc) : Qc := tot (fun i j k => f i j k * f i j k).
Lemma sq2_pos f : 0 <= sq2 f.
Proof. unfold sq2. apply Qcle_trans with (tot (fun _ _ _ => 0)); [|apply tot_le; intros; apply qc_sq].
  rewrite (tot_ext _ _ _ _ (fun i j k => 0 * (fun _ _ _ => 0) i j k)) by (intros; ring). rewrite tot_scale. rewrite Qcmult_0_l. apply Qcle_refl. Qed.
Lemma sq2_fx f : per3d f -> sq2 (fx f) = sq2 (bx f).
Proof.
  intro P. unfold sq2. pose proof (per_bx Nx Ny Nz dx f P) as (P1 & P2 & P3). symmetry.
  rewrite <- (tot_x Nx Ny Nz (fun i j k => bx f i j k * bx f i j k)) by (repeat split; intros; rewrite ?P1, ?P2, ?P3; reflexivity).
  apply tot_ext. intros i j k. unfold P_Energy1.bx, P_Energy1.fx. replace (i + 1 - 1)%Z with i by lia. reflexivity.
Qed.
Lemma sq2_fy f : per3d f -> sq2 (fy f) = sq2 (by_ f).
Proof.
  intro P. unfold sq2. pose proof (per_by Nx Ny Nz dy f P) as (P1 & P2 & P3). symmetry.
  rewrite <- (tot_y Nx Ny Nz (fun i j k => by_ f i j k * by_ f i j k)) by (repeat split; intros; rewrite ?P1, ?P2, ?P3; reflexivity).
  apply tot_ext. intros i j k. unfold P_Energy1.by_, P_Energy1.fy. replace (j + 1 - 1)%Z with j by lia. reflexivity.
Qed.
Lemma sq2_fz f : per3d f -> sq2 (fz f) = sq2 (bz f).
Proof.
  intro P. unfold sq2. pose proof (per_bz Nx Ny Nz dz f P) as (P1 & P2 & P3). symmetry.
  rewrite <- (tot_z Nx Ny Nz (fun i j k => bz f i j k * bz f i j k)) by (repeat split; intros; rewrite ?P1, ?P2, ?P3; reflexivity).
  apply tot_ext. intros i j k. unfold P_Energy1.bz, P_Energy1.fz. replace (k + 1 - 1)%Z with k by lia. reflexivity.
Qed.
Definition four : Qc := (1 + 1) * (1 + 1).
Lemma bound_x f : per3d f -> sq2 (bx f) <= four * (/ dx * / dx) * sq2 f.
Proof.
  intro P. destruct P as (P1 & P2 & P3). unfold sq2.
  assert (tot (fun i j k => f (i - 1)%Z j k * f (i - 1)%Z j k) = tot (fun i j k => f i j k * f i j k)) as S.
  { rewrite <- (tot_x Nx Ny Nz (fun i j k => f (i - 1)%Z j k * f (i - 1)%Z j k)).
    - apply tot_ext. intros. replace (i + 1 - 1)%Z with i by lia. reflexivity.
    - repeat split; intros; rewrite ?P2, ?P3; try reflexivity. replace (i + Nx - 1)%Z with (i - 1 + Nx)%Z by lia. rewrite P1. reflexivity. }
  apply Qcle_trans with (tot (fun i j k => (1 + 1) * (/ dx * / dx) * (f i j k * f i j k) + (1 + 1) * (/ dx * / dx) * (f (i - 1)%Z j k * f (i - 1)%Z j k))).
  - apply tot_le. intros i j k. apply (qc_le_sum _ _ ((/ dx * (f i j k + f (i - 1)%Z j k)) * (/ dx * (f i j k + f (i - 1)%Z j k)))); [apply qc_sq|]. unfold P_Energy1.bx, Qcdiv. ring.
  - rewrite tot_add, !tot_scale, S. unfold four. apply (qc_le_sum _ _ 0); [apply Qcle_refl|ring].
Qed.
Lemma bound_y f : per3d f -> sq2 (by_ f) <= four * (/ dy * / dy) * sq2 f.
Proof.
  intro P. destruct P as (P1 & P2 & P3). unfold sq2.
  assert (tot (fun i j k => f i (j - 1)%Z k * f i (j - 1)%Z k) = tot (fun i j k => f i j k * f i j k)) as S.
  { rewrite <- (tot_y Nx Ny Nz (fun i j k => f i (j - 1)%Z k * f i (j - 1)%Z k)).
    - apply tot_ext. intros. replace (j + 1 - 1)%Z with j by lia. reflexivity.
    - repeat split; intros; rewrite ?P1, ?P3; try reflexivity. replace (j + Ny - 1)%Z with (j - 1 + Ny)%Z by lia. rewrite P2. reflexivity. }
  apply Qcle_trans with (tot (fun i j k => (1 + 1) * (/ dy * / dy) * (f i j k * f i j k) + (1 + 1) * (/ dy * / dy) * (f i (j - 1)%Z k * f i (j - 1)%Z k))).
  - apply tot_le. intros i j k. apply (qc_le_sum _ _ ((/ dy * (f i j k + f i (j - 1)%Z k)) * (/ dy * (f i j k + f i (j - 1)%Z k)))); [apply qc_sq|]. unfold P_Energy1.by_, Qcdiv. ring.
  - rewrite tot_add, !tot_scale, S. unfold four. apply (qc_le_sum _ _ 0); [apply Qcle_refl|ring].
Qed.
Lemma bound_z f : per3d f -> sq2 (bz f) <= four * (/ dz * / dz) * sq2 f.
Proof.
  intro P. destruct P as (P1 & P2 & P3). unfold sq2.
  assert (tot (fun i j k => f i j (k - 1)%Z * f i j (k - 1)%Z) = tot (fun i j k => f i j k * f i j k)) as S.
  { rewrite <- (tot_z Nx Ny Nz (fun i j k => f i j (k - 1)%Z * f i j (k - 1)%Z)).
    - apply tot_ext. intros. replace (k + 1 - 1)%Z with k by lia. reflexivity.
    - repeat split; intros; rewrite ?P1, ?P2; try reflexivity. replace (k + Nz - 1)%Z with (k - 1 + Nz)%Z by lia. rewrite P3. reflexivity. }
  apply Qcle_trans with (tot (fun i j k => (1 + 1) * (/ dz * / dz) * (f i j k * f i j k) + (1 + 1) * (/ dz * / dz) * (f i j (k - 1)%Z * f i j (k - 1)%Z))).
  - apply tot_le. intros i j k. apply (qc_le_sum _ _ ((/ dz * (f i j k + f i j (k - 1)%Z)) * (/ dz * (f i j k + f i j (k - 1)%Z)))); [apply qc_sq|]. unfold P_Energy1.bz, Qcdiv. ring.
  - rewrite tot_add, !tot_scale, S. unfold four. apply (qc_le_sum _ _ 0); [apply Qcle_refl|ring].
Qed.
(** mixed derivatives *)
Lemma cross_yz f g : per3d f -> per3d g -> tot (fun i j k => by_ f i j k * bz g i j k) = tot (fun i j k => fz f i j k * fy g i j k).
Proof.
  intros Pf Pg. rewrite parts_y by (auto using per_bz). rewrite (tot_ext _ _ _ (fun i j k => fz f i j k * fy g i j k) (fun i j k => fy g i j k * fz f i j k)) by (intros; ring).
  pose proof (parts_z Nx Ny Nz dz (fy g) f (per_fy Nx Ny Nz dy g Pg) Pf) as K.
  rewrite (tot_ext _ _ _ (fun i j k => bz (fy g) i j k * f i j k) (fun i j k => f i j k * fy (bz g) i j k)) in K by (intros; unfold P_Energy1.bz, P_Energy1.fy, Qcdiv; ring).
  rewrite K. ring.
Qed.
Lemma cross_zx f g : per3d f -> per3d g -> tot (fun i j k => bz f i j k * bx g i j k) = tot (fun i j k => fx f i j k * fz g i j k).
Proof.
  intros Pf Pg. rewrite parts_z by (auto using per_bx). rewrite (tot_ext _ _ _ (fun i j k => fx f i j k * fz g i j k) (fun i j k => fz g i j k * fx f i j k)) by (intros; ring).
  pose proof (parts_x Nx Ny Nz dx (fz g) f (per_fz Nx Ny Nz dz g Pg) Pf) as K.
  rewrite (tot_ext _ _ _ (fun i j k => bx (fz g) i j k * f i j k) (fun i j k => f i j k * fz (bx g) i j k)) in K by (intros; unfold P_Energy1.bx, P_Energy1.fz, Qcdiv; ring).
  rewrite K. ring.
Qed.
Lemma cross_xy f g : per3d f -> per3d g -> tot (fun i j k => bx f i j k * by_ g i j k) = tot (fun i j k => fy f i j k * fx g i j k).
Proof.
  intros Pf Pg. rewrite parts_x by (auto using per_by). rewrite (tot_ext _ _ _ (fun i j k => fy f i j k * fx g i j k) (fun i j k => fx g i j k * fy f i j k)) by (intros; ring).
  pose proof (parts_y Nx Ny Nz dy (fx g) f (per_fx Nx Ny Nz dx g Pg) Pf) as K.
  rewrite (tot_ext _ _ _ (fun i j k => by_ (fx g) i j k * f i j k) (fun i j k => f i j k * fx (by_ g) i j k)) in K by (intros; unfold P_Energy1.by_, P_Energy1.fx, Qcdiv; ring).
  rewrite K. ring.
Qed.
Definition grad (u : vec) : Qc :=
  (sq2 (bx (u 0%nat)) + sq2 (bx (u 1%nat)) + sq2 (bx (u 2%nat))) + (sq2 (by_ (u 0%nat)) + sq2 (by_ (u 1%nat)) + sq2 (by_ (u 2%nat))) + (sq2 (bz (u 0%nat)) + sq2 (bz (u 1%nat)) + sq2 (bz (u 2%nat))).
Lemma curl_grad B : pervec B -> dot (cb B) (cb B) + sq2 (fun i j k => fx (B 0%nat) i j k + fy (B 1%nat) i j k + fz (B 2%nat) i j k) = grad B.
Proof.
  intro P. unfold grad. rewrite <- (sq2_fx (B 0%nat)), <- (sq2_fy (B 1%nat)), <- (sq2_fz (B 2%nat)) by apply P.
  assert (dot (cb B) (cb B) = (sq2 (by_ (B 2%nat)) + sq2 (bz (B 1%nat)) + - (1 + 1) * tot (fun i j k => by_ (B 2%nat) i j k * bz (B 1%nat) i j k)) +
     (sq2 (bz (B 0%nat)) + sq2 (bx (B 2%nat)) + - (1 + 1) * tot (fun i j k => bz (B 0%nat) i j k * bx (B 2%nat) i j k)) +
     (sq2 (bx (B 1%nat)) + sq2 (by_ (B 0%nat)) + - (1 + 1) * tot (fun i j k => bx (B 1%nat) i j k * by_ (B 0%nat) i j k))) as ->.
  { unfold sq2, P_Energy1.dot. rewrite <- !tot_scale, <- !tot_add. apply tot_ext. intros. unfold P_Energy1.cb. ring. }
  rewrite cross_yz, cross_zx, cross_xy by apply P.
  assert (sq2 (fun i j k => fx (B 0%nat) i j k + fy (B 1%nat) i j k + fz (B 2%nat) i j k) =
     sq2 (fx (B 0%nat)) + sq2 (fy (B 1%nat)) + sq2 (fz (B 2%nat)) + ((1 + 1) * tot (fun i j k => fz (B 2%nat) i j k * fy (B 1%nat) i j k) +
       (1 + 1) * tot (fun i j k => fx (B 0%nat) i j k * fz (B 2%nat) i j k) + (1 + 1) * tot (fun i j k => fy (B 1%nat) i j k * fx (B 0%nat) i j k))) as ->.
  { unfold sq2. rewrite <- !tot_scale, <- !tot_add. apply tot_ext. intros. ring. }
  ring.
Qed.
Lemma dot_sq u : dot u u = sq2 (u 0%nat) + sq2 (u 1%nat) + sq2 (u 2%nat).
Proof. unfold P_Energy1.dot, sq2. rewrite <- !tot_add. reflexivity. Qed.
Lemma dot_pos u : 0 <= dot u u.
Proof. rewrite dot_sq. pose proof (sq2_pos (u 0%nat)) as A. pose proof (sq2_pos (u 1%nat)) as B. pose proof (sq2_pos (u 2%nat)) as C.
  unfold Qcle in *. rewrite !this_plus. change (this 0) with 0%Q in *. lra. Qed.
(** a is the largest (1/dx)^2 + (1/dy)^2 + (1/dz)^2 that counts; z is false when nothing depends on z *)
Lemma curl_bound B (z : bool) : pervec B -> (z = false -> forall f i j k, B f i j k = B f i j 0%Z) ->
  dot (cb B) (cb B) <= four * (/ dx * / dx + / dy * / dy + (if z then / dz * / dz else 0)) * dot B B.
Proof.
  intros P HZ. pose proof (curl_grad B P) as G. pose proof (sq2_pos (fun i j k => fx (B 0%nat) i j k + fy (B 1%nat) i j k + fz (B 2%nat) i j k)) as S.
  assert (forall f, sq2 (bz (B f)) <= four * (if z then / dz * / dz else 0) * sq2 (B f)) as Z.
  { intro f. destruct z; [apply bound_z, P|].
    assert (sq2 (bz (B f)) = 0) as ->; [|apply (qc_le_sum _ _ 0); [apply Qcle_refl|ring]].
    unfold sq2. rewrite (tot_ext _ _ _ _ (fun i j k => 0 * (fun _ _ _ => 0) i j k)).
    - rewrite tot_scale. ring.
    - intros i j k. unfold P_Energy1.bz. rewrite (HZ eq_refl f i j k), (HZ eq_refl f i j (k - 1)%Z). unfold Qcdiv. ring. }
  pose proof (Z 0%nat) as Z0. pose proof (Z 1%nat) as Z1. pose proof (Z 2%nat) as Z2. clear Z.
  pose proof (bound_x (B 0%nat) (P _)) as X0. pose proof (bound_x (B 1%nat) (P _)) as X1. pose proof (bound_x (B 2%nat) (P _)) as X2.
  pose proof (bound_y (B 0%nat) (P _)) as Y0. pose proof (bound_y (B 1%nat) (P _)) as Y1. pose proof (bound_y (B 2%nat) (P _)) as Y2.
  apply Qcle_trans with (grad B); [apply (qc_le_sum _ _ _ S); symmetry; exact G|]. clear G S. unfold grad. rewrite dot_sq.
  match goal with |- _ <= ?r => replace r with
    ((four * (/ dx * / dx) * sq2 (B 0%nat) + four * (/ dx * / dx) * sq2 (B 1%nat) + four * (/ dx * / dx) * sq2 (B 2%nat)) +
     (four * (/ dy * / dy) * sq2 (B 0%nat) + four * (/ dy * / dy) * sq2 (B 1%nat) + four * (/ dy * / dy) * sq2 (B 2%nat)) +
     (four * (if z then / dz * / dz else 0) * sq2 (B 0%nat) + four * (if z then / dz * / dz else 0) * sq2 (B 1%nat) + four * (if z then / dz * / dz else 0) * sq2 (B 2%nat))) by ring end.
  repeat apply Qcplus_le_compat; assumption.
Qed.

(** the conserved quantity lies between the energies *)
Section Scheme.
Variables h cs q : Qc.
Variable z : bool.
Hypothesis CS : 0 <= cs.
Hypothesis CFL : cs * (four * (h * h)) * (/ dx * / dx + / dy * / dy + (if z then / dz * / dz else 0)) <= q.
Lemma ham_low E B : pervec B -> (z = false -> forall f i j k, B f i j k = B f i j 0%Z) -> dot E E + cs * (1 - q) * dot B B <= ham Nx Ny Nz dx dy dz h cs E B.
Proof using CS CFL.
  intros P HZ. pose proof (curl_bound B z P HZ) as K. unfold ham. set (a := / dx * / dx + / dy * / dy + (if z then / dz * / dz else 0)) in *. clearbody a.
  pose proof (dot_pos B) as L. pose proof (qc_sq (cs * h)) as M. set (x := dot B B) in *. set (y := dot (cb B) (cb B)) in *. clearbody x y. set (w := (cs * h) * (cs * h)) in *.
  assert (w * y <= w * (four * a * x)) as N.
  { rewrite !(Qcmult_comm w). apply Qcmult_le_compat_r; assumption. }
  assert (w * (four * a * x) = cs * x * (cs * (four * (h * h)) * a)) as R by (unfold w; ring). rewrite R in N.
  assert (cs * x * (cs * (four * (h * h)) * a) <= cs * x * q) as O.
  { rewrite !(Qcmult_comm (cs * x)). apply Qcmult_le_compat_r; [exact CFL|]. replace 0 with (0 * x) by ring. apply Qcmult_le_compat_r; assumption. }
  pose proof (Qcle_trans _ _ _ N O) as U. clear - U. unfold Qcle in *. rewrite ?this_minus, ?this_plus, ?this_minus, ?this_mult in *. rewrite ?this_minus in *. change (this 1) with 1%Q. lra.
Qed.
Lemma ham_high E B : ham Nx Ny Nz dx dy dz h cs E B <= dot E E + cs * dot B B.
Proof using.
  unfold ham. pose proof (dot_pos (cb B)) as L. pose proof (qc_sq (cs * h)) as M. apply (qc_le_sum _ _ ((cs * h) * (cs * h) * dot (cb B) (cb B))); [|ring].
  replace 0 with (0 * dot (cb B) (cb B)) by ring. apply Qcmult_le_compat_r; assumption.
Qed.
End Scheme.
End Grid.
