(** Model of callbacks that set up particles: LoadParticles, SetMomentum, SetTemperature, SetMomentumAndTemperature
    (src/lambdapic/callback/utils.py:842-1178) with ParticlesBase.extend (core/particles.py:143-170) and the bounds of a
    patch (core/patch/patch.py:103-148, core/boundary/utils.py get_pml).

    Coordinates and attribute values are exact rationals; None stands for NaN.  Square roots, the samples of the
    Maxwell-Juettner distribution and identifiers are arbitrary functions.  The flags [extended], [event] and the lists
    rebuilt by sim.update_lists() are the subject of C48 and C63. *)
From Verif Require Import Base.
From Coq Require Import QArith String.
Local Open Scope nat_scope.
Local Open Scope list_scope.

Inductive error := ValueError | IndexError | AttributeError | ZeroDivision.
Inductive res (A : Type) := Ok (a : A) | Raise (e : error).
Arguments Ok {A} _. Arguments Raise {A} _.
Definition bind {A B} (r : res A) (f : A -> res B) : res B := match r with Ok a => f a | Raise e => Raise e end.
Fixpoint mapM {A B} (f : A -> res B) (l : list A) : res (list B) :=
  match l with
  | [] => Ok []
  | a :: l' => bind (f a) (fun b => bind (mapM f l') (fun bs => Ok (b :: bs)))
  end.
Definition mem (a : string) (l : list string) : bool := existsb (String.eqb a) l.

(** one slot of the particle arrays: the attribute arrays at one index, and is_dead there *)
Record slot := mkSlot { val : string -> option Q; dead : bool }.
Definition setv (a : string) (v : option Q) (s : slot) : slot :=
  mkSlot (fun b => if String.eqb a b then v else val s b) (dead s).
(** the particles of one species in one patch: .attrs, the arrays, and _npart_created *)
Record store := mkStore { attrs : list string; slots : list slot; created : nat }.
(** one axis of a patch: x0, nx, dx and the thickness of the PML on its lower and upper side *)
Record side := mkSide { o : Q; n : nat; d : Q; pml_lo : option nat; pml_hi : option nat }.
Record patch := mkPatch { sx : side; sy : side; sz : side; parts : list store }.

Definition qn (k : nat) : Q := inject_Z (Z.of_nat k).
(** patch.py:103-148 *)
Definition lower (s : side) : Q := match pml_lo s with Some t => o s + qn t * d s | None => o s end.
Definition upper (s : side) : Q :=
  let m := (o s + (qn (n s) - 1) * d s)%Q in match pml_hi s with Some t => m - qn t * d s | None => m end.
(** x >= p.xmin - p.dx/2 & x < p.xmax + p.dx/2, utils.py:1120-1126 *)
Definition qltb (a b : Q) : bool := negb (Qle_bool b a).
Definition within (s : side) (x : Q) : bool :=
  Qle_bool (lower s - d s / 2) x && qltb x (upper s + d s / 2).

(** a row of the file: the values of its datasets at one index *)
Definition row := string -> Q.
Definition inbound (dim : nat) (p : patch) (r : row) : bool :=
  within (sx p) (r "x"%string) && within (sy p) (r "y"%string)
  && (if dim =? 3 then within (sz p) (r "z"%string) else true).

Section Load.
Variable root : Q -> Q.            (* numpy.sqrt *)
Variable idv : store -> nat -> Q.  (* the identifier with this number *)
Variable dim : nat.                (* sim.dimension, 2 or 3 *)

(** ParticlesBase.extend for n > 0, particles.py:143-170 *)
Definition extend (k : nat) (s : store) : store :=
  mkStore (attrs s)
    (slots s ++ map (fun i => setv "_id" (Some (idv s (created s + i))) (setv "w" (Some 0%Q) (mkSlot (fun _ => None) true))) (seq 0 k))
    (created s + k).
(** a[-k:] = vs *)
Definition set_last (a : string) (vs : list (option Q)) (l : list slot) : list slot :=
  let m := List.length l - List.length vs in
  firstn m l ++ map (fun '(v, s) => setv a v s) (combine vs (skipn m l)).
(** getattr(part, attr)[-npart:] = attr_data: AttributeError when the particles have no such array *)
Definition assign (rows : list row) (r : res store) (a : string) : res store :=
  bind r (fun s => if mem a (attrs s)
                   then Ok (mkStore (attrs s) (set_last a (map (fun w => Some (w a)) rows) (slots s)) (created s))
                   else Raise AttributeError).
Definition o2 (f : Q -> Q -> Q) (a b : option Q) : option Q :=
  match a, b with Some x, Some y => Some (f x y) | _, _ => None end.
Definition usq (s : slot) : option Q :=
  let sq a := match val s a with Some x => Some (x * x)%Q | None => None end in
  o2 Qplus (o2 Qplus (o2 Qplus (Some 1%Q) (sq "ux"%string)) (sq "uy"%string)) (sq "uz"%string).
Definition omap (f : Q -> Q) (a : option Q) : option Q := match a with Some x => Some (f x) | None => None end.
(** part.inv_gamma[-npart:] = np.sqrt(...), utils.py:1143-1144 *)
Definition gamma_last (k : nat) (l : list slot) : list slot :=
  let m := List.length l - k in firstn m l ++ map (fun s => setv "inv_gamma" (omap root (usq s)) s) (skipn m l).
(** part.is_dead[-npart:] = False *)
Definition alive_last (k : nat) (l : list slot) : list slot :=
  let m := List.length l - k in firstn m l ++ map (fun s => mkSlot (val s) false) (skipn m l).
Definition on_slots (f : list slot -> list slot) (s : store) : store := mkStore (attrs s) (f (slots s)) (created s).

(** one patch and one batch, utils.py:1119-1147 *)
Definition load_patch (names : list string) (ispec : nat) (batch : list row) (p : patch) : res patch :=
  let rows := filter (inbound dim p) batch in
  if List.length rows =? 0 then Ok p else
  match nth_error (parts p) ispec with
  | None => Raise IndexError
  | Some part =>
      bind (fold_left (assign rows) names (Ok (extend (List.length rows) part))) (fun s =>
      let s := if mem "ux" names || mem "uy" names || mem "uz" names then on_slots (gamma_last (List.length rows)) s else s in
      Ok (mkPatch (sx p) (sy p) (sz p) (upd ispec (on_slots (alive_last (List.length rows)) s) (parts p))))
  end.
(** range(0, total, batch_size), utils.py:1104-1105 *)
Fixpoint chunks {A} (fuel size : nat) (l : list A) : list (list A) :=
  match fuel, l with
  | O, _ | _, [] => []
  | S fuel', _ => firstn size l :: chunks fuel' size (skipn size l)
  end.
(** _filter_attributes, utils.py:1150-1175; [keys] are the names of the datasets *)
Definition filter_attributes (keys : list string) (ps : list patch) : res (list string) :=
  if negb (mem "x" keys) then Raise ValueError
  else if negb (mem "y" keys) then Raise ValueError
  else if (dim =? 3) && negb (mem "z" keys) then Raise ValueError
  else if negb (mem "w" keys) then Raise ValueError
  else match ps with
       | [] => Raise IndexError
       | p :: _ => match parts p with
                   | [] => Raise IndexError
                   | first :: _ =>
                       Ok (filter (fun a => mem a (attrs first) && negb (String.eqb a "_id") && negb (String.eqb a "inv_gamma")) keys)
                   end
       end.
(** _load_from_file on one process, utils.py:1098-1148 *)
Definition load (keys : list string) (ispec batch_size : nat) (rows : list row) (ps : list patch) : res (list patch) :=
  bind (filter_attributes keys ps) (fun names =>
  fold_left (fun r batch => bind r (mapM (load_patch names ispec batch)))
            (chunks (List.length rows) batch_size rows) (Ok ps)).

(** ** SetMomentum, SetTemperature *)
Definition onalive (f : slot -> slot) (l : list slot) : list slot := map (fun s => if dead s then s else f s) l.
Definition inverse_gamma (s : slot) : slot := setv "inv_gamma" (omap (fun q => 1 / root q)%Q (usq s)) s.
Definition put_u (add : bool) (ux uy uz : Q) (s : slot) : slot :=
  let v a q := if add then omap (fun x => x + q)%Q (val s a) else Some q in
  inverse_gamma (setv "uz" (v "uz"%string uz) (setv "uy" (v "uy"%string uy) (setv "ux" (v "ux"%string ux) s))).
(** one species of one patch; utils.py:868-890 *)
Definition set_momentum (add : bool) (u : Q * Q * Q) (l : list slot) : list slot :=
  let '(ux, uy, uz) := u in onalive (put_u add ux uy uz) l.
(** the k-th alive slot gets the k-th sample, stretched, utils.py:958-976; the division is by temperature[0] *)
Fixpoint set_samples (add : bool) (us : nat -> Q * Q * Q) (t : Q * Q * Q) (k : nat) (l : list slot) : list slot :=
  match l with
  | [] => []
  | s :: l' =>
      if dead s then s :: set_samples add us t k l'
      else let '(ux, uy, uz) := us k in let '(t0, t1, t2) := t in
           put_u add ux (uy * t1 / t0) (uz * t2 / t0) s :: set_samples add us t (S k) l'
  end.
Definition set_temperature (add : bool) (us : nat -> Q * Q * Q) (t : Q * Q * Q) (l : list slot) : list slot :=
  set_samples add us t 0 l.
(** utils.py:915-920 *)
Definition set_momentum_temperature (add : bool) (u : Q * Q * Q) (us : nat -> Q * Q * Q) (t : Q * Q * Q) (l : list slot) : list slot :=
  set_temperature true us t (set_momentum add u l).
End Load.
