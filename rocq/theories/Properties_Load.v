(** C39 (loading particles), C67, C68 (loaded values, other species), C69, C70 (momenta and temperatures).
    Closed under the global context. *)
From Verif Require Import Base M_Load S_Load P_Load.
From Coq Require Import QArith String Lqa.
Local Open Scope nat_scope.
Local Open Scope list_scope.

(** Every particle of the file inside the domain gets exactly one slot in exactly one patch of one process, those outside
    get none; all slots that existed stay as they were, in every species; new slots are alive and carry the values of the
    file. *)
Theorem C39_every_particle_once :
  forall root idv dim ax ay az keys ispec batch rows procs places sig,
  axis_ok ax -> axis_ok ay -> (dim = 3 /\ axis_ok az \/ dim = 2 /\ count az = 1) ->
  tiles ax ay az (List.concat procs) places ->
  enough dim keys -> 0 < batch ->
  Forall (fun ps => ps <> []) procs -> Forall (fun p => map attrs (parts p) = sig) (List.concat procs) ->
  ispec < List.length sig -> nth 0 sig [] = nth ispec sig [] ->
  exists procs' news,
    Forall2 (fun ps ps' => load root idv dim keys ispec batch rows ps = Ok ps') procs procs' /\
    List.length (List.concat procs') = List.length (List.concat procs) /\
    Forall2 (fun '(p, p') new => loaded (wanted keys (nth ispec sig [])) ispec p p' new)
            (combine (List.concat procs) (List.concat procs')) news /\
    Permutation (List.concat news) (filter (inside dim ax ay az) rows).
Proof. intros root idv dim ax ay az keys ispec batch rows procs places sig. apply everywhere. Qed.
Print Assumptions C39_every_particle_once.

(** two patches of four cells, the left one with an absorbing layer of one cell; one of three rows lies in the layer *)
Definition base_attrs : list string := ["x"; "y"; "z"; "w"; "ux"; "uy"; "uz"; "inv_gamma"; "_id"]%string.
Definition demo_patch (x : Q) (pml : option nat) (species : list (list string)) : patch :=
  mkPatch (mkSide x 4 1 pml None) (mkSide 0 4 1 None None) (mkSide 0 1 1 None None) (map (fun a => mkStore a [] 0) species).
Definition demo_row (x : Q) : row := fun a => if String.eqb a "x" then x else if String.eqb a "ux" then (4#3)%Q else 1%Q.
Definition demo_keys : list string := ["x"; "y"; "w"; "ux"]%string.
Definition demo_root (q : Q) : Q := if Qeq_bool q (25#9) then (5#3)%Q else q.
Definition show (r : res (list patch)) (names : list string) : list (list (list (option Q))) :=
  match r with
  | Ok ps => map (fun p => map (fun s => map (fun a => val s a) names) (slots (nth 0 (parts p) (mkStore [] [] 0)))) ps
  | Raise _ => []
  end.
Example C39_example :
  let ax := mkAxis 0 2 4 1 (Some 1) None in let ay := mkAxis 0 1 4 1 None None in let az := mkAxis 0 1 1 1 None None in
  let ps := [demo_patch 0 (Some 1) [base_attrs]; demo_patch 4 None [base_attrs]] in
  tiles ax ay az ps [(0, 0, 0); (1, 0, 0)] /\
  show (load demo_root (fun _ _ => 0%Q) 2 demo_keys 0 2 [demo_row 0; demo_row 2; demo_row (7#2)] ps) ["x"; "w"]%string
  = [[[Some 2%Q; Some 1%Q]]; [[Some (7#2)%Q; Some 1%Q]]].
Proof.
  split; [|vm_compute; reflexivity]. split; [|split].
  - constructor; [|constructor; [|constructor]]; cbn [count]; (split; [lia|]; split; [lia|]; split; [lia|]; split; [|split]);
      split; try reflexivity; split; try reflexivity; split; try reflexivity; split; reflexivity.
  - constructor; [|constructor; [intros []|constructor]]. intros [E|[]]; discriminate.
  - cbn [count]. intros i j k Hi Hj Hk. assert (j = 0 /\ k = 0) as [-> ->] by lia. destruct i as [|[|i]]; [left; reflexivity|right; left; reflexivity|lia].
Qed.

(** C67 fails: the square root is stored without inverting it, and attributes missing in the file are not numbers. *)
Theorem C67_inverse_gamma_refuted :
  forall root, root (25#9)%Q = (5#3)%Q ->
  exists ps', load root (fun _ _ => 0%Q) 2 ["x"; "y"; "w"; "ux"; "uy"; "uz"]%string 0 10
                [fun a => if String.eqb a "ux" then (4#3)%Q else 0%Q] [demo_patch 0 None [base_attrs]] = Ok ps' /\
  exists g, show (Ok ps') ["ux"; "uy"; "uz"; "inv_gamma"]%string = [[[Some (4#3); Some 0; Some 0; Some (root g)]]]%Q
            /\ (g == 25#9)%Q.
Proof.
  intros root H. eexists. split; [vm_compute; reflexivity|]. eexists. split; [vm_compute; reflexivity|]. reflexivity.
Qed.
Print Assumptions C67_inverse_gamma_refuted.
Theorem C67_missing_momentum_refuted :
  forall root, exists ps', load root (fun _ _ => 0%Q) 2 ["x"; "y"; "w"]%string 0 10 [demo_row 2] [demo_patch 0 None [base_attrs]] = Ok ps' /\
  show (Ok ps') ["x"; "ux"; "uy"; "uz"; "inv_gamma"]%string = [[[Some 2%Q; None; None; None; None]]].
Proof. intro root. eexists. split; vm_compute; reflexivity. Qed.
Print Assumptions C67_missing_momentum_refuted.

(** C68 fails: a process without patches raises; the attributes are taken from the first species, so a value of the file
    can be dropped or the loading can raise. *)
Theorem C68_empty_process_refuted :
  forall root idv dim keys ispec batch rows, enough dim keys ->
  load root idv dim keys ispec batch rows [] = Raise IndexError.
Proof.
  intros root idv dim keys ispec batch rows [Kx [Ky [Kw Kz]]]. unfold load, filter_attributes.
  rewrite (mem_in _ _ Kx), (mem_in _ _ Ky), (mem_in _ _ Kw). cbn [negb].
  destruct (Nat.eqb_spec dim 3) as [E|E]; [rewrite (mem_in _ _ (Kz E))|]; reflexivity.
Qed.
Print Assumptions C68_empty_process_refuted.
Theorem C68_first_species_refuted :
  forall root,
  (exists ps', load root (fun _ _ => 0%Q) 2 ["x"; "y"; "w"; "tau"]%string 1 10 [demo_row 2]
                 [demo_patch 0 None [base_attrs; base_attrs ++ ["tau"%string]]] = Ok ps' /\
     map (fun p => map (fun s => val s "tau"%string) (slots (nth 1 (parts p) (mkStore [] [] 0)))) ps' = [[None]]) /\
  load root (fun _ _ => 0%Q) 2 ["x"; "y"; "w"; "tau"]%string 1 10 [demo_row 2]
    [demo_patch 0 None [base_attrs ++ ["tau"%string]; base_attrs]] = Raise AttributeError.
Proof. intro root. split; [eexists; split; vm_compute; reflexivity|vm_compute; reflexivity]. Qed.
Print Assumptions C68_first_species_refuted.

(** SetMomentum, SetTemperature and both together change only momentum and inverse Lorentz factor of alive particles and
    leave the two consistent. *)
Theorem C69_set_momentum : forall root add u l, Forall2 (pushed root (target add u)) l (set_momentum root add u l).
Proof. exact set_momentum_ok. Qed.
Print Assumptions C69_set_momentum.
Theorem C69_set_temperature : forall root add us t l,
  each (fun k => pushed root (target add (stretched us t k))) 0 l (set_temperature root add us t l).
Proof. intros. apply set_samples_ok. Qed.
Print Assumptions C69_set_temperature.
Theorem C69_set_both : forall root add u us t l,
  each (fun k => pushed root (both add u (stretched us t k))) 0 l (set_momentum_temperature root add u us t l).
Proof. exact set_both_ok. Qed.
Print Assumptions C69_set_both.
Example C69_example :
  let s b := mkSlot (fun _ => Some 0%Q) b in
  map (fun s => (option_map Qred (val s "ux"%string), option_map Qred (val s "inv_gamma"%string)))
      (set_momentum demo_root true (4#3, 0, 0)%Q [s false; s true])
  = [(Some (4#3)%Q, Some (3#5)%Q); (Some 0%Q, Some 0%Q)].
Proof. vm_compute. reflexivity. Qed.

(** C70 fails for all samples: with isotropic samples the mean square along y is the one along x times the square of the
    ratio of the temperatures. *)
Theorem C70_anisotropic_temperature_refuted :
  forall root us t0 t1 t2 l, ~ (t0 == 0)%Q -> (sums py us 0 l == sums px us 0 l)%Q ->
  (square_sum "uy" (set_temperature root false us (t0, t1, t2) l)
   == (t1 / t0) * (t1 / t0) * square_sum "ux" (set_temperature root false us (t0, t1, t2) l))%Q.
Proof.
  intros root us t0 t1 t2 l H0 H. destruct (stretch_sums root us t0 t1 t2 l H0 0) as [E1 E2]. unfold set_temperature.
  rewrite E1, E2, H. reflexivity.
Qed.
Print Assumptions C70_anisotropic_temperature_refuted.
