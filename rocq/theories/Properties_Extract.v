(** C103, C104: the density array of [ExtractSpeciesDensity].  Vocabulary: S_Extract, S_Slices. *)
From Verif Require Import Base M_Layout M_Slices S_Slices M_Extract S_Extract P_Extract.
Local Open Scope Z_scope.
Local Open Scope list_scope.

(** ** C103: without a slice every cell of the domain gets the density of its patch, whichever process holds it and whatever
    the array held before; outside of a masked domain it is NaN *)
Theorem C103_every_cell : forall V (zero nan : V) npatch psizes msizes masked ranks old, layout_ok npatch psizes masked ranks ->
  exists out, extract zero nan npatch psizes msizes None masked ranks old = Done out /\
    (forall p c, In p (concat ranks) -> in_patch psizes c -> out (global psizes (e_pos p) c) = e_data p c) /\
    (masked = true -> forall g, in_domain npatch psizes g -> (forall p, In p (concat ranks) -> e_pos p <> owner psizes g) -> out g = nan).
Proof. intros. now apply extract_whole. Qed.

(** two decompositions and distributions of one domain whose patches hold the same density give the same array *)
Theorem C103_decomposition : forall V (zero nan : V) npatch psizes msizes ranks old npatch' psizes' msizes' ranks' old' (F : list Z -> V),
  layout_ok npatch psizes false ranks -> layout_ok npatch' psizes' false ranks' ->
  domain_shape npatch psizes = domain_shape npatch' psizes' ->
  (forall p c, In p (concat ranks) -> in_patch psizes c -> e_data p c = F (global psizes (e_pos p) c)) ->
  (forall p c, In p (concat ranks') -> in_patch psizes' c -> e_data p c = F (global psizes' (e_pos p) c)) ->
  exists out out', extract zero nan npatch psizes msizes None false ranks old = Done out /\ extract zero nan npatch' psizes' msizes' None false ranks' old' = Done out' /\
    forall g, in_domain npatch psizes g -> out g = F g /\ out' g = F g.
Proof.
  intros V zero nan npatch psizes msizes ranks old npatch' psizes' msizes' ranks' old' F LY LY' SD HF HF'.
  destruct (C103_every_cell V zero nan npatch psizes msizes false ranks old LY) as (out & E & A & _).
  destruct (C103_every_cell V zero nan npatch' psizes' msizes' false ranks' old' LY') as (out' & E' & A' & _).
  exists out, out'. split; [exact E|]. split; [exact E'|]. intros g Hg. split.
  - destruct (domain_cell npatch psizes g (ly_len _ _ _ _ LY) (ly_sizes _ _ _ _ LY) Hg) as (G1 & G2 & G3). destruct (ly_all _ _ _ _ LY eq_refl _ G1) as (p & P1 & P2).
    rewrite <- G3, <- P2, (A p _ P1 G2), (HF p _ P1 G2). reflexivity.
  - assert (in_domain npatch' psizes' g) as Hg' by (unfold in_domain in *; unfold domain_shape in SD; rewrite <- SD; exact Hg).
    destruct (domain_cell npatch' psizes' g (ly_len _ _ _ _ LY') (ly_sizes _ _ _ _ LY') Hg') as (G1 & G2 & G3). destruct (ly_all _ _ _ _ LY' eq_refl _ G1) as (p & P1 & P2).
    rewrite <- G3, <- P2, (A' p _ P1 G2), (HF' p _ P1 G2). reflexivity.
Qed.

(** ** C104: with a slice, on one process *)
Theorem C104_one_process_partial : forall V (zero nan : V) npatch psizes msizes sl root old, layout_ok npatch psizes false [root] ->
  wf_axes (domain_shape npatch psizes) psizes msizes sl ->
  exists out, extract zero nan npatch psizes msizes (Some sl) false [root] old = Done out /\
    (forall p j, In p root -> in_shape sl j -> owner psizes (gcell sl j) = e_pos p -> out j = e_data p (within psizes (gcell sl j))).
Proof.
  intros V zero nan npatch psizes msizes sl root old LY W. destruct (extract_slice zero nan npatch psizes msizes sl [root] old LY W) as (out & E & A).
  - intros p l k [].
  - exists out. split; [exact E|]. intros p j Hp. apply A. cbn [concat]. rewrite app_nil_r. exact Hp.
Qed.
(** on any number of processes if the selected part of every patch is one piece of memory *)
Theorem C104_unbroken_partial : forall V (zero nan : V) npatch psizes msizes sl ranks old, layout_ok npatch psizes false ranks ->
  wf_axes (domain_shape npatch psizes) psizes msizes sl -> unbroken (domain_shape npatch psizes) sl ->
  exists out, extract zero nan npatch psizes msizes (Some sl) false ranks old = Done out /\
    (forall p j, In p (concat ranks) -> in_shape sl j -> owner psizes (gcell sl j) = e_pos p -> out j = e_data p (within psizes (gcell sl j))).
Proof.
  intros V zero nan npatch psizes msizes sl ranks old LY W U. apply extract_slice; [exact LY|exact W|]. intros p l k Hp El Hk.
  assert (In p (concat ranks)) as I by (destruct ranks; [destruct Hp|cbn [concat]; apply in_or_app; right; exact Hp]).
  exact (unbroken_offset npatch psizes msizes sl _ (e_pos p) l k eq_refl W (ly_in _ _ _ _ LY p I) U El Hk).
Qed.

(** a domain of 4 x 2 x 2 cells in two patches of 2 x 2 x 2 on two processes; the density at (x, y, z) is 100 x + 10 y + z *)
Definition ex_density (x0 : Z) (c : list Z) : Z := match c with [x; y; z] => 100 * (x0 + x) + 10 * y + z | _ => 0 end.
Definition ex_ranks : list (list (epatch Z)) := [[mkEP 0 [0; 0; 0] (ex_density 0)]; [mkEP 1 [1; 0; 0] (ex_density 2)]].
Lemma ex_layout : layout_ok [2; 1; 1] [2; 2; 2] false ex_ranks.
Proof.
  split; cbn [concat app ex_ranks map e_pos e_index].
  - reflexivity.
  - repeat constructor.
  - intros p [<-|[<-|[]]]; repeat constructor; cbn; lia.
  - repeat constructor; cbn; intuition discriminate.
  - repeat constructor; cbn; intuition discriminate.
  - intros _ pos H. inversion H as [|? x ? xs Hx H1]; subst. inversion H1 as [|? y ? ys Hy H2]; subst. inversion H2 as [|? z ? zs Hz H3]; subst. inversion H3; subst.
    assert (y = 0) by lia. assert (z = 0) by lia. subst. assert (x = 0 \/ x = 1) as [->| ->] by lia; eexists; cbn; eauto.
Qed.
(** the plane z = 1, as in the documented [np.s_[:, :, 100]]: the part of the other process is wrong *)
Theorem C104_plane_refuted : exists out j,
  normalize_slice [4; 2; 2] (UTuple [USlice None None None; USlice None None None; UInt 1]) = Ok (Some [mkSlice 0 4 1; mkSlice 0 2 1; mkSlice 1 2 1]) /\
  extract 0 (-1) [2; 1; 1] [2; 2; 2] [8; 8; 8] (Some [mkSlice 0 4 1; mkSlice 0 2 1; mkSlice 1 2 1]) false ex_ranks (fun _ => 0) = Done out /\
  in_shape [mkSlice 0 4 1; mkSlice 0 2 1; mkSlice 1 2 1] j /\ gcell [mkSlice 0 4 1; mkSlice 0 2 1; mkSlice 1 2 1] j = [2; 1; 1] /\ out j = 301 /\ ex_density 0 [2; 1; 1] = 211.
Proof.
  eexists. exists [2; 1; 0]. split; [reflexivity|]. split; [reflexivity|]. split; [repeat constructor; cbn; lia|]. repeat (split; try reflexivity).
Qed.
(** every second column: some cells get what happened to be in the buffer *)
Theorem C104_step_refuted : exists out j,
  extract 0 (-1) [2; 1; 1] [2; 2; 2] [8; 8; 8] (Some [mkSlice 0 4 1; mkSlice 0 2 1; mkSlice 0 2 2]) false ex_ranks (fun _ => 0) = Done out /\
  in_shape [mkSlice 0 4 1; mkSlice 0 2 1; mkSlice 0 2 2] j /\ gcell [mkSlice 0 4 1; mkSlice 0 2 1; mkSlice 0 2 2] j = [3; 1; 0] /\ out j = 0 /\ ex_density 0 [3; 1; 0] = 310.
Proof. eexists. exists [3; 1; 0]. split; [reflexivity|]. split; [repeat constructor; cbn; lia|]. repeat (split; try reflexivity). Qed.
(** with a domain mask no slice smaller than the domain can be extracted *)
Theorem C104_masked_refuted : forall V (zero nan : V) npatch psizes msizes sl ranks old, out_shape sl <> domain_shape npatch psizes ->
  forall out, extract zero nan npatch psizes msizes (Some sl) true ranks old <> Done out.
Proof. intros. now apply mask_shape. Qed.

(** ** cases *)
Example C103_case : exists out, extract 0 (-1) [2; 1; 1] [2; 2; 2] [8; 8; 8] None false ex_ranks (fun _ => 55) = Done out /\ out [3; 1; 0] = 310 /\ out [1; 0; 1] = 101.
Proof. eexists. split; [reflexivity|]. split; reflexivity. Qed.
Example C104_case : unbroken [4; 2; 2] [mkSlice 3 4 1; mkSlice 0 2 2; mkSlice 0 2 1] /\
  exists out, extract 0 (-1) [2; 1; 1] [2; 2; 2] [8; 8; 8] (Some [mkSlice 3 4 1; mkSlice 0 2 2; mkSlice 0 2 1]) false ex_ranks (fun _ => 55) = Done out /\ out [0; 0; 1] = 301.
Proof. split; [apply ub_one; [reflexivity|]; apply ub_any; repeat constructor|]. eexists. split; reflexivity. Qed.

Print Assumptions C103_every_cell.
Print Assumptions C103_decomposition.
Print Assumptions C104_one_process_partial.
Print Assumptions C104_unbroken_partial.
Print Assumptions C104_plane_refuted.
Print Assumptions C104_step_refuted.
Print Assumptions C104_masked_refuted.
