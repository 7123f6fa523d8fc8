(** Model of the names of output files and of writing them: callback/hdf5.py:346, 460, 672, callback/plot.py:132 and
    callback/restart.py:82.  Characters are their code points.
    Simplifications: one directory ([prefix], [out_dir]); a file holds one value; opening with mode "w" (hdf5.py:218, 246, 675;
    plot.py:131; a checkpoint directory is reused, restart.py:92-94) replaces what was there, and the later mode "a" (hdf5.py:253, 362,
    385, 574, 599, 683, 697) completes the same output. *)
From Verif Require Import Base M_Checkpoint.
Local Open Scope list_scope.
Local Open Scope Z_scope.

Definition dot_h5 : list Z := [46; 104; 53].
Definition dot_png : list Z := [46; 112; 110; 103].
Definition particles_ : list Z := [95; 112; 97; 114; 116; 105; 99; 108; 101; 115; 95].   (** "_particles_" *)
Definition fields_ : list Z := [102; 105; 101; 108; 100; 115; 95].   (** "fields_" *)

(** what is written: fields, the density of a species, the particles of a species, a plot, a checkpoint, each of one step *)
Inductive output := OFields (itime : Z) | ODensity (species : list Z) (itime : Z) | OParticles (species : list Z) (itime : Z) | OPlot (itime : Z) | OCheckpoint (itime : Z).

Definition filename (o : output) : list Z :=
  match o with
  | OFields t => pad6 (dec t) ++ dot_h5                          (* hdf5.py:346 *)
  | ODensity s t => s ++ [95] ++ pad6 (dec t) ++ dot_h5          (* hdf5.py:460 *)
  | OParticles s t => s ++ particles_ ++ pad6 (dec t) ++ dot_h5  (* hdf5.py:672 *)
  | OPlot t => fields_ ++ pad6 (dec t) ++ dot_png                (* plot.py:132 *)
  | OCheckpoint t => ckpt_name t                                 (* restart.py:82 *)
  end.

Section Disk.
Variable A : Type.
Definition folder := list (list Z * A).
Definition write_file (d : folder) (w : output * A) : folder := (filename (fst w), snd w) :: filter (fun e => negb (str_eqb (fst e) (filename (fst w)))) d.
Definition read_file (d : folder) (n : list Z) : option A := option_map snd (find (fun e => str_eqb (fst e) n) d).
(** the outputs of a run, in the order of writing *)
Definition save_all (d : folder) (ws : list (output * A)) : folder := fold_left write_file ws d.
End Disk.
