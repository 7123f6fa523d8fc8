(** Model of what loading a checkpoint does to the references of M_Lists (src/lambdapic/callback/restart.py:129-160,
    core/utils/pickle_list.py:3-19, core/particles.py:213-217, core/collision/collision.py:139-151).

    Simplified: identities only, as in M_Lists.  The array objects in a checkpoint are new ones, and ParticlesBase.__setstate__
    replaces those of the particle objects by copies; whether pickle keeps the entries of a typed list as the objects that the
    particle objects had before copying or as objects of their own makes no difference here: both are different from the copies. *)
From Verif Require Import Base M_Lists.
Local Open Scope list_scope.

Section Reload.
Variable c : config.
(** the k-th fresh identity for (patch p, species i) *)
Definition fresh (s : st) (k p i : nat) : nat := clock s + k * size c s + slot_of c p i.
(** pickle.load: particles.py:213-217 copies every attribute array (the flag [extended] is restored as it was saved);
    pickle_list.py:15-19 makes typed lists of the pickled arrays for pushers and QED modules; the plain lists of the sorters hold
    the arrays from before the copy; collision.py:148-151 generates its lists anew, with the bucket bounds of the sorters *)
Definition unpickle (s : st) : st :=
  mkSt (np s) (clock s + 9 * size c s)
    (fun p i => mkArr (fresh s 0 p i) (fresh s 0 p i) (ext s p i))
    (fun i p => fresh s 1 p i)
    (if colliding c then fun i p => fresh s 0 p i else r_coll s)
    (fun i p => match photon_of c i with Some _ => (fresh s 2 p i, fresh s 3 p i) | None => (0, 0) end)
    (fun i p => match pair_of c i with Some _ => (fresh s 4 p i, (fresh s 5 p i, fresh s 6 p i)) | None => (0, (0, 0)) end)
    (fun i p => fresh s 7 p i)
    (fun i p => fresh s 8 p i)
    (if colliding c then fun i p => fresh s 8 p i else b_coll s).
(** RestartDump.load, restart.py:148-151: sim = pickle.load(f); sim.update_lists() *)
Definition load (s : st) : st := update_lists c (unpickle s).
End Reload.
