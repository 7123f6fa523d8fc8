(** Vocabulary for the statements about laser profiles. *)
From Coq Require Import Reals.
From Verif Require Import M_Profile.
Local Open Scope R_scope.
(** what the constructors accept *)
Definition simple_ok (s : simple) : Prop := 0 < s_E0 s /\ 0 < s_omega s /\ 0 < s_w0 s /\ 0 < s_ctau s /\ Rabs (s_angle s) < PI / 2 /\ Rabs (s_ell s) <= 1 /\ 0 < s_c s.
Definition gauss_ok (g : gauss) : Prop := 0 < g_E0 g /\ 0 < g_l0 g /\ 0 < g_w0 g /\ 0 < g_ctau g /\ Rabs (g_ell g) <= 1 /\ 0 < g_c g.
(** E^2 *)
Definition square (e : R * R) : R := fst e ^ 2 + snd e ^ 2.
(** the vector e turned by the angle a *)
Definition turned (a : R) (e : R * R) : R * R := (cos a * fst e - sin a * snd e, sin a * fst e + cos a * snd e).
(** the same laser with another polarisation, or a quarter of a cycle ahead *)
Definition s_polarised (s : simple) (pol ell : R) : simple := mkSimple (s_E0 s) (s_omega s) (s_w0 s) (s_ctau s) (s_angle s) pol ell (s_cep s) (s_c s).
Definition s_ahead (s : simple) : simple := mkSimple (s_E0 s) (s_omega s) (s_w0 s) (s_ctau s) (s_angle s) (s_pol s) (s_ell s) (s_cep s + PI / 2) (s_c s).
Definition g_polarised (g : gauss) (pol ell : R) : gauss := mkGauss (g_E0 g) (g_l0 g) (g_w0 g) (g_ctau g) (g_x0 g) pol ell (g_cep g) (g_focus g) (g_c g) (g_l g) (g_p g).
Definition g_ahead (g : gauss) : gauss := mkGauss (g_E0 g) (g_l0 g) (g_w0 g) (g_ctau g) (g_x0 g) (g_pol g) (g_ell g) (g_cep g + PI / 2) (g_focus g) (g_c g) (g_l g) (g_p g).
