(** Vocabulary for C129 and C130. *)
From Verif Require Import Base M_Files.
Local Open Scope list_scope.
Local Open Scope Z_scope.

(** the step an output belongs to *)
Definition step_of (o : output) : Z := match o with OFields t | ODensity _ t | OParticles _ t | OPlot t | OCheckpoint t => t end.
(** "_particles" *)
Definition suffix : list Z := [95; 112; 97; 114; 116; 105; 99; 108; 101; 115].
(** no density of a species called like another one whose particles are written, followed by "_particles" *)
Definition no_suffix (outs : list output) : Prop := forall s t, ~ (In (ODensity (s ++ suffix) t) outs /\ In (OParticles s t) outs).
