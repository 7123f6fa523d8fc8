(** Vocabulary for the species naming theorems, independent of the model's functions. *)
From Verif Require Import Base.
Open Scope Z_scope.

Definition digit_char (c : Z) : Prop := 48 <= c <= 57.
(** [n] is [base] or [base] followed by a dot and digits; the source's pattern also accepts one newline at the
    very end *)
Definition clashes (base n : list Z) : Prop :=
  exists tail, (tail = [] \/ tail = [10]) /\
    (n = base ++ tail \/ exists ds, ds <> [] /\ Forall digit_char ds /\ n = base ++ 46 :: ds ++ tail).
