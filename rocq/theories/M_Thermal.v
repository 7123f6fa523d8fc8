(** Model of the sampling of thermal momenta (src/lambdapic/callback/utils.py:973-1049, SetTemperature.sample_maxwell_juttner), over the
    real numbers.  What the generator returns is arbitrary within its contract (S_Thermal); the Bessel function of the density
    is a given number; the maximum found by scipy only bounds the second random number. *)
From Coq Require Import Reals.
From Verif Require Import Base.
Local Open Scope list_scope.
Local Open Scope R_scope.

(** utils.py:979, 1033: beta of a Lorentz factor *)
Definition beta_of (g : R) : R := sqrt (1 - 1 / g ^ 2).
(** utils.py:973-985 (maxwell_juttner_pdf); [k2] is kn(2, 1/theta) *)
Definition density (k2 theta g : R) : R := (g ^ 2 * beta_of g) / (theta * k2) * exp (- g / theta).

(** A proposal: the Lorentz factor and the second random number. *)
Definition proposal := (R * R)%type.
(** utils.py:1019-1021 *)
Definition accept_medium (k2 theta : R) (p : proposal) : bool := if Rlt_dec (snd p) (density k2 theta (fst p)) then true else false.
(** utils.py:1033-1034; proposals below 1 are masked *)
Definition accept_high (p : proposal) : bool := if Rle_dec 1 (fst p) then if Rlt_dec (snd p) (beta_of (fst p)) then true else false else false.
(** utils.py:1017-1025, 1031-1039: the loop.  [rounds] is what the generator would supply in each turn; a turn takes as many as
    are still missing.  None: the supply ends before the loop does. *)
Fixpoint reject (accept : proposal -> bool) (missing : nat) (rounds : list (list proposal)) : option (list R) :=
  match missing with
  | O => Some []
  | _ => match rounds with
         | [] => None
         | ps :: rest => let a := map fst (filter accept (firstn missing ps)) in
                         option_map (app a) (reject accept (missing - length a) rest)
         end
  end.
(** utils.py:999-1039: the Lorentz factors; [xs] are the values of the Gamma distribution of the first case (a number of them
    equal to size) *)
Definition gammas (k2 theta : R) (size : nat) (xs : list R) (rounds : list (list proposal)) : option (list R) :=
  if Rle_dec theta (1 / 100) then Some (map (fun x => x + 1) (firstn size xs))
  else if Rle_dec theta (1 / 2) then reject (accept_medium k2 theta) size rounds
  else reject accept_high size rounds.
(** utils.py:1041-1047 *)
Definition momentum (g phi costheta : R) : R * R * R :=
  let u := sqrt (g ^ 2 - 1) in let sintheta := sqrt (1 - costheta ^ 2) in (u * sintheta * cos phi, u * sintheta * sin phi, u * costheta).
(** utils.py:971: the inverse Lorentz factor set from a momentum *)
Definition inv_gamma (u : R * R * R) : R := match u with (ux, uy, uz) => 1 / sqrt (1 + ux ^ 2 + uy ^ 2 + uz ^ 2) end.
