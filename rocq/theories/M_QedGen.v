(** Model of the generation of the tables of the QED processes
    (src/lambdapic/core/qed/optical_depth_tables.py:111-222, core/qed/optical_depth_tables_sigmoid.py:127-243; setup.py:139
    runs both once when the package is built).

    Simplifications: exact rational arithmetic; the formulas with Airy functions (lines 120-143) are the given functions
    [photon] and [pair] of chi and the fraction, scipy's quad is the given function [quad], 10** is [pow10] and
    1/(1+exp(-x)) is [sigmoid]; the pool of worker processes is a plain map; the result is the record that np.savez writes
    and the lookups load.  Fewer than two points on an axis are not modelled (the division by chi_N - 1 or delta_N - 1
    fails, lines 213-218). *)
From Verif Require Import Base M_QedTable.
From Coq Require Import QArith.
Local Open Scope Z_scope.
Local Open Scope list_scope.

(** the spectrum of one chi: [if delta == 1.0: return 0.0], lines 123 and 135 *)
Definition spectrum (formula : Q -> Q) (delta : Q) : Q := if Qeq_bool delta 1 then 0%Q else formula delta.

(** np.linspace(lo, hi, n) for n >= 2: equal steps from lo, the last value set to hi *)
Definition linspace_at (lo hi : Q) (n j : Z) : Q :=
  if j =? n - 1 then hi else (lo + inject_Z j * ((hi - lo) / inject_Z (n - 1)))%Q.
Definition linspace (lo hi : Q) (n : Z) : list Q :=
  map (fun j => linspace_at lo hi n (Z.of_nat j)) (seq 0 (Z.to_nat n)).

(** the loop of integral_*_prob_along_delta, lines 162-163 and 172-173: integ[i] = integ[i-1] + P(delta[i])*(delta[i]-delta[i-1]) *)
Fixpoint accumulate (P : Q -> Q) (before sum : Q) (deltas : list Q) : list Q :=
  match deltas with
  | [] => []
  | d :: rest => let s := (sum + P d * (d - before))%Q in s :: accumulate P d s rest
  end.

Section Generation.
Variable quad : (Q -> Q) -> Q -> Q -> Q.
Variable pow10 : Q -> Q.
Variable sigmoid : Q -> Q.

(** integral_photon_prob_along_delta and integral_pair_prob_along_delta on a grid of fractions, lines 155-174 *)
Definition row (P : Q -> Q) (deltas : list Q) : list Q :=
  match deltas with
  | [] => []
  | d :: rest => let s := quad P 0 d in s :: accumulate P d s rest
  end.

(** integral_photon_prob_over_delta and integral_pair_prob_over_delta, lines 145-153 *)
Definition total_rate (P : Q -> Q) : Q := quad P 0 1.

Record tables := mkTables { t_grid : table_grid; t_photon : list Q; t_pair : list Q;
                            t_photon_rows : list (list Q); t_pair_rows : list (list Q) }.

(** np.logspace *)
Definition logspace (lo hi : Q) (n : Z) : list Q := map pow10 (linspace lo hi n).

(** table_gen, lines 187-219 *)
Definition table_gen (photon pair : Q -> Q -> Q) (nchi : Z) (lo hi : Q) (ndelta : Z) (dlo : Q) : tables :=
  let chis := logspace lo hi nchi in
  let deltas := logspace dlo 0 ndelta in
  mkTables
    (mkGrid nchi lo hi ((hi - lo) / inject_Z (nchi - 1)) ndelta dlo ((0 - dlo) / inject_Z (ndelta - 1)))
    (map (fun chi => total_rate (spectrum (photon chi))) chis)
    (map (fun chi => total_rate (spectrum (pair chi))) chis)
    (map (fun chi => row (spectrum (photon chi)) deltas) chis)
    (map (fun chi => row (spectrum (pair chi)) deltas) chis).

(** the fractions of the second method, optical_depth_tables_sigmoid.py:166-168: A = log(1/delta_min - 1) is given *)
Definition fractions_s (A : Q) (n : Z) : list Q := map (fun x => sigmoid (A * x)%Q) (linspace (-1) 1 n).
(** table_gen, optical_depth_tables_sigmoid.py:208-240.  The two numbers of the logarithmic grid are not stored; they are
    filled in with the position on [-1, 0] and no lookup of this method reads them *)
Definition table_gen_s (photon pair : Q -> Q -> Q) (nchi : Z) (lo hi : Q) (ndelta : Z) (A : Q) : tables :=
  let chis := logspace lo hi nchi in
  let deltas := fractions_s A ndelta in
  mkTables
    (mkGrid nchi lo hi ((hi - lo) / inject_Z (nchi - 1)) ndelta (-1) (1 / inject_Z (ndelta - 1)))
    (map (fun chi => total_rate (spectrum (photon chi))) chis)
    (map (fun chi => total_rate (spectrum (pair chi))) chis)
    (map (fun chi => row (spectrum (photon chi)) deltas) chis)
    (map (fun chi => row (spectrum (pair chi)) deltas) chis).

(** the fraction the lookup of the second method assigns to column j, optical_depth_tables_sigmoid.py:100-101 *)
Definition fraction_s (A : Q) (n j : Z) : Q := sigmoid (A * (-1 + 2 / inject_Z (n - 1) * inject_Z j))%Q.
End Generation.
