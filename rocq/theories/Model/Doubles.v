(** The iteration budget of checks.py and the cumulative errors of error/stats.py as they are computed, in double precision.
    Model/Checks.v and Model/Stats.v compute them with exact numbers.  Infinities and NaN do not occur here and are not
    modelled: all values are at most as large as the integers they are computed from. *)
From Coq Require Import List ZArith QArith Reals Qreals.
From Flocq Require Import Core.
From Verif.Model Require Import Py Stats.
Import ListNotations.
Local Open Scope R_scope.

(** The double nearest to a real number, ties to the even one (IEEE 754 binary64): the result of an operation on doubles, and
    of the division of two Python integers, which is rounded once. *)
Definition double (x : R) : R := round radix2 (FLT_exp (-1074) 53) ZnearestE x.
(** np.round of a double: the nearest integer, ties to the even one. *)
Definition np_round (x : R) : Z := ZnearestE x.

(** checks.py 308-313, 318, for an integer: np.round(max_iters / n_scales) for every scale, then converted to np.int64, which
    keeps integers below 2^63 as they are. *)
Definition split64 (max_iters : Z) (n_scales : nat) : list Z :=
  repeat (np_round (double (IZR max_iters / IZR (Z.of_nat n_scales)))) n_scales.

(** compute_cumulative_error, error/stats.py 12-29: the errors and the bins are doubles, whose comparison is exact; the
    division of the number of the errors below the bin by that of all errors is rounded. *)
Definition cumulative64 (errors : errseq) (bins : list binval) : res (list R) :=
  let? ced := compute_cumulative_error errors bins in Ok (map (fun q => double (Q2R q)) ced).
(** The failure rate, 1. - ced[-1], error/stats.py 76. *)
Definition failure_rate64 (ced : list R) : R := double (1 - last ced 0).

(** np.arange(start, stop, step) in double precision: the length is the quotient rounded up; the items are start,
    start + step, and start + i * delta with delta the difference of the first two (numpy's fill loop). *)
Definition arange64 (start stop step : R) : list R :=
  let n := Z.to_nat (Zceil (double (double (stop - start) / step))) in
  let second := double (start + step) in
  let delta := double (second - start) in
  map (fun i => if Nat.eqb i 0 then start else if Nat.eqb i 1 then second else double (start + double (INR i * delta))) (seq 0 n).
(** The bins of the curve, error/stats.py 74. *)
Definition bins64 (min_error max_error step_error : R) : list R := arange64 min_error (double (max_error + step_error)) step_error.
(** The failure rate of area_under_curve_and_failure_rate, error/stats.py 74-76, for an array of errors. *)
Definition failure64 (errors : list R) (step_error max_error min_error : R) : R :=
  let b := last (bins64 min_error max_error step_error) 0 in
  double (1 - double (INR (length (filter (fun e => Rle_bool e b) errors)) / INR (length errors))).
