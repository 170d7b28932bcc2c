(** Error statistics: menpofit/error/stats.py.  Numbers are exact rationals (no rounding, no NaN). *)
From Coq Require Import List QArith Qround ZArith Bool.
From Verif.Model Require Import Py.
Import ListNotations.
Local Open Scope Q_scope.

(** A sequence of errors is a Python list or a numpy array; a bin is a Python float or a numpy float. *)
Inductive errseq := EList (l : list Q) | EArray (l : list Q).
Inductive binval := BPy (x : Q) | BNp (x : Q).
Definition err_items (e : errseq) : list Q := match e with EList l | EArray l => l end.
Definition bin_value (b : binval) : Q := match b with BPy x | BNp x => x end.

(** [errors <= x], line 29: element-wise as soon as one side is a numpy value, an error for a list and a
    Python float. *)
Definition less_equal (errors : errseq) (x : binval) : res (list bool) :=
  match errors, x with
  | EList _, BPy _ => Err TypeError
  | _, _ => Ok (map (fun e => Qle_bool e (bin_value x)) (err_items errors))
  end.

(** [np.count_nonzero([..])]. *)
Definition count_nonzero (l : list bool) : nat := length (filter (fun b => b) l).

(** compute_cumulative_error, lines 12-29. *)
Definition compute_cumulative_error (errors : errseq) (bins : list binval) : res (list Q) :=
  let n_errors := length (err_items errors) in
  mapM (fun x =>
    let? le := less_equal errors x in
    match n_errors with
    | O => Err ZeroDivisionError
    | _ => Ok (inject_Z (Z.of_nat (count_nonzero le)) / inject_Z (Z.of_nat n_errors))
    end) bins.

(** [np.arange(start, stop, step)]. *)
Definition arange (start stop step : Q) : res (list Q) :=
  if Qeq_bool step 0 then Err ValueError
  else Ok (map (fun i => start + inject_Z (Z.of_nat i) * step) (seq 0 (Z.to_nat (Qceiling ((stop - start) / step))))).

(** scipy.integrate.simps(y, x) (scipy < 1.11, even = 'avg').  [basic_simpson] is _basic_simps: the
    composite rule for pairs of intervals of lengths h0, h1. *)
Definition simpson_term (h0 h1 y0 y1 y2 : Q) : Q :=
  (h0 + h1) / 6 * (y0 * (2 - 1 / (h0 / h1)) + y1 * ((h0 + h1) * (h0 + h1)) / (h0 * h1) + y2 * (2 - h0 / h1)).
Fixpoint basic_simpson (xs ys : list Q) {struct xs} : Q :=
  match xs, ys with
  | x0 :: ((x1 :: ((x2 :: _) as xs2))), y0 :: ((y1 :: ((y2 :: _) as ys2))) =>
      simpson_term (x1 - x0) (x2 - x1) y0 y1 y2 + basic_simpson xs2 ys2
  | _, _ => 0
  end.
(** The trapezoid of the first, or the last, interval. *)
Definition first_trapezoid (xs ys : list Q) : Q :=
  match xs, ys with
  | x0 :: x1 :: _, y0 :: y1 :: _ => (1 # 2) * (x1 - x0) * (y1 + y0)
  | _, _ => 0
  end.
Fixpoint last_trapezoid (xs ys : list Q) {struct xs} : Q :=
  match xs, ys with
  | [x0; x1], [y0; y1] => (1 # 2) * (x1 - x0) * (y1 + y0)
  | _ :: xs', _ :: ys' => last_trapezoid xs' ys'
  | _, _ => 0
  end.
Definition simps (ys xs : list Q) : res Q :=
  match ys with
  | [] => Err IndexError
  | _ => if Nat.odd (length ys) then Ok (basic_simpson xs ys)
         else Ok ((last_trapezoid xs ys + first_trapezoid xs ys) / 2
                  + (basic_simpson (removelast xs) (removelast ys) + basic_simpson (tl xs) (tl ys)) / 2)
  end.

(** area_under_curve_and_failure_rate, lines 50-76.  A zero [max_error] gives a numpy infinity or NaN in
    the code; here it is reported as an error. *)
Definition area_under_curve_and_failure_rate (errors : errseq) (step_error max_error min_error : Q) : res (Q * Q) :=
  let? x_axis := arange min_error (max_error + step_error) step_error in
  let? ced := compute_cumulative_error errors (map BNp x_axis) in
  let? area := simps ced x_axis in
  if Qeq_bool max_error 0 then Err ZeroDivisionError
  else Ok (area / max_error, 1 - last ced 0).
