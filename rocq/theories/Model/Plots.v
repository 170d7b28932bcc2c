(** What the figures of menpofit draw: the arguments x_axis, y_axis, legend_entries and axes_x_limits that reach menpo's
    plot_curve.  Colours, fonts and the like are not modelled. *)
From Coq Require Import String List QArith ZArith Bool Reals.
From Verif.Model Require Import Py Result Stats Summary Perturb.
Import ListNotations.
Local Open Scope nat_scope.

Section Iterations.
  Context {Sh P A C : Type}.
  (** A figure per iteration: x_axis=list(range(len(ys))), y_axis=[ys]. *)
  Definition per_iteration {Y} (ys : list Y) : list nat * list Y := (seq 0 (length ys), ys).
  (** NonParametricIterativeResult.plot_errors, result.py 935-938 *)
  Definition plot_errors {Er} (compute_error : Sh -> Sh -> res Er) (r : iresult Sh P A C) : res (list nat * list Er) :=
    let? es := errors compute_error r in Ok (per_iteration es).
  (** plot_displacements, result.py 1157-1174; [dist] gives the distances moved by the points.  The name of the statistic is
      checked first; only the label depends on it. *)
  Definition plot_displacements (dist : Sh -> Sh -> list R) (stat_type : string) (r : iresult Sh P A C) : res (list nat * list R) :=
    let? _ := if existsb (String.eqb stat_type) ["max"; "min"; "mean"; "median"]%string then Ok tt else Err ValueError in
    let? ds := displacements_stats stat_type (displacements dist r) in Ok (per_iteration ds).
  (** plot_costs, result.py 1350-1354 and 1386-1389, and aps/result.py 260-264, 281-283 *)
  Definition plot_costs (r : iresult Sh P A C) : res (list nat * list C) :=
    match r_costs r with Some cs => Ok (per_iteration cs) | None => Err ValueError end.
End Iterations.

(** An element of the argument [errors]: a number, a Python list of numbers, or another sequence of numbers (array, tuple). *)
Inductive method := MNum (x : Q) | MList (l : list Q) | MArray (l : list Q).
Record figure := mkFigure { f_x : list Q; f_curves : list (list Q); f_legend : list string; f_limits : Q * Q }.

(** np.array(errors) for a list that mixes nothing: its entries.  Mixtures and sequences of different lengths make no array of
    numbers; comparing them raises ValueError. *)
Definition numbers_of (errors : list method) : res (list Q) :=
  mapM (fun e => match e with MNum x => Ok x | _ => Err ValueError end) errors.
Definition entries (errors : list method) : res (list Q) :=
  match errors with
  | [] => Ok []
  | MNum _ :: _ => numbers_of errors
  | (MList l | MArray l) :: _ =>
      let? ls := mapM (fun e => match e with
                                | MNum _ => Err ValueError
                                | MList l' | MArray l' => if length l' =? length l then Ok l' else Err ValueError
                                end) errors in
      Ok (concat ls)
  end.
(** compute_cumulative_error, error/stats.py 28-29, on one element of the list, and on the list as a whole when it was
    wrapped; the bins are numpy floats, so the comparison is element-wise over all entries. *)
Definition ced_of (x_axis : list Q) (e : method) : res (list Q) :=
  match e with
  | MNum _ => Err TypeError
  | MList l => compute_cumulative_error (EList l) (map BNp x_axis)
  | MArray l => compute_cumulative_error (EArray l) (map BNp x_axis)
  end.
Definition ced_of_all (x_axis : list Q) (errors : list method) : res (list Q) :=
  mapM (fun x =>
    let? es := entries errors in
    let? le := less_equal (EList es) (BNp x) in
    Ok (inject_Z (Z.of_nat (count_nonzero le)) / inject_Z (Z.of_nat (length errors)))%Q) x_axis.

(** plot_cumulative_error_distribution, visualize/base.py 773-800 (axes_y_limits is left out) *)
Definition plot_cumulative_error_distribution (errors : list method) (error_range : option (Q * Q * Q))
    (legend_entries : option (list string)) (axes_x_limits : option (Q * Q)) : res figure :=
  let? first := nth_res errors 0 in
  let '(lo, hi, step) := match error_range with Some r => r | None => (0, 101 # 1000, 5 # 1000)%Q end in
  let? x_axis := arange lo hi step in
  let? ceds := match first with
               | MList _ => mapM (ced_of x_axis) errors
               | _ => let? c := ced_of_all x_axis errors in Ok [c]
               end in
  let legend := match legend_entries with Some l => l | None => map (numbered_key "Curve ") (seq 0 (length ceds)) end in
  if negb (length legend =? length ceds) then Err ValueError
  else
    let? limits := match axes_x_limits with
                   | Some l => Ok l
                   | None => let? x := last_res x_axis in Ok (0%Q, x)
                   end in
    Ok (mkFigure x_axis ceds legend limits).
