(** Summaries of errors: menpofit/error/stats.py 32-47 and 79-145, and displacements_stats, result.py 982-1012.
    Real instead of floating point arithmetic. *)
From Coq Require Import String List Reals Arith Bool.
From Verif.Model Require Import Py ApsGraph.
Import ListNotations.
Local Open Scope R_scope.

(** np.sort *)
Fixpoint insert (x : R) (l : list R) : list R :=
  match l with [] => [x] | y :: l' => if Rle_dec x y then x :: l else y :: insert x l' end.
Fixpoint sort (l : list R) : list R := match l with [] => [] | x :: l' => insert x (sort l') end.

(** np.median of a non-empty array: the middle element, or the mean of the two middle ones. *)
Definition median (l : list R) : R :=
  let s := sort l in
  let n := length s in
  if Nat.even n then (nth (n / 2 - 1) s 0 + nth (n / 2) s 0) / 2 else nth (n / 2) s 0.

(** mad, error/stats.py 45-46 *)
Definition mad (errors : list R) : R :=
  let med := median errors in median (map (fun x => Rabs (x - med)) errors).

(** np.std (population) and np.max, np.min of a non-empty array *)
Definition std (l : list R) : R := sqrt (mean (map (fun x => (x - mean l) * (x - mean l)) l)).
Definition rmax (l : list R) : R := match l with [] => 0 | x :: l' => fold_left Rmax l' x end.
Definition rmin (l : list R) : R := match l with [] => 0 | x :: l' => fold_left Rmin l' x end.

Section Measures.
  (** area_under_curve_and_failure_rate with the given step and limits (Model/Stats.v) *)
  Variable auc_fr : list R -> res (R * R).

  Record measures := mkMeasures { m_mean : R; m_std : R; m_median : R; m_mad : R; m_max : R; m_auc : R; m_fr : R }.
  (** One method, error/stats.py 135-144: np.max refuses an empty array. *)
  Definition one_method (e : list R) : res measures :=
    match e with
    | [] => Err ValueError
    | _ => let? af := auc_fr e in
           Ok (mkMeasures (mean e) (std e) (median e) (mad e) (rmax e) (fst af) (snd af))
    end.

  (** An element of [errors]: a number, or the errors of a method. *)
  Inductive item := Num (x : R) | Coll (l : list R).
  (** The result: numbers, or seven lists. *)
  Inductive summary :=
  | Single (m : measures)
  | Columns (means stds medians mads maxs aucs frs : list R).

  (** compute_statistical_measures, error/stats.py 115-145.  A number among methods has no len (TypeError); a
      collection among numbers makes a ragged array (ValueError). *)
  Definition compute_statistical_measures (errors : list item) : res summary :=
    match errors with
    | [] => Err IndexError
    | Coll _ :: _ =>
        let? ms := mapM (fun i => match i with Coll e => one_method e | Num _ => Err TypeError end) errors in
        Ok (Columns (map m_mean ms) (map m_std ms) (map m_median ms) (map m_mad ms) (map m_max ms)
                    (map m_auc ms) (map m_fr ms))
    | Num _ :: _ =>
        let? e := mapM (fun i => match i with Num x => Ok x | Coll _ => Err ValueError end) errors in
        let? m := one_method e in Ok (Single m)
    end.
End Measures.

(** displacements_stats, result.py 1003-1012, of the displacements per iteration (shapes with at least one
    point, so that no array is empty) *)
Definition displacements_stats (stat_type : string) (displacements : list (list R)) : res (list R) :=
  if (stat_type =? "mean")%string then Ok (map mean displacements)
  else if (stat_type =? "median")%string then Ok (map median displacements)
  else if (stat_type =? "max")%string then Ok (map rmax displacements)
  else if (stat_type =? "min")%string then Ok (map rmin displacements)
  else Err ValueError.
