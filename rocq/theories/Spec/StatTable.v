(** Tables of statistics. *)
From Coq Require Import String List Reals Sorted.
From Verif.Model Require Import Summary StatTable.
Import ListNotations.

(** A statistic of one method, by its name. *)
Inductive statistic (m : measures) : string -> R -> Prop :=
| St_mean : statistic m "mean" (m_mean m)
| St_std : statistic m "std" (m_std m)
| St_median : statistic m "median" (m_median m)
| St_mad : statistic m "mad" (m_mad m)
| St_max : statistic m "max" (m_max m)
| St_auc : statistic m "auc" (m_auc m)
| St_fr : statistic m "fr" (m_fr m).

(** Row i of a table: the label and the entries of all columns. *)
Definition row (t : frame) (i : nat) : string * list R :=
  (nth i (f_index t) EmptyString, map (fun c => nth i (snd c) 0%R) (f_cols t)).
Definition rows (t : frame) : list (string * list R) := map (row t) (seq 0 (length (f_index t))).

(** The best method first: small errors and failure rates, large areas. *)
Definition best_first (stat : string) (x y : R) : Prop := if String.eqb stat "auc" then (y <= x)%R else (x <= y)%R.
