(** Summaries of errors. *)
From Coq Require Import List Reals Arith Permutation Sorted.
From Verif.Spec Require Import ApsGraph.
Import ListNotations.
Local Open Scope R_scope.

(** How many values lie between two bounds. *)
Definition count (p : R -> bool) (l : list R) : nat := length (filter p l).
Definition leb (x y : R) : bool := if Rle_dec x y then true else false.
Definition at_most (u x : R) : bool := leb x u.
Definition at_least (l x : R) : bool := leb l x.
Definition within (l u x : R) : bool := andb (leb l x) (leb x u).

(** What the names of the statistics mean. *)
Definition is_mean (l : list R) (v : R) : Prop := INR (length l) * v = total (fun x => x) l.
Definition is_std (l : list R) (v : R) : Prop := 0 <= v /\ exists m, is_mean l m /\ INR (length l) * (v * v) = total (fun x => (x - m) * (x - m)) l.
(** The values in order: the one in the middle, or the average of the two in the middle. *)
Definition is_median (l : list R) (v : R) : Prop :=
  exists s, Permutation s l /\ StronglySorted Rle s /\ v = (nth ((length l - 1) / 2) s 0 + nth (length l / 2) s 0) / 2.
Definition is_mad (l : list R) (v : R) : Prop := exists m, is_median l m /\ is_median (map (fun x => Rabs (x - m)) l) v.
Definition is_max (l : list R) (v : R) : Prop := In v l /\ forall x, In x l -> x <= v.
Definition is_min (l : list R) (v : R) : Prop := In v l /\ forall x, In x l -> v <= x.
