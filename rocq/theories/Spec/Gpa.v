(** What aligned shapes have in common. *)
From Verif.Spec Require Import Pose.
From mathcomp Require Import all_ssreflect all_algebra.
Set Implicit Arguments.
Unset Strict Implicit.
Unset Printing Implicit Defensive.
Import GRing.Theory Num.Theory.
Local Open Scope ring_scope.

Section Spec.
Variable F : realFieldType.
Variable N : nat.
Notation shape := 'M[F]_(N, 2).
(** The points balance around the origin. *)
Definition balanced (s : shape) : Prop := forall j, \sum_i s i j = 0.
(** The sum of the squared distances between all pairs of points. *)
Definition extent (s : shape) : F := \sum_i \sum_j ((s i 0 - s j 0) ^+ 2 + (s i 1 - s j 1) ^+ 2).
(** The sum of the squared distances between corresponding points. *)
Definition apart (s t : shape) : F := \sum_i ((s i 0 - t i 0) ^+ 2 + (s i 1 - t i 1) ^+ 2).
Definition average (ss : seq shape) : shape := (size ss)%:R^-1 *: \sum_(s <- ss) s.
(** [u] is the copy of [s], moved, turned and scaled, that has the extent of [t] and is nearest to [t] among those. *)
Definition best_copy (s t u : shape) : Prop :=
  (exists al be x y, u = moved al be x y s) /\ extent u = extent t /\
  forall al be x y, extent (moved al be x y s) = extent t -> apart u t <= apart (moved al be x y s) t.
End Spec.
