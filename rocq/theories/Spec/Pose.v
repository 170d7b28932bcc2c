(** Moving, turning and scaling a shape in the plane. *)
From mathcomp Require Import all_ssreflect all_algebra.
Set Implicit Arguments.
Unset Strict Implicit.
Unset Printing Implicit Defensive.
Import GRing.Theory Num.Theory.
Local Open Scope ring_scope.

Section Spec.
Variable F : realFieldType.
Variable N : nat.
Notation shape := 'M[F]_(N, 2).
(** Every point (u, v) goes to (al u - be v + x, be u + al v + y): turned by the angle of (al, be), scaled by its length, moved
    by (x, y). *)
Definition moved (al be x y : F) (s : shape) : shape :=
  \matrix_(i, j) (if j == 0 then al * s i 0 - be * s i 1 + x else be * s i 0 + al * s i 1 + y).
(** The scale is not zero. *)
Definition nonzero (al be : F) : Prop := (al != 0) || (be != 0).
(** Not all the points of the shape coincide. *)
Definition spread (s : shape) : Prop := exists i j k, s i k != s j k.
(** Some turned copy of [s] correlates with [t]: there is a best angle.  Both are compared around their centres: the sums run
    over all pairs of points. *)
Definition correlated (s t : shape) : Prop :=
  \sum_i \sum_j ((s i 0 - s j 0) * (t i 0 - t j 0) + (s i 1 - s j 1) * (t i 1 - t j 1)) != 0 \/
  \sum_i \sum_j ((s i 0 - s j 0) * (t i 1 - t j 1) - (s i 1 - s j 1) * (t i 0 - t j 0)) != 0.
End Spec.

Section Shift.
Variable F : realFieldType.
Variable N : nat.
Notation shape := 'M[F]_(N, 2).
(** Every point (u, v) goes to (u + x, v + y). *)
Definition shifted (o : F * F) (s : shape) : shape := \matrix_(i, j) (s i j + if j == 0 then o.1 else o.2).
End Shift.
