(** Dense shapes: the landmarks first, then the warped pixels; sparse parts of model instances. *)
From Verif.Model Require Import Py ModelInstance.
From Verif.Spec Require Import ModelInstance LinAlg.
From mathcomp Require Import all_ssreflect all_algebra.
Set Implicit Arguments.
Unset Strict Implicit.
Unset Printing Implicit Defensive.
Import GRing.Theory Num.Theory.
Local Open Scope ring_scope.

Section Spec.
Variable F : realFieldType.
Variables n k : nat.
Notation shape := 'M[F]_(n + k, 2).
(** Linear combination of shapes with coefficients [a]. *)
Definition combine (cs : seq shape) (a : nat -> F) : shape := \sum_(i < size cs) a i *: nth 0 cs i.
(** The first n points of a shape. *)
Definition first_points (s : shape) : 'M[F]_(n, 2) := \matrix_(i, j) s (lshift k i) j.
(** Squared distance between two sparse shapes. *)
Definition distance2 (x y : 'M[F]_(n, 2)) : F := \sum_i \sum_j (x i j - y i j) ^+ 2.
(** The landmarks determine the coefficients: combinations with the same first points have the same coefficients. *)
Definition determined (cs : seq shape) : Prop :=
  forall a, first_points (combine cs a) = 0 -> forall i, (i < size cs)%N -> a i = 0.
(** Scaling and translation, no rotation. *)
Definition unrotated (g : sim F) : Prop := s_b g = 0 /\ 1 + s_a g <> 0.
End Spec.
