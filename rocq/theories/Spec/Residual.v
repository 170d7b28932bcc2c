(** What a residual is supposed to measure, independent of how it is computed. *)
From mathcomp Require Import all_ssreflect all_algebra.
Set Implicit Arguments.
Unset Strict Implicit.
Unset Printing Implicit Defensive.
Import Order.TTheory GRing.Theory Num.Theory.
Local Open Scope ring_scope.

Section Spec.
Variable F : rcfType.
(** The mean of an image, and its covariance with another one (times the number of pixels). *)
Definition mean n (x : 'cV[F]_n) : F := (\sum_i x i 0) / n%:R.
Definition cov n (x y : 'cV[F]_n) : F := \sum_i (x i 0 - mean x) * (y i 0 - mean y).
(** Pearson's correlation coefficient. *)
Definition correlation n (x y : 'cV[F]_n) : F := cov x y / (Num.sqrt (cov x x) * Num.sqrt (cov y y)).
(** A change of contrast [a] and of brightness [b]. *)
Definition relit n (a b : F) (x : 'cV[F]_n) : 'cV[F]_n := \col_i (a * x i 0 + b).
(** The orientation of the gradient (y, x) is a unit vector (s, c) with positive multiple (y, x); a zero gradient counts as
    pointing along x. *)
Definition oriented (gy gx s c : F) : Prop :=
  s ^+ 2 + c ^+ 2 = 1 /\ ((gy = 0 /\ gx = 0 /\ s = 0 /\ c = 1) \/ exists m, 0 < m /\ gy = m * s /\ gx = m * c).
(** The value of pixel [i] of [x], with gradient [gy], [gx], after a warp with parameters [q] has moved it, to first order. *)
Definition moved n p (x gy gx : 'cV[F]_n) (D : 'M[F]_(n, p) * 'M[F]_(n, p)) (q : 'cV[F]_p) (i : 'I_n) : F :=
  x i 0 + (gy i 0 * (\sum_j D.1 i j * q j 0) + gx i 0 * (\sum_j D.2 i j * q j 0)).
End Spec.
