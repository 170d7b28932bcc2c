(** Least squares, pseudo-inverses and their optimality conditions, independent of the solvers. *)
From mathcomp Require Import all_ssreflect all_algebra.
Set Implicit Arguments.
Unset Strict Implicit.
Unset Printing Implicit Defensive.
Import GRing.Theory Num.Theory.
Local Open Scope ring_scope.

Section Spec.
Variable F : realFieldType.
(** Squared Euclidean norm. *)
Definition sqn n (v : 'cV[F]_n) : F := \sum_i v i 0 ^+ 2.
(** Weighted squared norm. *)
Definition wsqn n (w v : 'cV[F]_n) : F := \sum_i w i 0 * v i 0 ^+ 2.
(** Full column rank. *)
Definition full_rank n m (A : 'M[F]_(n, m)) : Prop := forall x : 'cV[F]_m, A *m x = 0 -> x = 0.
(** The Moore-Penrose equations: what np.linalg.pinv computes. *)
Definition penrose n m (A : 'M[F]_(n, m)) (P : 'M[F]_(m, n)) : Prop :=
  [/\ A *m P *m A = A, P *m A *m P = P, (A *m P)^T = A *m P & (P *m A)^T = P *m A].
(** [x] is the only point where [f] takes its least value. *)
Definition unique_minimum (T : Type) (f : T -> F) (x : T) : Prop :=
  (forall y, f x <= f y) /\ (forall y, f y <= f x -> y = x).
End Spec.
