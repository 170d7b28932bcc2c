(** Partial derivatives. *)
From Coq Require Import Reals.
From Coquelicot Require Import Coquelicot.
Local Open Scope R_scope.
(** The point x with coordinate l replaced by t. *)
Definition with_coord (x : nat -> R) (l : nat) (t : R) : nat -> R := fun k => if Nat.eqb k l then t else x k.
(** [v] is the partial derivative of [f] at [x] along coordinate [l]. *)
Definition partial_derivative (f : (nat -> R) -> R) (x : nat -> R) (l : nat) (v : R) : Prop :=
  is_derive (fun t => f (with_coord x l t)) (x l) v.
(** A thin plate spline in the plane, one output coordinate: kernels weighted by the coefficients of the landmarks, plus the
    affine part. *)
Fixpoint weighted_kernels (K : (nat -> R) -> (nat -> R) -> R) (wc : list (R * (nat -> R))) (x : nat -> R) : R :=
  match wc with nil => 0 | cons (w, c) r => w * K x c + weighted_kernels K r x end.
Definition spline (K : (nat -> R) -> (nat -> R) -> R) (wc : list (R * (nat -> R))) (a0 a1 a2 : R) (x : nat -> R) : R :=
  weighted_kernels K wc x + (a0 + a1 * x 0%nat + a2 * x 1%nat).
