(** Images that differ, wherever they are looked at, by something an appearance model explains, or by something it does not. *)
From Verif.Model Require Import Py.
From mathcomp Require Import all_ssreflect all_algebra.
Set Implicit Arguments.
Unset Strict Implicit.
Unset Printing Implicit Defensive.
Import GRing.Theory.
Local Open Scope ring_scope.

Section Spec.
Variable F : realFieldType.
Variables (k m : nat) (I W : Type).
Variable warp : I -> W -> res 'cV[F]_k.
Variable A : 'M[F]_(k, m).
(** The two warped images fail alike, or differ by [d] with [rel d]. *)
Definition differ_by (rel : 'cV[F]_k -> Prop) (im im' : I) (w : W) : Prop :=
  match warp im w, warp im' w with
  | Ok x, Ok y => exists d, y = x + d /\ rel d
  | Err e, Err e' => e = e'
  | _, _ => False
  end.
(** A combination of the components. *)
Definition combination (d : 'cV[F]_k) : Prop := exists c : 'cV[F]_m, d = A *m c.
(** Orthogonal to all the components. *)
Definition orthogonal (d : 'cV[F]_k) : Prop := A^T *m d = 0.
End Spec.
