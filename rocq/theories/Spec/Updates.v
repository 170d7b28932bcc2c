(** Objectives of the CLM, unified AAM-CLM and APS fits, written without the solvers. *)
From Verif.Spec Require Import LinAlg.
From mathcomp Require Import all_ssreflect all_algebra.
Set Implicit Arguments.
Unset Strict Implicit.
Unset Printing Implicit Defensive.
Import GRing.Theory Num.Theory.
Local Open Scope ring_scope.

Section Spec.
Variable F : realFieldType.
(** Quadratic form of a precision matrix, and positive semi-definite matrices. *)
Definition quad n (Q : 'M[F]_n) (v : 'cV[F]_n) : F := (v^T *m Q *m v) 0 0.
Definition psd n (Q : 'M[F]_n) : Prop := Q^T = Q /\ forall v, 0 <= quad Q v.
(** The Gaussian prior of a shape model with [k] components of variances [ev] after the four similarity parameters, which
    are not penalised. *)
Definition shape_penalty k (rho2 : F) (ev : 'cV[F]_k) (p : 'cV[F]_(4 + k)) : F := rho2 * \sum_i (dsubmx p i 0) ^+ 2 / ev i 0.
(** Objective of a constrained local model for the landmark displacements [e]: maximum likelihood and maximum a posteriori. *)
Definition clm_ml n P (J : 'M[F]_(n, P)) (e : 'cV[F]_n) (dp : 'cV[F]_P) : F := sqn (e - J *m dp).
Definition clm_map n k (J : 'M[F]_(n, 4 + k)) (e : 'cV[F]_n) (rho2 : F) (ev : 'cV[F]_k) (p dp : 'cV[F]_(4 + k)) : F :=
  clm_ml J e dp + shape_penalty rho2 ev (p + dp).
(** Objective of the unified algorithms: [a] weights the appearance term against the landmark term. *)
Definition unified n s P (a i_s i_r : F) (j : 'M[F]_(n, P)) (jc : 'M[F]_(s, P)) (e : 'cV[F]_n) (ec : 'cV[F]_s) (dp : 'cV[F]_P) : F :=
  a * (i_s * sqn (e - j *m dp)) + (1 - a) * (i_r * sqn (ec - jc *m dp)).
(** The two Jacobians under their weights, one above the other. *)
Definition stack n s P (a i_s i_r : F) (j : 'M[F]_(n, P)) (jc : 'M[F]_(s, P)) : 'M[F]_(n + s, P) := col_mx ((a * i_s) *: j) (((1 - a) * i_r) *: jc).
(** [x] is the only point where the least value over both arguments is taken (for a suitable first argument). *)
Definition profile_minimum (C T : Type) (f : C -> T -> F) (x : T) : Prop :=
  exists c, forall c' y, f c x <= f c' y /\ (f c' y <= f c x -> y = x).
(** Objective of an active pictorial structure at the parameters [q], for the error [e] seen at the parameters [p]: appearance
    error under the precision [Qa] plus [w] times the deformation under the precision [Qd], measured from the pose [g]. *)
Definition aps n s P (Qa : 'M[F]_n) (Qd : 'M[F]_s) (w : F) (J : 'M[F]_(n, P)) (S : 'M[F]_(s, P)) (e : 'cV[F]_n)
  (p g q : 'cV[F]_P) : F := quad Qa (e + J *m (q - p)) + w * quad Qd (S *m (q - g)).
(** The similarity part of the parameters. *)
Definition pose_part P (p : 'cV[F]_P) : 'cV[F]_P := \col_i (if (i < 4)%N then p i 0 else 0).
End Spec.
