(** Differentiable radial basis functions, transform/rbf.py.  Real arithmetic, any number of dimensions: a point of the
    d-dimensional space is a function of which the values below [d] count. *)
From Coq Require Import Reals.
Local Open Scope R_scope.

(** Sum over the first [d] coordinates. *)
Fixpoint coords (d : nat) (f : nat -> R) : R := match d with O => 0 | S d' => coords d' f + f d' end.
(** scipy cdist: the Euclidean distance. *)
Definition distance (d : nat) (x c : nat -> R) : R := sqrt (coords d (fun k => (x k - c k) * (x k - c k))).

(** menpo R2LogRRBF._apply and R2LogR2RBF._apply at one point and one centre: zero where the distance is zero. *)
Definition r2logr (d : nat) (x c : nat -> R) : R :=
  let r := distance d x c in if Req_EM_T r 0 then 0 else r * r * ln r.
Definition r2logr2 (d : nat) (x c : nat -> R) : R :=
  let r := distance d x c in if Req_EM_T r 0 then 0 else r * r * (2 * ln r).

(** euclidean_distance[euclidean_distance == 0] = 1, 38 and 76. *)
Definition safe_distance (d : nat) (x c : nat -> R) : R := let r := distance d x c in if Req_EM_T r 0 then 1 else r.
(** DifferentiableR2LogRRBF.d_dl, 35-41, entry [point, centre, l]. *)
Definition r2logr_d_dl (d : nat) (x c : nat -> R) (l : nat) : R := (x l - c l) * (1 + 2 * ln (safe_distance d x c)).
(** DifferentiableR2LogR2RBF.d_dl, 73-79. *)
Definition r2logr2_d_dl (d : nat) (x c : nat -> R) (l : nat) : R := 2 * (x l - c l) * (2 * ln (safe_distance d x c) + 1).
