(** Exact derivatives of maps that are affine in their argument. *)
From Verif.Model Require Import Py Einsum ModelInstance Jacobian.
From Verif.Spec Require Import ModelInstance.
From mathcomp Require Import all_ssreflect all_algebra.
Set Implicit Arguments.
Unset Strict Implicit.
Unset Printing Implicit Defensive.
Import GRing.Theory Num.Theory.
Local Open Scope ring_scope.

Section Spec.
Variable F : realFieldType.
(** [jac k r] is the derivative at [p], with respect to the k-th of [P] parameters, of the r-th of [d] outputs of [f]: for
    these maps the first order expansion is exact. *)
Definition derivative (P d : nat) (f : (nat -> F) -> nat -> F) (p : nat -> F) (jac : nat -> nat -> F) : Prop :=
  forall h r, (r < d)%N -> f (fun k => p k + h k) r = f p r + \sum_(k < P) h k * jac k r.

(** The affine transform with parameters p, in any dimension: the d x (d + 1) matrix eye + p, p stored by columns
    (in two dimensions [[1 + p1, p3, p5], [p2, 1 + p4, p6]]). *)
Definition affine_map (d : nat) (p : nat -> F) (x : nat -> F) (r : nat) : F :=
  x r + \sum_(c < d) p (c * d + r)%N * x c + p (d * d + r)%N.
(** The similarity with parameters (a, b, tx, ty). *)
Definition similarity_map (p : nat -> F) (x : nat -> F) (r : nat) : F :=
  if r == 0%N then (1 + p 0%N) * x 0%N - p 1%N * x 1%N + p 2%N
  else p 1%N * x 0%N + (1 + p 0%N) * x 1%N + p 3%N.
(** A well formed triangulation of [n] landmarks: three different landmarks each. *)
Definition triangulation (n : nat) (trilist : seq (nat * nat * nat)) : Prop :=
  forall t, t \in trilist -> let '(a, b, c) := t in [&& (a < n)%N, (b < n)%N, (c < n)%N, a != b, a != c & b != c].
End Spec.

Section Spec2.
Variable F : realFieldType.
Variable N : nat.
(** Coordinate r of point i of the shape a global shape model generates from the weights w under the similarity g. *)
Definition generated (m : lmodel F N) (g : sim F) (i : 'I_N) (w : nat -> F) (r : nat) : F :=
  let x (c : 'I_2) := m_mean m i c + \sum_(k < size (active m)) w k * (nth 0 (active m) k) i c in
  if r == 0%N then (1 + s_a g) * x 0 - s_b g * x 1 + s_tx g else s_b g * x 0 + (1 + s_a g) * x 1 + s_ty g.

(** The point with coordinates (alpha, beta) in the triangle with the corners p. *)
Definition in_triangle (p : nat -> nat -> F) (tri : nat * nat * nat) (alpha beta : F) (c : nat) : F :=
  let '(v0, v1, v2) := tri in (1 - alpha - beta) * p v0 c + alpha * p v1 c + beta * p v2 c.
(** [J r c] is the derivative of the map of the triangle from [s] to [t] with respect to the point: the map is affine. *)
Definition triangle_derivative (s t : nat -> nat -> F) (tri : nat * nat * nat) (J : nat -> nat -> F) : Prop :=
  forall a b a' b' r, (r < 2)%N ->
    in_triangle t tri a' b' r - in_triangle t tri a b r =
    \sum_(c < 2) J r c * (in_triangle s tri a' b' c - in_triangle s tri a b c).
End Spec2.

(** The caller never changes, in place, an array that was passed to an earlier call. *)
Fixpoint undisturbed (A : eqType) (passed : seq nat) (es : seq (cache_event A)) : Prop :=
  match es with
  | [::] => True
  | CallDdp r :: es => undisturbed (r :: passed) es
  | WriteArray r v :: es => r \notin passed /\ undisturbed passed es
  end.

Section Spec3.
Variable F : realFieldType.
Variable n : nat.
(** P = [1, x, y] and L = [[K, P], [P^T, 0]] of a thin plate spline with the source points [source] and the kernel matrix K. *)
Definition P_of (source : 'M[F]_(n, 2)) : 'M[F]_(n, 3) := \matrix_(i, j) (if j == 0 then 1 else source i (inord j.-1)).
Definition L_of (K : 'M[F]_n) (source : 'M[F]_(n, 2)) : 'M[F]_(n + 3) := block_mx K (P_of source) (P_of source)^T 0.
(** The contribution of the kernels, with the gradients [G k i l] (coordinate l of the gradient at the point k of the kernel
    centred at the i-th source point), to the derivative of output j of a thin plate spline with respect to coordinate l of
    the point k; the whole derivative adds the affine part. *)
Definition tps_nonlinear (coef : 'M[F]_(n + 3, 2)) (G : nat -> nat -> nat -> F) (k : nat) (l j : 'I_2) : F :=
  \sum_(i < n) coef (lshift 3 i) j * G k i l.
Definition tps_gradient (coef : 'M[F]_(n + 3, 2)) (G : nat -> nat -> nat -> F) (k : nat) (l j : 'I_2) : F :=
  coef (rshift n (lift 0 l)) j + tps_nonlinear coef G k l j.
End Spec3.
