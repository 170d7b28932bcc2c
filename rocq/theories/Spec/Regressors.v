(** Least squares with least norm, singular values, principal components and orthogonality, independent of the regressors. *)
From Verif.Spec Require Import LinAlg.
From mathcomp Require Import all_ssreflect all_algebra.
Set Implicit Arguments.
Unset Strict Implicit.
Unset Printing Implicit Defensive.
Import GRing.Theory Num.Theory.
Local Open Scope ring_scope.

Section Spec.
Variable F : realFieldType.
(** Squared Frobenius norm. *)
Definition fro n d (A : 'M[F]_(n, d)) : F := \sum_i \sum_j A i j ^+ 2.
(** [w] explains [y] best among all vectors, and is the shortest vector that does. *)
Definition least_squares n d (X : 'M[F]_(n, d)) (y : 'cV[F]_n) (w : 'cV[F]_d) : Prop := forall v, sqn (X *m w - y) <= sqn (X *m v - y).
Definition least_norm n d (X : 'M[F]_(n, d)) (y : 'cV[F]_n) (w : 'cV[F]_d) : Prop :=
  least_squares X y w /\ forall v, least_squares X y v -> sqn w <= sqn v /\ (sqn v <= sqn w -> v = w).
(** The same among the combinations of the rows of [V]. *)
Definition best_in_rows n d k (V : 'M[F]_(k, d)) (X : 'M[F]_(n, d)) (y : 'cV[F]_n) (w : 'cV[F]_d) : Prop :=
  exists z, w = V^T *m z /\ forall z', sqn (X *m w - y) <= sqn (X *m (V^T *m z') - y) /\
    (sqn (X *m (V^T *m z') - y) <= sqn (X *m w - y) -> V^T *m z' = w).
(** Thin singular value decomposition: what np.linalg.svd returns. *)
Definition is_svd n d r (X : 'M[F]_(n, d)) (U : 'M[F]_(n, r)) (s : 'cV[F]_r) (V : 'M[F]_(r, d)) : Prop :=
  [/\ U^T *m U = 1%:M, V *m V^T = 1%:M, X = U *m diag_mx s^T *m V, (forall i, 0 <= s i 0) &
      (forall i j : 'I_r, (i <= j)%N -> s j 0 <= s i 0)].
(** Principal components of data that is not centred: orthonormal rows that diagonalise the (scaled) second moments, with
    the positive eigenvalues only. *)
Definition is_pca n d k (X : 'M[F]_(n, d)) (U : 'M[F]_(k, d)) (l : 'cV[F]_k) : Prop :=
  [/\ U *m U^T = 1%:M, (forall i, 0 < l i 0) & exists2 c : F, 0 < c & c *: (X^T *m X) = U^T *m diag_mx l^T *m U].
(** Part of the singular values (or eigenvalues) carried by the first [k]. *)
Definition carried r (s : 'cV[F]_r) (k : nat) : F := (\sum_(i < r | (i < k)%N) s i 0) / \sum_i s i 0.
End Spec.
