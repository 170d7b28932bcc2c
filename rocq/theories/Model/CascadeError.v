(** The regressors of menpofit/math/regression.py as the supervised descent algorithms call them
    (sdm/algorithm/base.py 99-110): on the rows of the feature and displacement arrays. *)
From Verif.Model Require Import Py Regression Regressors.
From mathcomp Require Import all_ssreflect all_algebra.
Set Implicit Arguments.
Unset Strict Implicit.
Unset Printing Implicit Defensive.
Import GRing.Theory Num.Theory.
Local Open Scope ring_scope.

Section Rows.
Variable F : realFieldType.
(** An array of n rows (np.vstack, base.py 211-214, 249-250; np.empty and its assignments, 285-291, 447-457), and the
    rows of an array. *)
Definition array_of n d (rows : seq 'rV[F]_d) : 'M[F]_(n, d) := \matrix_(i, j) nth 0 rows i 0 j.
Definition rows_of n d (A : 'M[F]_(n, d)) : seq 'rV[F]_d := [seq row i A | i <- enum 'I_n].
(** The displacement rows; a row that was never written holds whatever np.empty left, here zero (every row is written,
    theorem c39_targets). *)
Definition written d (rows : seq (option 'rV[F]_d)) : seq 'rV[F]_d := map (odflt 0) rows.

(** A regressor fed with rows; arrays of different height raise ValueError (np.dot). *)
Definition train_rows (R : Type) d k (tr : forall n, 'M[F]_(n, d) -> 'M[F]_(n, k) -> res R)
    (features : seq 'rV[F]_d) (delta : seq (option 'rV[F]_k)) : res R :=
  if size features == size delta then tr (size features) (array_of (size features) features) (array_of (size features) (written delta))
  else Err ValueError.
Definition predict_rows (R : Type) d k (pr : forall n, R -> 'M[F]_(n, d) -> 'M[F]_(n, k)) (r : R) (features : seq 'rV[F]_d)
    : res (seq 'rV[F]_k) := Ok (rows_of (pr _ r (array_of (size features) features))).

(** IIRLRegression.predict, regression.py 174-188. *)
Definition iirl_predict d k n (s : iirl_state F d k) (x : 'M[F]_(n, d)) : 'M[F]_(n, k) := x *m iirl_W s.

(** The regressors behind the algorithms: IRLRegression (Newton; nonparametric.py 112, parametricshape.py 133,
    parametricappearance.py 144, fullyparametric.py 192, 236, 280) and IIRLRegression (Gauss-Newton; nonparametric.py 147,
    parametricshape.py 174, parametricappearance.py 184, fullyparametric.py 326). *)
Definition newton_train (alpha : F) (bias inc : bool) d k := train_rows (fun n => @irl_train F alpha bias inc n d k).
Definition newton_increment (alpha : F) (bias : bool) d k (s : irl_state F (d + bias) k) :=
  train_rows (fun n => @irl_increment F alpha bias n d k s).
Definition newton_predict (bias : bool) d k := predict_rows (fun n => @irl_predict F bias n d k).
Definition gauss_newton_train (alpha alpha2 : F) d k := train_rows (fun n => @iirl_train F alpha alpha2 n d k).
Definition gauss_newton_predict d k := predict_rows (@iirl_predict d k).
End Rows.

Section Reduced.
Variable F : rcfType.
Variable svd : forall n d, 'M[F]_(n, d) -> 'M[F]_(n, minn n d) * 'cV[F]_(minn n d) * 'M[F]_(minn n d, d).
Variable pca : forall n d, 'M[F]_(n, d) -> {k & ('M[F]_(k, d) * 'cV[F]_k)%type}.
Variable pinv : forall n d, 'M[F]_(n, d) -> 'M[F]_(d, n).
(** PCRRegression (nonparametric.py 181, parametricshape.py 258), OptimalLinearRegression (nonparametric.py 216,
    parametricshape.py 214) and OPPRegression (nonparametric.py 249, parametricshape.py 298, fullyparametric.py 368). *)
Definition pcr_train_rows variance (bias : bool) d k := train_rows (fun n => @pcr_train F svd variance bias n d k).
Definition pcr_predict_rows (bias : bool) d k := predict_rows (fun n s => @pcr_predict F bias d k s n).
Definition optimal_train variance (bias : bool) d k := train_rows (fun n => @olr_train F pca pinv variance bias n d k).
Definition procrustes_train whiten (bias : bool) d k := train_rows (fun n => @opp_train F svd pca whiten bias n d k).
Definition linear_predict_rows (bias : bool) d k := predict_rows (fun n s => @linear_predict F bias d k s n).
End Reduced.
