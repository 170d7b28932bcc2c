(** The regressors of menpofit/math/regression.py that reduce dimensions: PCRRegression, OptimalLinearRegression and
    OPPRegression.  Exact arithmetic over a real closed field (np.sqrt); np.linalg.svd, np.linalg.pinv and menpo.math.pca are
    oracles.  The increment methods (237-253, 330-346, 413-429) raise NotImplementedError and are not modelled here. *)
From Verif.Model Require Import Py LinAlg Regression.
From mathcomp Require Import all_ssreflect all_algebra.
Set Implicit Arguments.
Unset Strict Implicit.
Unset Printing Implicit Defensive.
Import GRing.Theory Num.Theory.
Local Open Scope ring_scope.

Section Regressors.
Variable F : rcfType.
(** np.linalg.svd(X, full_matrices=False): U, s, V with X = U diag(s) V. *)
Variable svd : forall n d, 'M[F]_(n, d) -> 'M[F]_(n, minn n d) * 'cV[F]_(minn n d) * 'M[F]_(minn n d, d).
(** menpo.math.pca(X, centre=False): as many rows of components and eigenvalues as it keeps. *)
Variable pca : forall n d, 'M[F]_(n, d) -> {k & ('M[F]_(k, d) * 'cV[F]_k)%type}.
(** np.linalg.pinv *)
Variable pinv : forall n d, 'M[F]_(n, d) -> 'M[F]_(d, n).

(** Slices M[:, :k], M[:k, :], v[:k]; entries past the end (never asked for below) are zero. *)
Definition first_cols k n r (M : 'M[F]_(n, r)) : 'M[F]_(n, k) := \matrix_(i, j) (if insub (val j) is Some j' then M i j' else 0).
Definition first_rows k r n (M : 'M[F]_(r, n)) : 'M[F]_(k, n) := \matrix_(i, j) (if insub (val i) is Some i' then M i' j else 0).
(** np.sum(np.cumsum(s) / np.sum(s) < variance), 226-228 and 313-315.  A zero sum gives nan, which compares as false. *)
Definition cumsum r (s : 'cV[F]_r) (i : 'I_r) : F := \sum_(j < r | (j <= i)%N) s j 0.
Definition n_kept r (s : 'cV[F]_r) (variance : F) : nat :=
  let total := \sum_i s i 0 in
  #|[pred i | (total != 0) && (cumsum s i / total < variance)]|.

(** PCRRegression.train 209-235: [if self.variance] also skips the reduction for zero. *)
Record pcr_state d q := mk_pcr { pcr_k : nat; pcr_V : 'M[F]_(pcr_k, d); pcr_R : 'M[F]_(d, q) }.
Definition pcr_train (variance : option F) (bias : bool) n d q (X : 'M[F]_(n, d)) (Y : 'M[F]_(n, q)) : res (pcr_state (d + bias) q) :=
  let X := add_bias bias X in
  let '(U, s, V) := svd X in
  let reduce v :=
    let k := n_kept s v in
    let U := first_cols k U in let V := first_rows k V in let s := first_rows k s in
    let? inv_S := np_inv (diag_mx s^T) in Ok (mk_pcr V (V^T *m inv_S *m U^T *m Y)) in
  let keep := let? inv_S := np_inv (diag_mx s^T) in Ok (mk_pcr V (V^T *m inv_S *m U^T *m Y)) in
  match variance with
  | None => keep
  | Some v => if v == 0 then keep else reduce v
  end.
(** predict, 255-275, for a two-dimensional x. *)
Definition pcr_predict (bias : bool) d q (st : pcr_state (d + bias) q) m (x : 'M[F]_(m, d)) : 'M[F]_(m, q) :=
  let x := add_bias bias x in
  let x := x *m (pcr_V st)^T *m pcr_V st in
  x *m pcr_R st.

(** OptimalLinearRegression.train 295-328: whitened components 319-320, A and A_tilde 322-323, and R. *)
Definition whitened_components d k (U : 'M[F]_(k, d)) (l : 'cV[F]_k) : res 'M[F]_(k, d) :=
  let? inv_l := np_inv (diag_mx l^T) in
  let inv_eig := map_mx Num.sqrt inv_l in
  Ok (inv_eig *m U).
Definition olr_tilde n d q k (X : 'M[F]_(n, d)) (Y : 'M[F]_(n, q)) (U : 'M[F]_(k, d)) : 'M[F]_k :=
  let A := X^T *m Y *m Y^T *m X in U *m A *m U^T.
Definition olr_train (variance : option F) (bias : bool) n d q (X : 'M[F]_(n, d)) (Y : 'M[F]_(n, q)) : res 'M[F]_(d + bias, q) :=
  let X := add_bias bias X in
  let: existT k (U, l) := pca X in
  let finish k (U : 'M[F]_(k, d + bias)) (l : 'cV[F]_k) :=
    let? U := whitened_components U l in
    let A_tilde := olr_tilde X Y U in
    let: existT _ (V, _) := pca A_tilde in
    let H := V *m U in
    Ok (H^T *m (pinv (X *m H^T) *m Y)) in
  match variance with
  | None => finish k U l
  | Some v => let k := n_kept l v in finish k (first_rows k U) (first_rows k l)
  end.
(** predict, 348-367 and 431-450, for a two-dimensional x. *)
Definition linear_predict (bias : bool) d q (R : 'M[F]_(d + bias, q)) m (x : 'M[F]_(m, d)) : 'M[F]_(m, q) := add_bias bias x *m R.

(** OPPRegression: whitening 402-407 and train 387-411. *)
Definition opp_whiten n d (X : 'M[F]_(n, d)) : res 'M[F]_(n, d) :=
  let: existT k (U, l) := pca X in
  let? U := whitened_components U l in
  Ok (X *m U^T *m U).
Definition opp_train (whiten bias : bool) n d q (X : 'M[F]_(n, d)) (Y : 'M[F]_(n, q)) : res 'M[F]_(d + bias, q) :=
  let X := add_bias bias X in
  let? X := if whiten then opp_whiten X else Ok X in
  let '(U, _, V) := svd (X^T *m Y) in
  Ok (U *m V).
End Regressors.
