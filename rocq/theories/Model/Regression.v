(** Linear regressors: menpofit/math/regression.py. *)
From Verif.Model Require Import Py LinAlg.
From mathcomp Require Import all_ssreflect all_algebra.
Set Implicit Arguments.
Unset Strict Implicit.
Unset Printing Implicit Defensive.
Import GRing.Theory Num.Theory.
Local Open Scope ring_scope.

Section Regression.
Variable F : realFieldType.

(** np.hstack((X, np.ones((X.shape[0], 1)))) if bias, else X (a block of no columns is added), 38-40, 71-73, 98-102. *)
Definition add_bias (bias : bool) n d (X : 'M[F]_(n, d)) : 'M[F]_(n, d + bias) := row_mx X (const_mx 1).
(** if a: np.fill_diagonal(S, a + np.diag(S)) *)
Definition add_diagonal (a : F) n (S : 'M[F]_n) : 'M[F]_n := if a == 0 then S else S + a%:M.

(** IRLRegression, 6-103: options and state.  d is the number of features after adding the bias. *)
Record irl_state d k := mk_irl { irl_V : option 'M[F]_d; irl_W : 'M[F]_(d, k) }.
(** train, 27-50. *)
Definition irl_train (alpha : F) (bias incrementable : bool) n d k (X : 'M[F]_(n, d)) (Y : 'M[F]_(n, k)) : res (irl_state (d + bias) k) :=
  let X := add_bias bias X in
  let XX := X^T *m X in
  let XX := 2%:R^-1 *: (XX + XX^T) in
  let XX := add_diagonal alpha XX in
  let? V := if incrementable then let? V := np_inv XX in Ok (Some V) else Ok None in
  let? W := np_solve XX (X^T *m Y) in
  Ok (mk_irl V W).
(** increment, 52-82.  [irl_V] is None exactly if the model is not incrementable, 48-49 and 68-69. *)
Definition irl_increment (alpha : F) (bias : bool) n d k (s : irl_state (d + bias) k) (X : 'M[F]_(n, d)) (Y : 'M[F]_(n, k)) : res (irl_state (d + bias) k) :=
  match irl_V s with
  | None => Err ValueError
  | Some V =>
      let X := add_bias bias X in
      let U := X *m V *m X^T in
      let U := add_diagonal alpha U in
      let? U := np_inv U in
      let Q := V *m X^T *m U *m X in
      let V' := V - Q *m V in
      Ok (mk_irl (Some V') (irl_W s - Q *m irl_W s + V' *m (X^T *m Y)))
  end.
(** predict, 84-103, for a two-dimensional x. *)
Definition irl_predict (bias : bool) n d k (s : irl_state (d + bias) k) (x : 'M[F]_(n, d)) : 'M[F]_(n, k) := add_bias bias x *m irl_W s.

(** A batch of samples, and a history: one training, then increments. *)
Record batch d k := mk_batch { b_n : nat; b_X : 'M[F]_(b_n, d); b_Y : 'M[F]_(b_n, k) }.
Fixpoint irl_increments (alpha : F) (bias : bool) d k (s : irl_state (d + bias) k) (bs : seq (batch d k)) : res (irl_state (d + bias) k) :=
  match bs with
  | [::] => Ok s
  | b :: bs => let? s := irl_increment alpha s (b_X b) (b_Y b) in irl_increments alpha s bs
  end.

(** IIRLRegression, 106-188: train exchanges the roles of X and Y (125-145); bias is always False and the base class is
    constructed with incrementable=False (122). *)
Record iirl_state d k := mk_iirl { iirl_V : option 'M[F]_k; iirl_W : 'M[F]_(d, k) }.
Definition iirl_train (alpha alpha2 : F) n d k (X : 'M[F]_(n, d)) (Y : 'M[F]_(n, k)) : res (iirl_state d k) :=
  let? s := @irl_train alpha false false n k d Y X in
  let J := usubmx (irl_W s) in
  let H := add_diagonal alpha2 (J *m J^T) in
  let? W := np_solve H J in
  Ok (mk_iirl None W^T).
(** increment, 147-172: the call of the base class at 164 comes first; what follows it is reached only with a matrix V,
    which train never stores, and is not modelled. *)
Definition iirl_increment n d k (s : iirl_state d k) (X : 'M[F]_(n, d)) (Y : 'M[F]_(n, k)) : res (iirl_state d k) :=
  match iirl_V s with None => Err ValueError | Some _ => Ok s end.
End Regression.
