(** C93: regressors do not depend on the order of their samples. *)
From Verif.Model Require Import Py LinAlg Regression Regressors.
From Verif.Proofs Require RegOrder.
From mathcomp Require Import all_ssreflect all_fingroup all_algebra.
Set Implicit Arguments.
Unset Strict Implicit.
Unset Printing Implicit Defensive.
Import GRing.Theory Num.Theory.
Local Open Scope ring_scope.

(** The same permutation of the rows of the features and of the targets.  Incremental linear regression (the default of
    supervised descent), trained and incremented, and its indirect variant. *)
Theorem c93_regression (F : realFieldType) n d k (s : 'S_n) (X : 'M[F]_(n, d)) (Y : 'M[F]_(n, k)) :
  (forall alpha bias incrementable, irl_train alpha bias incrementable (row_perm s X) (row_perm s Y) = irl_train alpha bias incrementable X Y) /\
  (forall alpha (bias : bool) (st : irl_state F (d + bias) k), irl_increment alpha st (row_perm s X) (row_perm s Y) = irl_increment alpha st X Y) /\
  (forall alpha alpha2, iirl_train alpha alpha2 (row_perm s X) (row_perm s Y) = iirl_train alpha alpha2 X Y).
Proof.
split; first by move=> *; exact: RegOrder.train_perm.
by split=> *; [exact: RegOrder.increment_perm|exact: RegOrder.iirl_perm].
Qed.
Print Assumptions c93_regression.

(** Procrustes regression, if principal components do not depend on the order of the samples (needed to whiten only), and
    optimal linear regression, if in addition the pseudo-inverse of permuted rows has permuted columns. *)
Theorem c93_procrustes (F : rcfType) svd pca (whiten bias : bool) n d q (s : 'S_n) (X : 'M[F]_(n, d)) (Y : 'M[F]_(n, q)) :
  (whiten -> pca n _ (row_perm s (add_bias bias X)) = pca n _ (add_bias bias X)) ->
  opp_train svd pca whiten bias (row_perm s X) (row_perm s Y) = opp_train svd pca whiten bias X Y.
Proof. exact: RegOrder.opp_perm. Qed.
Print Assumptions c93_procrustes.
Theorem c93_optimal (F : rcfType) pca pinv variance (bias : bool) n d q (s : 'S_n) (X : 'M[F]_(n, d)) (Y : 'M[F]_(n, q)) :
  pca n _ (row_perm s (add_bias bias X)) = pca n _ (add_bias bias X) ->
  (forall k (M : 'M[F]_(n, k)), pinv n k (row_perm s M) = pinv n k M *m (perm_mx s)^T) ->
  olr_train pca pinv variance bias (row_perm s X) (row_perm s Y) = olr_train pca pinv variance bias X Y.
Proof. exact: RegOrder.olr_perm. Qed.
Print Assumptions c93_optimal.

(** The pseudo-inverse of a matrix of full column rank is of that kind, and so are components found from X^T X. *)
Example c93_pinv (F : realFieldType) n k (s : 'S_n) (M : 'M[F]_(n, k)) :
  let pinv (M : 'M[F]_(n, k)) := invmx (M^T *m M) *m M^T in pinv (row_perm s M) = pinv M *m (perm_mx s)^T.
Proof. by rewrite /= RegOrder.gram_perm row_permE trmx_mul mulmxA. Qed.
Example c93_pca (F : rcfType) n d (eig : 'M[F]_d -> {k & ('M[F]_(k, d) * 'cV[F]_k)%type}) (s : 'S_n) (X : 'M[F]_(n, d)) :
  let pca (X : 'M[F]_(n, d)) := eig (n%:R^-1 *: (X^T *m X)) in pca (row_perm s X) = pca X.
Proof. by rewrite /= RegOrder.gram_perm. Qed.
(** Two samples, exchanged. *)
Example c93_regression_example (F : realFieldType) :
  let X : 'cV[F]_2 := \col_i (i.+1)%:R in exists st, irl_train 0 false true X X = Ok st /\
    irl_train 0 false true (row_perm (tperm ord0 ord_max) X) (row_perm (tperm ord0 ord_max) X) = Ok st /\ irl_V st <> None.
Proof.
move=> X; have [E _] := c93_regression (tperm ord0 ord_max) X X.
suff [st S]: exists st, irl_train 0 false true X X = Ok st /\ irl_V st <> None by exists st; rewrite E; case: S.
have R i : add_bias false X i (ord0 : 'I_(1 + false)) = (i.+1)%:R.
  by rewrite /add_bias [row_mx _ _ _ _]mxE; case: splitP => [j _|[]//]; rewrite mxE.
rewrite /irl_train /add_diagonal eqxx; move: (add_bias false X) R => Z R; set XX := 2%:R^-1 *: _.
have G : (Z^T *m Z) ord0 ord0 = 5%:R by rewrite mxE big_ord_recl big_ord1 !mxE !R -!natrM -natrD.
have EX : XX ord0 ord0 = 5%:R.
  rewrite /XX; move: (Z^T *m Z) G => W G; rewrite !mxE G -natrD (_ : (5 + 5 = 2 * 5)%N) // natrM mulrA mulVf ?mul1r //.
  by rewrite pnatr_eq0.
have D : \det XX = XX ord0 ord0.
  by apply: (etrans (det_mx11 (XX : 'M_1))); congr (XX _ _); apply: val_inj.
have U : XX \in unitmx by rewrite unitmxE D EX unitfE pnatr_eq0.
rewrite /np_inv /np_solve U; cbn [bind]; eexists; split; [reflexivity|by []].
Qed.
