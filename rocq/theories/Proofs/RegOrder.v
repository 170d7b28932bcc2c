(** Regressors and the order of their samples. *)
From Verif.Model Require Import Py LinAlg Regression Regressors.
From mathcomp Require Import all_ssreflect all_fingroup all_algebra.
Set Implicit Arguments.
Unset Strict Implicit.
Unset Printing Implicit Defensive.
Import GRing.Theory Num.Theory.
Local Open Scope ring_scope.

Section P.
Variable F : realFieldType.

Lemma perm_tr n (s : 'S_n) : (perm_mx s : 'M[F]_n)^T *m perm_mx s = 1%:M.
Proof. by rewrite tr_perm_mx -perm_mxM mulVg perm_mx1. Qed.
Lemma gram_perm n a b (s : 'S_n) (X : 'M[F]_(n, a)) (Y : 'M[F]_(n, b)) : (row_perm s X)^T *m row_perm s Y = X^T *m Y.
Proof. by rewrite !row_permE trmx_mul -mulmxA (mulmxA _ (perm_mx s) Y) perm_tr mul1mx. Qed.
Lemma bias_perm bias n d (s : 'S_n) (X : 'M[F]_(n, d)) : add_bias bias (row_perm s X) = row_perm s (add_bias bias X).
Proof. by apply/matrixP => i j; rewrite !mxE; case: (split j) => k; rewrite !mxE. Qed.
Lemma train_perm alpha bias inc n d k (s : 'S_n) (X : 'M[F]_(n, d)) (Y : 'M[F]_(n, k)) :
  irl_train alpha bias inc (row_perm s X) (row_perm s Y) = irl_train alpha bias inc X Y.
Proof. by rewrite /irl_train bias_perm !gram_perm. Qed.

Lemma unit_perm n (s : 'S_n) (U : 'M[F]_n) : (perm_mx s *m U *m (perm_mx s)^T \in unitmx) = (U \in unitmx).
Proof. by rewrite !unitmx_mul unitmx_tr unitmx_perm andbT. Qed.
Lemma inv_perm n (s : 'S_n) (U : 'M[F]_n) : U \in unitmx ->
  invmx (perm_mx s *m U *m (perm_mx s)^T) = perm_mx s *m invmx U *m (perm_mx s)^T.
Proof.
move=> H; have HU : perm_mx s *m U *m (perm_mx s)^T \in unitmx by rewrite unit_perm.
apply: (can_inj (mulKmx HU)); rewrite mulmxV //.
have T : (perm_mx s)^T *m perm_mx s = 1%:M :> 'M[F]_n by apply: perm_tr.
rewrite !mulmxA -(mulmxA (perm_mx s *m U)) T mulmx1 -(mulmxA (perm_mx s)) mulmxV // mulmx1.
by rewrite tr_perm_mx -perm_mxM mulgV perm_mx1.
Qed.
Lemma diagonal_perm (a : F) n (s : 'S_n) (U : 'M[F]_n) :
  add_diagonal a (perm_mx s *m U *m (perm_mx s)^T) = perm_mx s *m add_diagonal a U *m (perm_mx s)^T.
Proof.
rewrite /add_diagonal; case: eqP => // _; rewrite mulmxDr mulmxDl; congr (_ + _).
by rewrite -scalemx1 -scalemxAr -scalemxAl mulmx1 tr_perm_mx -perm_mxM mulgV perm_mx1.
Qed.
Lemma increment_perm alpha (bias : bool) n d k (s : 'S_n) (st : irl_state F (d + bias) k) (X : 'M[F]_(n, d)) (Y : 'M[F]_(n, k)) :
  irl_increment alpha st (row_perm s X) (row_perm s Y) = irl_increment alpha st X Y.
Proof.
rewrite /irl_increment; case: (irl_V st) => [V|//]; rewrite bias_perm gram_perm; move: (add_bias bias X) => Z.
rewrite row_permE trmx_mul.
have -> : perm_mx s *m Z *m V *m (Z^T *m (perm_mx s)^T) = perm_mx s *m (Z *m V *m Z^T) *m (perm_mx s)^T by rewrite !mulmxA.
rewrite diagonal_perm /np_inv unit_perm; case: ifP => // H; cbn [bind]; rewrite inv_perm //.
have T : (perm_mx s)^T *m perm_mx s = 1%:M :> 'M[F]_n by apply: perm_tr.
set U := invmx _.
have -> : V *m (Z^T *m (perm_mx s)^T) *m (perm_mx s *m U *m (perm_mx s)^T) *m (perm_mx s *m Z) = V *m Z^T *m U *m Z => //.
by rewrite -!mulmxA (mulmxA (perm_mx s)^T (perm_mx s) Z) T mul1mx (mulmxA (perm_mx s)^T (perm_mx s)) T mul1mx.
Qed.
Lemma iirl_perm alpha alpha2 n d k (s : 'S_n) (X : 'M[F]_(n, d)) (Y : 'M[F]_(n, k)) :
  iirl_train alpha alpha2 (row_perm s X) (row_perm s Y) = iirl_train alpha alpha2 X Y.
Proof. by rewrite /iirl_train train_perm. Qed.
End P.

Section Q.
Variable F : rcfType.
Variable svd : forall n d, 'M[F]_(n, d) -> 'M[F]_(n, minn n d) * 'cV[F]_(minn n d) * 'M[F]_(minn n d, d).
Variable pca : forall n d, 'M[F]_(n, d) -> {k & ('M[F]_(k, d) * 'cV[F]_k)%type}.
Variable pinv : forall n d, 'M[F]_(n, d) -> 'M[F]_(d, n).
Lemma opp_perm (whiten bias : bool) n d q (s : 'S_n) (X : 'M[F]_(n, d)) (Y : 'M[F]_(n, q)) :
  (whiten -> pca (row_perm s (add_bias bias X)) = pca (add_bias bias X)) ->
  opp_train svd pca whiten bias (row_perm s X) (row_perm s Y) = opp_train svd pca whiten bias X Y.
Proof.
move=> H; rewrite /opp_train bias_perm; move: (add_bias bias X) H => Z H; case: whiten H => [/(_ isT) H|_].
  rewrite /opp_whiten H; case: (pca Z) => k [U l]; case: (whitened_components U l) => [W|//]; cbn [bind].
  have -> : row_perm s Z *m W^T *m W = row_perm s (Z *m W^T *m W) by rewrite !row_permE !mulmxA.
  by rewrite gram_perm.
by cbn [bind]; rewrite gram_perm.
Qed.
Lemma olr_perm variance (bias : bool) n d q (s : 'S_n) (X : 'M[F]_(n, d)) (Y : 'M[F]_(n, q)) :
  pca (row_perm s (add_bias bias X)) = pca (add_bias bias X) ->
  (forall k (M : 'M[F]_(n, k)), pinv (row_perm s M) = pinv M *m (perm_mx s)^T) ->
  olr_train pca pinv variance bias (row_perm s X) (row_perm s Y) = olr_train pca pinv variance bias X Y.
Proof.
move=> H HP; rewrite /olr_train bias_perm; move: (add_bias bias X) H => Z H; rewrite H; case: (pca Z) => k [U l].
have E : forall k' (U' : 'M[F]_(k', d + bias)), olr_tilde (row_perm s Z) (row_perm s Y) U' = olr_tilde Z Y U'.
  by move=> k' U'; rewrite /olr_tilde -(mulmxA _ _ (row_perm s Z)) !gram_perm mulmxA.
have EP : forall k' (M : 'M[F]_(d + bias, k')), pinv (row_perm s Z *m M) *m row_perm s Y = pinv (Z *m M) *m Y.
  move=> k' M; have -> : row_perm s Z *m M = row_perm s (Z *m M) by rewrite !row_permE !mulmxA.
  by rewrite HP row_permE -mulmxA (mulmxA (perm_mx s)^T) perm_tr mul1mx.
by case: variance => [v|]; case: (whitened_components _ _) => [W|//]; cbn [bind]; rewrite E; case: (pca _) => k' [V l']; rewrite EP.
Qed.
End Q.
