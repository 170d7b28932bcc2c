(** Regressors trained on features and targets whose columns are permuted. *)
From Verif.Model Require Import Py LinAlg Regression CascadeError.
From Verif.Spec Require Import Moves Renumber.
From mathcomp Require Import all_ssreflect all_fingroup all_algebra.
Set Implicit Arguments.
Unset Strict Implicit.
Unset Printing Implicit Defensive.
Import GRing.Theory Num.Theory.
Local Open Scope ring_scope.

Section Orthogonal.
Variable F : realFieldType.
Lemma perm_orth n (q : 'S_n) : (perm_mx q : 'M[F]_n)^T *m perm_mx q = 1%:M.
Proof. by rewrite tr_perm_mx -perm_mxM mulVg perm_mx1. Qed.
Lemma orth_r n (Q : 'M[F]_n) : Q^T *m Q = 1%:M -> Q *m Q^T = 1%:M. Proof. by move/mulmx1C. Qed.
Lemma conj_unit n (Q S : 'M[F]_n) : Q^T *m Q = 1%:M -> (Q^T *m S *m Q \in unitmx) = (S \in unitmx).
Proof.
  move=> O. have [U U'] := mulmx1_unit O. by rewrite !unitmx_mul U U' andbT.
Qed.
Lemma conj_inv n (Q S : 'M[F]_n) : Q^T *m Q = 1%:M -> S \in unitmx -> invmx (Q^T *m S *m Q) = Q^T *m invmx S *m Q.
Proof.
  move=> O U. have U' : Q^T *m S *m Q \in unitmx by rewrite conj_unit.
  rewrite -[RHS]mul1mx -(mulVmx U') -[RHS]mulmxA -[LHS]mulmx1. congr (_ *m _).
  rewrite !mulmxA -(mulmxA _ Q Q^T) orth_r // mulmx1 -(mulmxA _ S) mulmxV // mulmx1 //.
Qed.
Lemma np_inv_conj n (Q S : 'M[F]_n) : Q^T *m Q = 1%:M -> np_inv (Q^T *m S *m Q) = map_res (fun V => Q^T *m V *m Q) (np_inv S).
Proof. move=> O. rewrite /np_inv conj_unit //. case: ifP => // U. by rewrite conj_inv. Qed.
Lemma np_solve_conj n k (Q S : 'M[F]_n) (P : 'M[F]_k) B : Q^T *m Q = 1%:M ->
  np_solve (Q^T *m S *m Q) (Q^T *m B *m P) = map_res (fun W => Q^T *m W *m P) (np_solve S B).
Proof.
  move=> O. rewrite /np_solve conj_unit //. case: ifP => // U. rewrite conj_inv //= !mulmxA. by rewrite -(mulmxA _ Q Q^T) orth_r // mulmx1.
Qed.
Lemma add_diagonal_conj a n (Q S : 'M[F]_n) : Q^T *m Q = 1%:M -> add_diagonal a (Q^T *m S *m Q) = Q^T *m add_diagonal a S *m Q.
Proof.
  move=> O. rewrite /add_diagonal. case: ifP => // _. by rewrite mulmxDr mulmxDl -scalemx1 -scalemxAr -scalemxAl mulmx1 O.
Qed.

(** The bias column stays in its place. *)
Definition with_bias (bias : bool) d (Q : 'M[F]_d) : 'M[F]_(d + bias) := block_mx Q 0 0 1%:M.
Lemma with_bias_orth bias d (Q : 'M[F]_d) : Q^T *m Q = 1%:M -> (with_bias bias Q)^T *m with_bias bias Q = 1%:M.
Proof.
  move=> O. rewrite /with_bias tr_block_mx mulmx_block !trmx0 trmx1 O !mulmx0 !mul0mx mulmx1 !addr0 add0r. by rewrite -scalar_mx_block.
Qed.
Lemma add_bias_conj bias n d (X : 'M[F]_(n, d)) Q : add_bias bias (X *m Q) = add_bias bias X *m with_bias bias Q.
Proof. by rewrite /add_bias /with_bias mul_row_block !mulmx0 addr0 add0r mulmx1. Qed.

(** The state of the regressor trained on changed data. *)
Definition irl_rel (bias : bool) d k (Q : 'M[F]_d) (P : 'M[F]_k) (s s' : irl_state F (d + bias) k) : Prop :=
  irl_W s' = (with_bias bias Q)^T *m irl_W s *m P /\ irl_V s' = omap (fun V => (with_bias bias Q)^T *m V *m with_bias bias Q) (irl_V s).
Lemma irl_train_rel alpha bias inc n d k (X : 'M[F]_(n, d)) (Y : 'M[F]_(n, k)) Q P : Q^T *m Q = 1%:M ->
  both (irl_rel Q P) (irl_train alpha bias inc X Y) (irl_train alpha bias inc (X *m Q) (Y *m P)).
Proof.
  move=> O. have OB := with_bias_orth bias O. rewrite /irl_train add_bias_conj. set B := add_bias bias X. set H := with_bias bias Q in OB *.
  have -> : (B *m H)^T *m (B *m H) = H^T *m (B^T *m B) *m H by rewrite trmx_mul !mulmxA.
  have -> : 2%:R^-1 *: (H^T *m (B^T *m B) *m H + (H^T *m (B^T *m B) *m H)^T) = H^T *m (2%:R^-1 *: (B^T *m B + (B^T *m B)^T)) *m H.
    by rewrite !trmx_mul !trmxK -scalemxAr -scalemxAl mulmxDr mulmxDl !mulmxA.
  rewrite add_diagonal_conj //. have -> : (B *m H)^T *m (Y *m P) = H^T *m (B^T *m Y) *m P by rewrite trmx_mul !mulmxA.
  rewrite np_solve_conj // np_inv_conj //. case: inc => /=.
    case: np_inv => [V|e] //=. case: np_solve => [W|e] //=.
  case: np_solve => [W|e] //=.
Qed.
Lemma irl_increment_rel alpha (bias : bool) n d k (s s' : irl_state F (d + bias) k) (X : 'M[F]_(n, d)) (Y : 'M[F]_(n, k)) Q P : Q^T *m Q = 1%:M ->
  irl_rel Q P s s' -> both (irl_rel Q P) (irl_increment alpha s X Y) (irl_increment alpha s' (X *m Q) (Y *m P)).
Proof.
  move=> O [EW EV]. have OB := with_bias_orth bias O. rewrite /irl_increment EV. case: (irl_V s) => [V|] //=.
  rewrite add_bias_conj. set B := add_bias bias X. set H := with_bias bias Q in OB EW *. have OR := orth_r OB.
  have -> : B *m H *m (H^T *m V *m H) *m (B *m H)^T = B *m V *m B^T.
    by rewrite trmx_mul !mulmxA -(mulmxA B H) OR mulmx1 -(mulmxA _ H H^T) OR mulmx1.
  case: np_inv => [U|e] //=.
  have EQ : H^T *m V *m H *m (B *m H)^T *m U *m (B *m H) = H^T *m (V *m B^T *m U *m B) *m H.
    by rewrite trmx_mul !mulmxA -(mulmxA _ H H^T) OR mulmx1.
  have EV' : H^T *m V *m H - H^T *m (V *m B^T *m U *m B) *m H *m (H^T *m V *m H) = H^T *m (V - V *m B^T *m U *m B *m V) *m H.
    rewrite mulmxBr mulmxBl !mulmxA. congr (_ - _). by rewrite -(mulmxA _ H H^T) OR mulmx1.
  rewrite EQ EV' EW. move: (V - _) => V1. split=> //=. rewrite [H^T *m (_ + _)]mulmxDr [H^T *m (_ - _)]mulmxDr !mulmxDl mulmxN mulNmx. congr (_ - _ + _).
    rewrite !mulmxA. by rewrite -(mulmxA _ H H^T) OR mulmx1.
  by rewrite trmx_mul !mulmxA -(mulmxA _ H H^T) OR mulmx1.
Qed.
Lemma irl_predict_rel (bias : bool) n d k (s s' : irl_state F (d + bias) k) (x : 'M[F]_(n, d)) Q P : Q^T *m Q = 1%:M ->
  irl_rel Q P s s' -> irl_predict s' (x *m Q) = irl_predict s x *m P.
Proof.
  move=> O [EW _]. rewrite /irl_predict add_bias_conj EW. have OR := orth_r (with_bias_orth bias O). by rewrite !mulmxA -(mulmxA _ (with_bias bias Q)) OR mulmx1.
Qed.

(** The indirect regressor. *)
Definition iirl_rel d k (Q : 'M[F]_d) (P : 'M[F]_k) (s s' : iirl_state F d k) : Prop :=
  iirl_W s' = Q^T *m iirl_W s *m P /\ iirl_V s = None /\ iirl_V s' = None.
Lemma iirl_train_rel alpha alpha2 n d k (X : 'M[F]_(n, d)) (Y : 'M[F]_(n, k)) Q P : Q^T *m Q = 1%:M -> P^T *m P = 1%:M ->
  both (iirl_rel Q P) (iirl_train alpha alpha2 X Y) (iirl_train alpha alpha2 (X *m Q) (Y *m P)).
Proof.
  move=> OQ OP. rewrite /iirl_train. have := @irl_train_rel alpha false false n k d Y X P Q OP.
  case: irl_train => [s|e]; case: irl_train => [s'|e'] //= [EW _].
  have -> : usubmx (irl_W s') = P^T *m usubmx (irl_W s) *m Q.
    rewrite EW -{1}(vsubmxK (irl_W s)) /with_bias tr_block_mx mul_block_col mul_col_mx col_mxKu. by rewrite trmx0 mul0mx addr0.
  move: (usubmx _) => J.
  have -> : P^T *m J *m Q *m (P^T *m J *m Q)^T = P^T *m (J *m J^T) *m P.
    by rewrite !trmx_mul trmxK !mulmxA -(mulmxA _ Q Q^T) orth_r // mulmx1.
  rewrite add_diagonal_conj // np_solve_conj //. case: np_solve => [W|e] //=. split=> //=. by rewrite !trmx_mul trmxK mulmxA.
Qed.
Lemma iirl_predict_rel n d k (s s' : iirl_state F d k) (x : 'M[F]_(n, d)) Q P : Q^T *m Q = 1%:M ->
  iirl_rel Q P s s' -> iirl_predict s' (x *m Q) = iirl_predict s x *m P.
Proof. move=> O [EW _]. by rewrite /iirl_predict EW !mulmxA -(mulmxA _ Q) orth_r // mulmx1. Qed.

(** ** Rows of arrays *)
Lemma array_of_mul n d k (rows : seq 'rV[F]_d) (Q : 'M[F]_(d, k)) : array_of n [seq v *m Q | v <- rows] = array_of n rows *m Q.
Proof.
  apply/matrixP => i j. rewrite !mxE.
  have -> : nth 0 [seq v *m Q | v <- rows] i = nth 0 rows i *m Q.
    case: (ltnP i (size rows)) => L; first by rewrite (nth_map 0). by rewrite !nth_default ?size_map // mul0mx.
  rewrite mxE. apply: eq_bigr => l _. by rewrite mxE.
Qed.
Lemma rows_of_mul n d k (A : 'M[F]_(n, d)) (Q : 'M[F]_(d, k)) : rows_of (A *m Q) = [seq v *m Q | v <- rows_of A].
Proof. rewrite /rows_of. elim: (enum 'I_n) => [|i l IH] //=. by rewrite row_mul IH. Qed.
Lemma written_mul k (P : 'M[F]_k) rows : written [seq omap (mulmx^~ P) v | v <- rows] = [seq v *m P | v <- written rows].
Proof. rewrite /written -!map_comp. apply: eq_map => [[v|]] //=. by rewrite mul0mx. Qed.
Section Rows.
Variables (R : Type) (d k : nat) (rel : R -> R -> Prop) (Q : 'M[F]_d) (P : 'M[F]_k).
Lemma train_rows_rel (tr tr' : forall n, 'M[F]_(n, d) -> 'M[F]_(n, k) -> res R) f dl :
  (forall n (X : 'M[F]_(n, d)) Y, both rel (tr n X Y) (tr' n (X *m Q) (Y *m P))) ->
  both rel (train_rows tr f dl) (train_rows tr' [seq x *m Q | x <- f] [seq omap (mulmx^~ P) v | v <- dl]).
Proof. move=> H. rewrite /train_rows !size_map. case: ifP => // _. rewrite array_of_mul written_mul array_of_mul. exact: H. Qed.
Lemma predict_rows_rel (pr : forall n, R -> 'M[F]_(n, d) -> 'M[F]_(n, k)) r r' f :
  (forall n (x : 'M[F]_(n, d)), pr n r' (x *m Q) = pr n r x *m P) ->
  predict_rows pr r' [seq x *m Q | x <- f] = map_res (map (mulmx^~ P)) (predict_rows pr r f).
Proof. move=> H. rewrite /predict_rows /= !size_map array_of_mul H. by rewrite rows_of_mul. Qed.
End Rows.
End Orthogonal.
