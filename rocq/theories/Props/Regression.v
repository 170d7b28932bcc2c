(** C25: incremental linear regression. *)
From Verif.Model Require Import Py LinAlg Regression.
From Verif.Spec Require Import LinAlg Regression.
From Verif.Proofs Require Import LinAlg Regression.
From mathcomp Require Import all_ssreflect all_algebra.
Set Implicit Arguments.
Unset Strict Implicit.
Unset Printing Implicit Defensive.
Import Order.TTheory GRing.Theory Num.Theory.
Local Open Scope ring_scope.

Section C25.
Variable F : realFieldType.

(** Training computes the ridge regression of the samples (with the bias column), whenever alpha is positive, or zero with
    samples of full column rank. *)
Theorem c25_train : forall (alpha : F) bias incrementable n d k (X : 'M[F]_(n, d)) (Y : 'M[F]_(n, k)),
  0 < alpha \/ (alpha = 0 /\ full_rank (add_bias bias X)) ->
  exists s, irl_train alpha bias incrementable X Y = Ok s /\ is_ridge alpha (add_bias bias X) Y (irl_W s).
Proof.
  move=> alpha bias inc n d k X Y H. set B := add_bias bias X.
  have A : 0 <= alpha by case: H => [/ltW|[->]].
  have U : B^T *m B + alpha%:M \in unitmx.
    case: H => [P|[-> R]]; first by apply: posdef_is_unit; exact: (trained_posdef bias (mk_batch X Y) P).
    have -> : 0%:M = 0 :> 'M[F]_(d + bias) by rewrite -scalemx1 scale0r. by rewrite addr0; apply: gram_unit.
  eexists. rewrite (irl_train_ok inc Y U). split; first by []. apply: ridge_of => //=; last by rewrite mulmxA mulmxV // mul1mx.
  by case: H => [|[_]]; auto.
Qed.

(** For alpha = 1: after any number of increments of any sizes the whole state is the one that training once on all the
    samples gives. *)
Theorem c25_increments_partial : forall bias d k (b : batch F d k) (bs : seq (batch F d k)),
  exists s, irl_train 1 bias true (b_X b) (b_Y b) = Ok s /\
    irl_increments 1 s bs = irl_train 1 bias true (b_X (stack_all b bs)) (b_Y (stack_all b bs)).
Proof.
  move=> bias d k b bs. have P d' k' (b' : batch F d' k') := trained_posdef bias b' (@ltr01 F).
  eexists. rewrite (irl_train_ok true (b_Y b) (posdef_is_unit (P _ _ b))). split; first by [].
  rewrite (irl_train_ok true (b_Y (stack_all b bs)) (posdef_is_unit (P _ _ (stack_all b bs)))).
  rewrite (increments_ok (bias := bias) (@ltr01 F) bs _ (P _ _ b)) /= invr1 scale1r.
  rewrite -/(gram_of bias (stack_all b bs)) -/(cross_of bias (stack_all b bs)) -/(gram_of bias b) -/(cross_of bias b).
  by rewrite gram_stack_all cross_stack_all addrAC.
Qed.

(** For other positive alpha the second moments of the increments are weighted by 1/alpha, but their products with the
    targets are not. *)
Theorem c25_increments_weighted : forall (alpha : F) bias d k (b : batch F d k) (bs : seq (batch F d k)), 0 < alpha ->
  let G b := (add_bias bias (b_X b))^T *m add_bias bias (b_X b) in
  let C b := (add_bias bias (b_X b))^T *m b_Y b in
  exists s s', irl_train alpha bias true (b_X b) (b_Y b) = Ok s /\ irl_increments alpha s bs = Ok s' /\
    (alpha%:M + G b + alpha^-1 *: (\sum_(c <- bs) G c)) *m irl_W s' = C b + \sum_(c <- bs) C c.
Proof.
  move=> alpha bias d k b bs A G C. have P := trained_posdef bias b A.
  eexists. eexists. rewrite (irl_train_ok true (b_Y b) (posdef_is_unit P)). split; first by [].
  rewrite (increments_ok (bias := bias) A bs _ P) /=. split; first by [].
  rewrite /= -/(gram_of bias b) [alpha%:M + _]addrC mulmxA mulmxV ?mul1mx //.
  apply: posdef_is_unit. rewrite -[\sum_(c <- bs) _]/(\sum_(c <- bs) gram_of bias c).
  have E : gram_of bias b + alpha%:M + alpha^-1 *: (\sum_(c <- bs) gram_of bias c) =
           (alpha%:M + gram_of bias b) + alpha^-1 *: (\sum_(c <- bs) gram_of bias c) by rewrite [alpha%:M + _]addrC.
  elim: bs (gram_of bias b + alpha%:M) P {E} => [|c bs IH] S PS; first by rewrite big_nil scaler0 addr0.
  rewrite big_cons scalerDr addrA. apply: IH. apply: posdef_add => //. by rewrite invr_ge0 ltW.
Qed.

(** Without regularisation (the default alpha = 0) an increment that does not raise makes the regressor predict zero for
    all the new samples, whatever their targets. *)
Theorem c25_no_regularisation_refuted : forall (bias : bool) n d k (s s' : irl_state F (d + bias) k) (X : 'M[F]_(n, d)) (Y : 'M[F]_(n, k)),
  irl_increment 0 s X Y = Ok s' -> irl_predict s' X = 0.
Proof.
  move=> bias n d k [[V|] W] s' X Y //. rewrite /irl_increment /= /add_diagonal eqxx /np_inv. set B := add_bias bias X.
  case: ifP => // U /= [<-]. rewrite /irl_predict /= -/B mulmxDr mulmxBr.
  have E j (M : 'M[F]_(_, j)) : B *m (V *m B^T *m invmx (B *m V *m B^T) *m B *m M) = B *m M.
    by rewrite !mulmxA mulmxV // mul1mx.
  by rewrite E subrr add0r mulmxA mulmxBr E subrr mul0mx.
Qed.

(** IIRLRegression: increment always raises; training returns a right inverse of the regression from targets to features. *)
Theorem c25_iirl_increment_refuted : forall (alpha alpha2 : F) n n' d k (X : 'M[F]_(n, d)) (Y : 'M[F]_(n, k)) s (X' : 'M[F]_(n', d)) (Y' : 'M[F]_(n', k)),
  iirl_train alpha alpha2 X Y = Ok s -> iirl_increment s X' Y' = Err ValueError.
Proof.
  move=> alpha alpha2 n n' d k X Y s X' Y'. rewrite /iirl_train. case: irl_train => //= s1. case: np_solve => //= W [<-]. by [].
Qed.
Theorem c25_iirl_train : forall (alpha : F) n d k (X : 'M[F]_(n, d)) (Y : 'M[F]_(n, k)) s,
  iirl_train alpha 0 X Y = Ok s ->
  exists J, (Y^T *m Y + alpha%:M) *m J = Y^T *m X /\ J *m iirl_W s = 1%:M.
Proof.
  move=> alpha n d k X Y s. rewrite /iirl_train.
  set B := add_bias false Y. have EB : B = row_mx Y (const_mx 1) by [].
  rewrite {1}/irl_train -/B symmetrised ?gram_sym //.
  have ES : add_diagonal alpha (B^T *m B) = B^T *m B + alpha%:M.
    rewrite /add_diagonal; case: eqP => // ->. by rewrite (_ : 0%:M = 0) ?addr0 // -scalemx1 scale0r.
  rewrite ES /= /np_solve. case: ifP => //= U. set W := invmx _ *m _. set J := usubmx W.
  case: ifP => //= U2 [<-] /=. exists J. split; last first.
    rewrite trmx_mul trmx_inv mulmxA. move: U2. rewrite /add_diagonal eqxx => U2.
    by rewrite trmx_mul trmxK mulmxV.
  have : (B^T *m B + alpha%:M) *m W = B^T *m X by rewrite mulmxA mulmxV // mul1mx.
  move=> /(congr1 usubmx). rewrite EB tr_row_mx mul_col_row mul_col_mx col_mxKu.
  rewrite -{1}[W]vsubmxK -/J scalar_mx_block add_block_mx addr0 mul_block_col col_mxKu.
  have -> : dsubmx W = 0 by apply/matrixP => [[]].
  by rewrite mulmx0 addr0.
Qed.
(** With any regularisations: the prediction for a row of features is the only displacement that explains it best through the
    ridge regression from displacements to features, at the price alpha2 of its squared length. *)
Theorem c25_iirl_minimises : forall (alpha alpha2 : F) n d k (X : 'M[F]_(n, d)) (Y : 'M[F]_(n, k)) s, 0 <= alpha -> 0 <= alpha2 ->
  iirl_train alpha alpha2 X Y = Ok s ->
  exists J, is_ridge alpha Y X J /\
    forall x : 'rV[F]_d, unique_minimum (fun p : 'rV[F]_k => sqn (x - p *m J)^T + alpha2 * sqn p^T) (x *m iirl_W s).
Proof.
  move=> alpha alpha2 n d k X Y s A1 A2. rewrite /iirl_train.
  set B := add_bias false Y. have EB : B = row_mx Y (const_mx 1) by [].
  have add0 a m (S : 'M[F]_m) : add_diagonal a S = S + a%:M.
    rewrite /add_diagonal; case: eqP => // ->. by rewrite (_ : 0%:M = 0) ?addr0 // -scalemx1 scale0r.
  have rank a m m' (S : 'M[F]_(m, m')) : 0 <= a -> S^T *m S + a%:M \in unitmx -> 0 < a \/ full_rank S.
    rewrite le0r => /orP[/eqP ->|]; last by left. rewrite -scalemx1 scale0r addr0 => U. right=> v E.
    by rewrite -[v]mul1mx -(mulVmx U) -!mulmxA E !mulmx0.
  rewrite {1}/irl_train -/B symmetrised ?gram_sym //. rewrite add0 /= /np_solve. case: ifP => //= U.
  set W := invmx _ *m _. set J := usubmx W. rewrite add0. case: ifP => //= U2 [<-] /=. exists J.
  have EJ : (Y^T *m Y + alpha%:M) *m J = Y^T *m X.
    have : (B^T *m B + alpha%:M) *m W = B^T *m X by rewrite mulmxA mulmxV // mul1mx.
    move=> /(congr1 usubmx). rewrite EB tr_row_mx mul_col_row mul_col_mx col_mxKu.
    rewrite -{1}[W]vsubmxK -/J scalar_mx_block add_block_mx addr0 mul_block_col col_mxKu.
    have -> : dsubmx W = 0 by apply/matrixP => [[]].
    by rewrite mulmx0 addr0.
  split.
    apply: ridge_of => //. case: (rank _ _ _ _ A1 U); first by left. move=> R; right=> v E.
    have := R (col_mx v 0). rewrite EB mul_row_col E mulmx0 addr0 => /(_ erefl) /(congr1 usubmx). by rewrite col_mxKu linear0.
  move=> x. set p := x *m _. have Ep : (J *m J^T + alpha2%:M) *m p^T = J *m x^T.
    by rewrite /p trmx_mul trmxK mulmxA mulmxA mulmxV // mul1mx.
  have U3 : (J^T)^T *m J^T + alpha2%:M \in unitmx by rewrite trmxK.
  have Q := @ridge_of F alpha2 d k 1 J^T x^T p^T A2 (rank _ _ _ _ A2 U3).
  rewrite trmxK in Q. have {Q} [M1 M2] := Q Ep 0.
  have C m (v : 'cV[F]_m) : col 0 v = v by apply/colP => i; rewrite mxE.
  have G (y : 'rV[F]_k) : sqn (J^T *m y^T - x^T) = sqn (x - y *m J)^T.
    have -> : J^T *m y^T - x^T = - (x - y *m J)^T by rewrite linearB /= opprB trmx_mul.
    rewrite /sqn. apply: eq_bigr => i _. have -> (v : 'cV[F]_d) : (- v) i 0 = - v i 0 by rewrite mxE. by rewrite sqrrN.
  rewrite !C in M1 M2. split=> y; first by rewrite -!G; exact: M1.
  rewrite -!G => /M2 E. by rewrite -[y]trmxK E trmxK.
Qed.
(** With both regularisations positive training never raises. *)
Theorem c25_iirl_trains : forall (alpha alpha2 : F) n d k (X : 'M[F]_(n, d)) (Y : 'M[F]_(n, k)), 0 < alpha -> 0 < alpha2 ->
  exists s, iirl_train alpha alpha2 X Y = Ok s.
Proof.
  move=> alpha alpha2 n d k X Y A1 A2. rewrite /iirl_train.
  have U := posdef_is_unit (trained_posdef false (mk_batch Y X) A1). rewrite (irl_train_ok false X U) /=.
  set J := usubmx _. rewrite /add_diagonal (gt_eqF A2) /np_solve.
  have -> : J *m J^T + alpha2%:M \in unitmx.
    have := posdef_is_unit (@posdef_add F _ _ alpha2%:M 1 J^T (posdef_scalar k A2) ler01). by rewrite scale1r trmxK addrC.
  by eexists.
Qed.
End C25.
Print Assumptions c25_iirl_minimises.
Print Assumptions c25_iirl_trains.
Print Assumptions c25_train.
Print Assumptions c25_increments_partial.
Print Assumptions c25_increments_weighted.
Print Assumptions c25_no_regularisation_refuted.
Print Assumptions c25_iirl_increment_refuted.
Print Assumptions c25_iirl_train.

(** The sample 1 with target 1, seen twice, alpha = 2, no bias: incremental training gives 4/7, retraining 1/2. *)
Theorem c25_alpha_refuted : forall F : realFieldType, exists (b : batch F 1 1) s s' s'',
  irl_train 2%:R false true (b_X b) (b_Y b) = Ok s /\ irl_increments 2%:R s [:: b] = Ok s' /\
  irl_train 2%:R false true (b_X (stack b b)) (b_Y (stack b b)) = Ok s'' /\ irl_W s' != irl_W s''.
Proof.
  move=> F. pose b : batch F 1 1 := @mk_batch F 1 1 1 (const_mx 1) (const_mx 1).
  have A : 0 < (2%:R : F) by rewrite ltr0n.
  have P := trained_posdef false b A. have P2 := trained_posdef false (stack b b) A.
  exists b. eexists. eexists. eexists. rewrite (irl_train_ok true (b_Y b) (posdef_is_unit P)). split; first by [].
  rewrite (increments_ok (bias := false) A [:: b] _ P) /=. split; first by [].
  rewrite (irl_train_ok true (b_Y (stack b b)) (posdef_is_unit P2)). split; first by [].
  rewrite /= -/(gram_of false (stack b b)) -/(cross_of false (stack b b)) -/(gram_of false b) -/(cross_of false b) !big_cons !big_nil.
  have G2 : gram_of false (stack b b) = gram_of false b + gram_of false b by rewrite (gram_stack_all false [:: b] b) big_cons big_nil addr0.
  have C2 : cross_of false (stack b b) = cross_of false b + cross_of false b by rewrite (cross_stack_all false [:: b] b) big_cons big_nil addr0.
  rewrite G2 C2 !addr0.
  have EG : gram_of false b = 1%:M.
    have O (i j : 'I_(1 + false)) : i = j by apply: val_inj; case: i => [[|i] //]; case: j => [[|j] //].
    apply/matrixP => i j. rewrite !mxE big_ord_recl big_ord0 !mxE /= (O i j) eqxx.
    by case: splitP => [a _|[]] //=; rewrite !mxE !mulr1 addr0.
  have EC : cross_of false b = const_mx 1 by apply/matrixP => i j; rewrite !mxE big_ord_recl big_ord0 !mxE; case: splitP => [a _|[]] //=; rewrite !mxE !mulr1 addr0.
  rewrite EG EC. have -> : 1%:M + 2%:R%:M + 2%:R^-1 *: 1%:M = (7%:R / 2%:R)%:M :> 'M[F]_(1 + false).
    rewrite scalemx1 -!raddfD. congr _%:M. apply: (mulIf (x := 2%:R)); first by rewrite pnatr_eq0.
    have N2 : (2%:R : F) != 0 by rewrite pnatr_eq0. rewrite mulfVK // mulrDl mulVf // mulrDl mul1r. by rewrite -natrM -!natrD -[1]/(1%:R) -natrD.
  have -> : 1%:M + 1%:M + 2%:R%:M = 4%:R%:M :> 'M[F]_(1 + false) by rewrite -!raddfD -[1]/(1%:R) -!natrD.
  rewrite !invmx_scalar !mul_scalar_mx. apply/eqP => /matrixP /(_ (lshift false 0) 0).
  have N (n : nat) : (n.+1%:R : F) != 0 by rewrite pnatr_eq0.
  rewrite !mxE => /(mulIf (N 1%N : 1 + 1 != 0 :> F)) /invr_inj /(congr1 (fun x => x * 2%:R)).
  rewrite mulfVK // -natrM => /eqP. by rewrite eqr_nat.
Qed.
Print Assumptions c25_alpha_refuted.
