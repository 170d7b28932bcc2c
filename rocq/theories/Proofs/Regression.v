From Verif.Model Require Import Py LinAlg Regression.
From Verif.Spec Require Import LinAlg Regression.
From Verif.Proofs Require Import LinAlg.
From mathcomp Require Import all_ssreflect all_algebra.
Set Implicit Arguments.
Unset Strict Implicit.
Unset Printing Implicit Defensive.
Import Order.TTheory GRing.Theory Num.Theory.
Local Open Scope ring_scope.

Section P.
Variable F : realFieldType.
Definition posdef n (S : 'M[F]_n) := S^T = S /\ forall v : 'cV[F]_n, v != 0 -> 0 < (v^T *m S *m v) 0 0.
Lemma posdef_is_unit n (S : 'M[F]_n) : posdef S -> S \in unitmx.
Proof. case=> _ H; apply: posdef_unit => v E. apply/eqP; apply: contraT => /H. by rewrite E ltxx. Qed.
Lemma posdef_inv n (S : 'M[F]_n) : posdef S -> posdef (invmx S).
Proof.
  move=> PS. have U := posdef_is_unit PS. case: PS => Sym H. have SymI : (invmx S)^T = invmx S by rewrite trmx_inv Sym.
  split=> // v N. have N' : invmx S *m v != 0.
    by apply: contraNneq N => E; rewrite -[v](mulKVmx U) E mulmx0.
  have := H _ N'. by rewrite trmx_mul SymI mulmxKV // mulmxA.
Qed.
Lemma gram_sym n d (X : 'M[F]_(n, d)) : (X^T *m X)^T = X^T *m X.
Proof. by rewrite trmx_mul trmxK. Qed.
Lemma quad_scalar n (a : F) (v : 'cV[F]_n) : (v^T *m a%:M *m v) 0 0 = a * sqn v.
Proof. by rewrite mul_mx_scalar -scalemxAl mxE sqnE. Qed.
Lemma sqn_gt0 n (v : 'cV[F]_n) : v != 0 -> 0 < sqn v.
Proof. move=> N. rewrite lt_neqAle sqn_ge0 andbT eq_sym. apply: contra N => /eqP E. by rewrite (sqn_eq0 E). Qed.
Lemma posdef_add n d (S : 'M[F]_d) t (X : 'M[F]_(n, d)) : posdef S -> 0 <= t -> posdef (S + t *: (X^T *m X)).
Proof.
  case=> Sym H T. split.
    by rewrite linearD /= Sym linearZ /= gram_sym.
  move=> v /H P. rewrite mulmxDr mulmxDl addE. apply: ltr_paddr => //. by rewrite -scalemxAr -scalemxAl mxE gram_quad mulr_ge0 // sqn_ge0.
Qed.
Lemma posdef_scalar n (a : F) : 0 < a -> posdef (a%:M : 'M[F]_n).
Proof. move=> P; split; first by rewrite tr_scalar_mx. move=> v N. by rewrite quad_scalar mulr_gt0 // sqn_gt0. Qed.
Lemma U_unit n d (S : 'M[F]_d) (X : 'M[F]_(n, d)) a : posdef S -> 0 < a -> X *m invmx S *m X^T + a%:M \in unitmx.
Proof.
  move=> /posdef_inv PV A. apply: posdef_is_unit. case: (PV) => Sym H. split.
    by rewrite linearD /= tr_scalar_mx !trmx_mul trmxK Sym mulmxA.
  move=> v N. rewrite mulmxDr mulmxDl addE quad_scalar. apply: ltr_paddl; last by rewrite mulr_gt0 // sqn_gt0.
  have [Z|Z] := eqVneq (X^T *m v) 0; first by rewrite -!mulmxA Z !mulmx0 mxE.
  apply: ltW. have := H _ Z. by rewrite trmx_mul trmxK !mulmxA.
Qed.
Lemma symmetrised d (S : 'M[F]_d) : S^T = S -> 2%:R^-1 *: (S + S^T) = S.
Proof. move=> ->. rewrite -mulr2n -scaler_nat scalerA mulVf ?scale1r // pnatr_eq0 //. Qed.

(** Woodbury. *)
Lemma woodbury n d (S : 'M[F]_d) (X : 'M[F]_(n, d)) a (V := invmx S) (U := invmx (X *m V *m X^T + a%:M)) :
  S \in unitmx -> X *m V *m X^T + a%:M \in unitmx -> a != 0 ->
  (S + a^-1 *: (X^T *m X)) *m (V - V *m X^T *m U *m X *m V) = 1%:M.
Proof.
  move=> US UU A. rewrite mulmxBr mulmxDl [S *m V]mulmxV //.
  have E1 : S *m (V *m X^T *m U *m X *m V) = X^T *m U *m X *m V by rewrite !mulmxA mulmxV // mul1mx.
  have E2 : a^-1 *: (X^T *m X) *m (V *m X^T *m U *m X *m V) = a^-1 *: (X^T *m X *m V) - X^T *m U *m X *m V.
    have K : X *m V *m X^T *m U = 1%:M - a *: U.
      have := mulmxV UU. rewrite -/U mulmxDl mul_scalar_mx => <-. by rewrite addrK.
    rewrite -!scalemxAl -[X^T *m X *m _]mulmxA !mulmxA.
    have -> : X^T *m X *m V *m X^T *m U = X^T *m (X *m V *m X^T *m U) by rewrite !mulmxA.
    rewrite K mulmxBr mulmx1 !mulmxBl scalerBr. by rewrite -scalemxAr -!scalemxAl scalerA mulVf // scale1r.
  rewrite [(S + _) *m (V *m _ *m _ *m _ *m _)]mulmxDl E1 E2 [X^T *m U *m X *m V + _]addrC subrK -scalemxAl addrK //.
Qed.
Lemma woodbury_inv n d (S : 'M[F]_d) (X : 'M[F]_(n, d)) a (V := invmx S) (U := invmx (X *m V *m X^T + a%:M)) :
  posdef S -> 0 < a -> V - V *m X^T *m U *m X *m V = invmx (S + a^-1 *: (X^T *m X)).
Proof.
  move=> PS A. have A' : a != 0 by rewrite gt_eqF.
  have W := woodbury (posdef_is_unit PS) (U_unit X PS A) A'. rewrite -/V -/U in W.
  have [U1 _] := mulmx1_unit W. by rewrite -[LHS](mulKmx U1) W mulmx1.
Qed.

(** Training and increments. *)
Lemma irl_train_ok alpha bias inc n d k (X : 'M[F]_(n, d)) (Y : 'M[F]_(n, k)) (B := add_bias bias X) (S := B^T *m B + alpha%:M) :
  S \in unitmx -> irl_train alpha bias inc X Y = Ok (mk_irl (if inc then Some (invmx S) else None) (invmx S *m (B^T *m Y))).
Proof.
  move=> U. rewrite /irl_train -/B symmetrised ?gram_sym //.
  have -> : add_diagonal alpha (B^T *m B) = S.
    rewrite /add_diagonal /S; case: eqP => // ->. by rewrite (_ : 0%:M = 0) ?addr0 // -scalemx1 scale0r.
  rewrite /np_inv /np_solve U. by case: inc.
Qed.
Lemma irl_increment_ok (alpha : F) (bias : bool) n d k (S : 'M[F]_(d + bias)) (W : 'M[F]_(d + bias, k)) (X : 'M[F]_(n, d)) (Y : 'M[F]_(n, k)) (B := add_bias bias X) C :
  posdef S -> 0 < alpha -> W = invmx S *m C ->
  let S' := S + alpha^-1 *: (B^T *m B) in
  irl_increment alpha (mk_irl (Some (invmx S)) W) X Y = Ok (mk_irl (Some (invmx S')) (invmx S' *m (C + B^T *m Y))).
Proof.
  move=> PS A -> S'. rewrite /irl_increment /= -/B /add_diagonal (gt_eqF A) /np_inv (U_unit B PS A) /=.
  have E := woodbury_inv B PS A. rewrite -/S' in E. rewrite E. congr (Ok (mk_irl _ _)). rewrite mulmxDr; congr (_ + _).
  by rewrite -E [in RHS]mulmxBl mulmxA.
Qed.
Lemma gram_stack n1 n2 d (A : 'M[F]_(n1, d)) (B : 'M[F]_(n2, d)) : (col_mx A B)^T *m col_mx A B = A^T *m A + B^T *m B.
Proof. by rewrite tr_col_mx mul_row_col. Qed.
Lemma add_bias_stack bias n1 n2 d (A : 'M[F]_(n1, d)) (B : 'M[F]_(n2, d)) : add_bias bias (col_mx A B) = col_mx (add_bias bias A) (add_bias bias B).
Proof. by rewrite /add_bias -col_mx_const -block_mxEh block_mxEv. Qed.

Section B.
Variables (alpha : F) (bias : bool) (d k : nat).
Definition gram_of (b : batch F d k) := (add_bias bias (b_X b))^T *m add_bias bias (b_X b).
Definition cross_of (b : batch F d k) := (add_bias bias (b_X b))^T *m b_Y b.
Lemma increments_ok : 0 < alpha -> forall bs S C, posdef S ->
  irl_increments alpha (mk_irl (Some (invmx S)) (invmx S *m C)) bs =
    let S' := S + alpha^-1 *: (\sum_(b <- bs) gram_of b) in
    Ok (mk_irl (Some (invmx S')) (invmx S' *m (C + \sum_(b <- bs) cross_of b))).
Proof.
  move=> A. elim=> [|b bs IH] S C PS /=; first by rewrite !big_nil scaler0 !addr0.
  rewrite (irl_increment_ok (b_X b) (b_Y b) PS A erefl) /= IH /=; last by apply: posdef_add => //; rewrite invr_ge0 ltW.
  by rewrite !big_cons scalerDr !addrA.
Qed.
Lemma gram_stack_all bs : forall b, gram_of (stack_all b bs) = gram_of b + \sum_(c <- bs) gram_of c.
Proof.
  elim: bs => [|c bs IH] b /=; first by rewrite big_nil addr0.
  rewrite /stack_all /= -/(stack_all _ _) IH big_cons addrA; congr (_ + _).
  by rewrite {1}/gram_of /stack /= add_bias_stack gram_stack.
Qed.
Lemma cross_stack_all bs : forall b, cross_of (stack_all b bs) = cross_of b + \sum_(c <- bs) cross_of c.
Proof.
  elim: bs => [|c bs IH] b /=; first by rewrite big_nil addr0.
  rewrite /stack_all /= -/(stack_all _ _) IH big_cons addrA; congr (_ + _).
  by rewrite {1}/cross_of /stack /= add_bias_stack tr_col_mx mul_row_col.
Qed.
Lemma trained_posdef (b : batch F d k) : 0 < alpha -> posdef (gram_of b + alpha%:M).
Proof. move=> A. rewrite addrC -[gram_of b]scale1r. apply: posdef_add; [exact: posdef_scalar|exact: ler01]. Qed.
End B.

Lemma ridge_of (alpha : F) n d k (X : 'M[F]_(n, d)) (Y : 'M[F]_(n, k)) W : 0 <= alpha -> (0 < alpha \/ full_rank X) ->
  (X^T *m X + alpha%:M) *m W = X^T *m Y -> is_ridge alpha X Y W.
Proof.
  move=> A H N j. set w := const_mx alpha : 'cV[F]_d.
  have Ew v : wsqn w v = alpha * sqn v by rewrite /wsqn /sqn big_distrr /=; apply: eq_bigr => i _; rewrite mxE.
  have Ed : diag_mx w^T = alpha%:M :> 'M[F]_d.
    by apply/matrixP => a b; rewrite !mxE.
  apply: (@minimum_eq _ _ (fun x => sqn (- col j Y + X *m x) + wsqn w (0 + x))); first by move=> y; rewrite add0r Ew addrC [- _ + _]addrC addrC.
  apply: minimum_of.
  - by move=> i; rewrite mxE.
  - move=> h. rewrite Ew => /eqP. rewrite paddr_eq0 ?sqn_ge0 ?mulr_ge0 ?sqn_ge0 // => /andP [/eqP H1 /eqP H2].
    case: H => [P|R]; last by apply: R; apply: sqn_eq0.
    by apply: sqn_eq0; move/eqP: H2; rewrite mulf_eq0 (gt_eqF P) /= => /eqP.
  - rewrite add0r Ed mulmxDr mulmxN mulmxA -addrA -mulmxDl.
    by have := congr1 (fun M => M *m delta_mx j (0 : 'I_1)) N; rewrite -!mulmxA -!colE => ->; rewrite addNr.
Qed.
End P.
