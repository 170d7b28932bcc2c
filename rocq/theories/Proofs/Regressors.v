(** Proofs about the regressors that reduce dimensions. *)
From Verif.Model Require Import Py LinAlg Regression Regressors.
From Verif.Spec Require Import LinAlg Regressors.
From Verif.Proofs Require Import LinAlg MRing.
From mathcomp Require Import all_ssreflect all_algebra.
Set Implicit Arguments.
Unset Strict Implicit.
Unset Printing Implicit Defensive.
Import Order.TTheory GRing.Theory Num.Theory.
Local Open Scope ring_scope.

Section Real.
Variable F : realFieldType.
Add Ring Fr : (@r_ring F).
Lemma sqnN n (v : 'cV[F]_n) : sqn (- v) = sqn v.
Proof. by rewrite /sqn; apply: eq_bigr => i _; rewrite mxE sqrrN. Qed.
(** Where the normal equations hold. *)
Lemma normal_split n d (X : 'M[F]_(n, d)) (y : 'cV[F]_n) (w v : 'cV[F]_d) : X^T *m (X *m w - y) = 0 ->
  sqn (X *m v - y) = sqn (X *m w - y) + sqn (X *m (v - w)).
Proof.
  move=> N. have -> : X *m v - y = X *m w - y + X *m (v - w) by rewrite mulmxBr [RHS]addrC addrA subrK.
  by rewrite sqnD trmx_mul -mulmxA N mulmx0 zeroE mulr0 addr0.
Qed.
Lemma normal_least n d (X : 'M[F]_(n, d)) (y : 'cV[F]_n) (w : 'cV[F]_d) : X^T *m (X *m w - y) = 0 -> least_squares X y w.
Proof. by move=> N v; rewrite (normal_split v N) ler_addl sqn_ge0. Qed.
Lemma normal_same n d (X : 'M[F]_(n, d)) (y : 'cV[F]_n) (w v : 'cV[F]_d) : X^T *m (X *m w - y) = 0 ->
  sqn (X *m v - y) <= sqn (X *m w - y) -> X *m (v - w) = 0.
Proof.
  move=> N. rewrite (normal_split v N) ger_addl => L. apply: sqn_eq0. by apply/eqP; rewrite eq_le L sqn_ge0.
Qed.
Lemma normal_least_norm n d (X : 'M[F]_(n, d)) (y u : 'cV[F]_n) (w : 'cV[F]_d) : X^T *m (X *m w - y) = 0 -> w = X^T *m u ->
  least_norm X y w.
Proof.
  move=> N W. split; first exact: normal_least. move=> v L. have Z := normal_same N (L w).
  have E : sqn v = sqn w + sqn (v - w).
    have {1}-> : v = w + (v - w) by rewrite addrC subrK.
    have O : (v - w)^T *m w = 0 by rewrite [X in _ *m X]W mulmxA -trmx_mul Z trmx0 mul0mx.
    by rewrite sqnD O zeroE mulr0 addr0.
  rewrite E ler_addl sqn_ge0. split=> //. rewrite ger_addl => H.
  have /sqn_eq0 /eqP : sqn (v - w) = 0 by apply/eqP; rewrite eq_le H sqn_ge0. by rewrite subr_eq0 => /eqP.
Qed.

(** Counting. *)
Lemma card_below r m : (m <= r)%N -> #|[pred j : 'I_r | (j < m)%N]| = m.
Proof. by move=> H; rewrite -sum1_card -(big_ord_widen _ (fun _ => 1%N) H) sum1_card card_ord. Qed.
Lemma closed_count r (P : pred 'I_r) : (forall i j : 'I_r, (i <= j)%N -> P j -> P i) -> forall i : 'I_r, (i < #|P|)%N = P i.
Proof.
  move=> C i. apply/idP/idP => [L|H].
  - apply: contraLR L => N. rewrite -leqNgt -(card_below (ltnW (ltn_ord i))). apply: subset_leq_card; apply/subsetP => j.
    rewrite !inE => Pj. rewrite ltnNge. apply: contra N => L. exact: C L Pj.
  - rewrite -(card_below (ltn_ord i)). apply: subset_leq_card; apply/subsetP => j. rewrite !inE => L. exact: C L H.
Qed.
Lemma frE n d (A : 'M[F]_(n, d)) : fro A = \tr (A^T *m A).
Proof.
  rewrite /fro exchange_big /mxtrace /=. apply: eq_bigr => j _. rewrite mxE. by apply: eq_bigr => i _; rewrite mxE expr2.
Qed.
Lemma fro_sub n d (A B : 'M[F]_(n, d)) : fro (A - B) = fro A + fro B - 2%:R * \tr (A^T *m B).
Proof.
  rewrite !frE [(A - B)^T]linearB /= mulmxBl !mulmxBr !linearB /= -[\tr (B^T *m A)]mxtrace_tr trmx_mul trmxK.
  have -> : (2%:R : F) = 1 + 1 by []. move: (\tr _) (\tr _) (\tr _) => x y z. mring F.
Qed.
Lemma contraction_l p q (Q : 'M[F]_(p, q)) (u : 'cV[F]_p) : Q^T *m Q = 1%:M -> sqn (Q^T *m u) <= sqn u.
Proof.
  move=> O. rewrite -subr_ge0. suff -> : sqn u - sqn (Q^T *m u) = sqn (u - Q *m (Q^T *m u)) by exact: sqn_ge0.
  have E : sqn (Q *m (Q^T *m u)) = sqn (Q^T *m u) by rewrite sqnE trmx_mul -mulmxA [Q^T *m (Q *m _)]mulmxA O mul1mx -sqnE.
  rewrite sqnD sqnN E linearN /= mulNmx [(- (_ : 'M_1)) 0 0]mxE trmx_mul -mulmxA -sqnE.
  have -> : (2%:R : F) = 1 + 1 by []. move: (sqn _) (sqn _) => x y. mring F.
Qed.
Lemma contraction_r p q (Q : 'M[F]_(p, q)) (u : 'cV[F]_p) : Q *m Q^T = 1%:M -> sqn (Q^T *m u) <= sqn u.
Proof. by move=> O; rewrite sqnE trmx_mul trmxK -mulmxA [Q *m _]mulmxA O mul1mx -sqnE. Qed.
Lemma dot_half n (a b : 'cV[F]_n) : sqn a <= 1 -> sqn b <= 1 -> (a^T *m b) 0 0 <= 1.
Proof.
  move=> A B. have := sqn_ge0 (b - a). rewrite sqnD sqnN linearN /= mulNmx [(- (_ : 'M_1)) 0 0]mxE.
  move: ((a^T *m b) 0 0) (sqn a) (sqn b) A B => x y z A B H.
  have H2 : 2%:R * x <= 2%:R.
    have -> : 2%:R * x = y + z - (z + y + 2%:R * - x) by move: (2%:R : F) => t; mring F.
    rewrite ler_subl_addr. apply: (@le_trans _ _ 2%:R); last by rewrite ler_addl.
    have -> : (2%:R : F) = 1 + 1 by []. exact: ler_add.
  by rewrite -(ler_pmul2l (ltr0Sn F 1)) mulr1.
Qed.
Lemma col_norm n r (U : 'M[F]_(n, r)) i : U^T *m U = 1%:M -> sqn (col i U) = 1.
Proof.
  move=> O. rewrite sqnE. have -> : (col i U)^T *m col i U = row i (col i (U^T *m U)) .
    by apply/matrixP => a b; rewrite !mxE; apply: eq_bigr => k _; rewrite !mxE.
  by rewrite O !mxE eqxx.
Qed.
Lemma trace_bound p q r (Q M : 'M[F]_(p, q)) (U : 'M[F]_(p, r)) s (V : 'M[F]_(r, q)) :
  U^T *m U = 1%:M -> V *m V^T = 1%:M -> M = U *m diag_mx s^T *m V -> (forall i, 0 <= s i 0) ->
  (forall u : 'cV[F]_p, sqn (Q^T *m u) <= sqn u) -> \tr (Q^T *m M) <= \sum_i s i 0.
Proof.
  move=> OU OV -> S C. rewrite mulmxA mxtrace_mulC !mulmxA /mxtrace. apply: ler_sum => i _.
  rewrite mxE (bigD1 i) //= big1 ?addr0; last by move=> k ki; rewrite mxE mxE (negbTE ki) mulr0n mulr0.
  rewrite [diag_mx _ _ _]mxE eqxx mulr1n [s^T _ _]mxE.
  have -> : (V *m Q^T *m U) i i = ((col i V^T)^T *m (Q^T *m col i U)) 0 0.
    rewrite tr_col trmxK -mulmxA [LHS]mxE [RHS]mxE. apply: eq_bigr => k _. rewrite [row _ _ _ _]mxE. congr (_ * _).
    by rewrite !mxE; apply: eq_bigr => j _; rewrite [col _ _ _ _]mxE.
  rewrite -[X in _ <= X]mul1r. apply: ler_wpmul2r => //. apply: dot_half.
  - by rewrite col_norm // trmxK.
  - by apply: le_trans (C _) _; rewrite col_norm.
Qed.
Lemma trace_reached p q r (U : 'M[F]_(p, r)) (s : 'cV[F]_r) (V : 'M[F]_(r, q)) :
  U^T *m U = 1%:M -> V *m V^T = 1%:M -> \tr ((U *m V)^T *m (U *m diag_mx s^T *m V)) = \sum_i s i 0.
Proof.
  move=> OU OV. rewrite trmx_mul !mulmxA -[V^T *m U^T *m U]mulmxA OU mulmx1 mxtrace_mulC !mulmxA OV mul1mx.
  rewrite /mxtrace. by apply: eq_bigr => i _; rewrite !mxE eqxx mulr1n.
Qed.
Lemma square_ortho r q (V : 'M[F]_(r, q)) : r = q -> V *m V^T = 1%:M -> V^T *m V = 1%:M.
Proof. by move=> E; case: _ / E V => V; exact: mulmx1C. Qed.
(** Orthogonal Procrustes. *)
Section OPP.
Variables (n p q r : nat) (X : 'M[F]_(n, p)) (Y : 'M[F]_(n, q)) (U : 'M[F]_(p, r)) (s : 'cV[F]_r) (V : 'M[F]_(r, q)).
Hypothesis D : is_svd (X^T *m Y) U s V.
Lemma opp_trace (Q : 'M[F]_(p, q)) : (forall u : 'cV[F]_p, sqn (Q^T *m u) <= sqn u) -> \tr (Q^T *m (X^T *m Y)) <= \tr ((U *m V)^T *m (X^T *m Y)).
Proof. case: D => OU OV E S _ C. rewrite {2}E trace_reached //. exact: trace_bound OU OV E S C. Qed.
Lemma opp_tall : r = q -> (U *m V)^T *m (U *m V) = 1%:M /\
  forall Q : 'M[F]_(p, q), Q^T *m Q = 1%:M -> fro (X - Y *m (U *m V)^T) <= fro (X - Y *m Q^T).
Proof.
  move=> E. case: (D) => OU OV _ _ _. have O : (U *m V)^T *m (U *m V) = 1%:M.
    by rewrite trmx_mul mulmxA -[_ *m U^T *m U]mulmxA OU mulmx1 (square_ortho E).
  split=> // Q OQ.
  have G (P : 'M[F]_(p, q)) : P^T *m P = 1%:M -> fro (X - Y *m P^T) = fro X + fro Y - 2%:R * \tr (P^T *m (X^T *m Y)).
    move=> OP. rewrite fro_sub. congr (_ + _ - _).
      by rewrite !frE trmx_mul trmxK mxtrace_mulC -!mulmxA [P^T *m (P *m _)]mulmxA OP mul1mx mxtrace_mulC.
    by rewrite mulmxA mxtrace_mulC.
  rewrite !G // ler_add2l ler_opp2 ler_wpmul2l ?ler0n //. apply: opp_trace => u. exact: contraction_l.
Qed.
Lemma opp_wide : r = p -> (U *m V) *m (U *m V)^T = 1%:M /\
  forall Q : 'M[F]_(p, q), Q *m Q^T = 1%:M -> fro (X *m (U *m V) - Y) <= fro (X *m Q - Y).
Proof.
  move=> E. case: (D) => OU OV _ _ _. have O : (U *m V) *m (U *m V)^T = 1%:M.
    have OU' : U *m U^T = 1%:M by rewrite -{1}[U]trmxK; apply: (square_ortho E); rewrite trmxK.
    by rewrite trmx_mul mulmxA -[U *m V *m V^T]mulmxA OV mulmx1.
  split=> // Q OQ.
  have G (P : 'M[F]_(p, q)) : P *m P^T = 1%:M -> fro (X *m P - Y) = fro X + fro Y - 2%:R * \tr (P^T *m (X^T *m Y)).
    move=> OP. rewrite fro_sub. congr (_ + _ - _).
      by rewrite !frE trmx_mul mxtrace_mulC !mulmxA -[X *m P *m P^T]mulmxA OP mulmx1 mxtrace_mulC.
    by rewrite trmx_mul mulmxA.
  rewrite !G // ler_add2l ler_opp2 ler_wpmul2l ?ler0n //. apply: opp_trace => u. exact: contraction_r.
Qed.
End OPP.

(** Principal component regression. *)
Lemma diag_unit r (s : 'cV[F]_r) : (diag_mx s^T \in unitmx) = [forall i, s i 0 != 0].
Proof.
  rewrite unitmxE det_diag unitfE. apply/idP/forallP => [/prodf_neq0 H i|H].
    by have := H i isT; rewrite mxE.
  by apply/prodf_neq0 => i _; rewrite mxE.
Qed.
Section PCR.
Variables (n d q k : nat) (X : 'M[F]_(n, d)) (Y : 'M[F]_(n, q)) (U : 'M[F]_(n, k)) (s : 'cV[F]_k) (V : 'M[F]_(k, d)).
Hypothesis (OU : U^T *m U = 1%:M) (OV : V *m V^T = 1%:M) (XV : X *m V^T = U *m diag_mx s^T) (S0 : diag_mx s^T \in unitmx).
Let R : 'M[F]_(d, q) := V^T *m invmx (diag_mx s^T) *m U^T *m Y.
Lemma pcr_fit : X *m R = U *m (U^T *m Y).
Proof. by rewrite /R !mulmxA XV -[U *m diag_mx _ *m _]mulmxA mulmxV // mulmx1. Qed.
Lemma pcr_best j : best_in_rows V X (col j Y) (col j R).
Proof.
  exists (invmx (diag_mx s^T) *m (U^T *m col j Y)). have E : col j R = V^T *m (invmx (diag_mx s^T) *m (U^T *m col j Y)).
    by rewrite /R -!mulmxA [X in X = _]colE -!mulmxA -colE.
  split=> // z'. rewrite E !mulmxA XV -!mulmxA ![diag_mx _ *m (invmx _ *m _)]mulmxA mulmxV // mul1mx.
  set z := U^T *m col j Y.
  have N : (U : 'M[F]_(n, k))^T *m (U *m z - col j Y) = 0 by rewrite mulmxBr mulmxA OU mul1mx subrr.
  rewrite [U *m (diag_mx _ *m z')]mulmxA -[U *m diag_mx _ *m z']mulmxA. split; first exact: (normal_least N).
  move=> /(normal_same N) Z. have Ez : diag_mx s^T *m z' = z.
    apply/eqP; rewrite -subr_eq0 -[_ - z]mul1mx -OU -mulmxA Z mulmx0. by [].
  by rewrite -?mulmxA -/z -Ez [invmx _ *m (_ *m _)]mulmxA mulVmx // mul1mx.
Qed.
Lemma pcr_predicts m (x : 'M[F]_(m, d)) : x *m V^T *m V *m R = x *m R.
Proof. by rewrite /R !mulmxA -[x *m V^T *m V *m V^T]mulmxA OV mulmx1. Qed.
Lemma pcr_least_norm j : X = U *m diag_mx s^T *m V -> least_norm X (col j Y) (col j R).
Proof.
  move=> E. have Dt : (diag_mx s^T)^T = diag_mx s^T by rewrite tr_diag_mx.
  have Xt : X^T = V^T *m diag_mx s^T *m U^T by rewrite E !trmx_mul Dt mulmxA.
  have Ej : col j R = V^T *m (invmx (diag_mx s^T) *m (U^T *m col j Y)).
    by rewrite /R -!mulmxA [X in X = _]colE -!mulmxA -colE.
  apply: (@normal_least_norm _ _ _ _ (U *m (invmx (diag_mx s^T) *m (invmx (diag_mx s^T) *m (U^T *m col j Y))))).
  - have -> : X *m col j R = U *m (U^T *m col j Y) by rewrite Ej !mulmxA XV -[U *m diag_mx _ *m _]mulmxA mulmxV // mulmx1.
    rewrite Xt -mulmxA [U^T *m (_ - _)]mulmxBr [U^T *m (U *m _)]mulmxA OU mul1mx subrr mulmx0. by [].
  - by rewrite Ej Xt -[_ *m U^T *m _]mulmxA [U^T *m (U *m _)]mulmxA OU mul1mx -[_ *m diag_mx _ *m _]mulmxA [diag_mx _ *m (invmx _ *m _)]mulmxA mulmxV // mul1mx.
Qed.
End PCR.
End Real.
