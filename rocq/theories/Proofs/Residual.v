From Verif.Model Require Import Py LinAlg Residual.
From Verif.Spec Require Import LinAlg Residual.
From Verif.Proofs Require Import LinAlg.
From mathcomp Require Import all_ssreflect all_algebra.
Set Implicit Arguments.
Unset Strict Implicit.
Unset Printing Implicit Defensive.
Import Order.TTheory GRing.Theory Num.Theory.
Local Open Scope ring_scope.

Section P.
Variable F : rcfType.

Lemma dotE n (x y : 'cV[F]_n) : dot x y = \sum_i x i 0 * y i 0.
Proof. by rewrite /dot mxE; apply: eq_bigr => i _; rewrite mxE. Qed.
Lemma dotC n (x y : 'cV[F]_n) : dot x y = dot y x.
Proof. by rewrite !dotE; apply: eq_bigr => i _; rewrite mulrC. Qed.
Lemma dotZl n a (x y : 'cV[F]_n) : dot (a *: x) y = a * dot x y.
Proof. by rewrite !dotE big_distrr; apply: eq_bigr => i _; rewrite mxE -mulrA. Qed.
Lemma dotZr n a (x y : 'cV[F]_n) : dot x (a *: y) = a * dot x y.
Proof. by rewrite dotC dotZl dotC. Qed.
Lemma dotDl n (x y z : 'cV[F]_n) : dot (x + y) z = dot x z + dot y z.
Proof. by rewrite !dotE -big_split; apply: eq_bigr => i _; rewrite mxE mulrDl. Qed.
Lemma dotNl n (x y : 'cV[F]_n) : dot (- x) y = - dot x y.
Proof. by rewrite -scaleN1r dotZl mulN1r. Qed.
Lemma dotDr n (x y z : 'cV[F]_n) : dot x (y + z) = dot x y + dot x z.
Proof. by rewrite dotC dotDl ![dot _ x]dotC. Qed.
Lemma dotNr n (x y : 'cV[F]_n) : dot x (- y) = - dot x y.
Proof. by rewrite dotC dotNl dotC. Qed.
Lemma dot_sqn n (x : 'cV[F]_n) : dot x x = sqn x.
Proof. by rewrite sqnE. Qed.
Lemma dot_ge0 n (x : 'cV[F]_n) : 0 <= dot x x.
Proof. by rewrite dot_sqn sqn_ge0. Qed.
Lemma dot_eq0 n (x : 'cV[F]_n) : dot x x = 0 -> x = 0.
Proof. by rewrite dot_sqn; apply: sqn_eq0. Qed.
Lemma dot_sub n (x y : 'cV[F]_n) : dot (x - y) (x - y) = dot x x + dot y y - 2%:R * dot x y.
Proof.
  rewrite dotDl !dotDr !dotNl !dotNr opprK [dot y x]dotC mulr_natl mulr2n opprD. by rewrite -[LHS]addrA -[RHS]addrA; congr (_ + _); rewrite addrA addrC.
Qed.
Lemma unit_dot n (x y : 'cV[F]_n) : dot x x = 1 -> dot y y = 1 ->
  -1 <= dot x y <= 1 /\ (dot x y = 1 -> x = y).
Proof.
  move=> X Y. have S := dot_ge0 (x - y). have A := dot_ge0 (x - - y). have E := dot_sub x y. have E' := dot_sub x (- y).
  have H2 : (1 + 1 : F) = 2%:R * 1 by rewrite mulr_natl mulr2n.
  rewrite E X Y H2 -mulrBr pmulr_rge0 ?ltr0n // subr_ge0 in S.
  rewrite E' X dotNl !dotNr opprK Y H2 mulrN opprK -mulrDr pmulr_rge0 ?ltr0n // -ler_subl_addl sub0r in A.
  split; first by rewrite S A.
  move=> D. apply/eqP. rewrite -subr_eq0. apply/eqP/dot_eq0. by rewrite E X Y D H2 -mulrBr subrr mulr0.
Qed.

(** Normalisation. *)
Lemma meanE n (x : 'cV[F]_n) : (\sum_i x i 0) / n%:R = mean x.
Proof. by []. Qed.
Lemma centredE n (x : 'cV[F]_n) i : centred x i 0 = x i 0 - mean x.
Proof. by rewrite !mxE. Qed.
Lemma dot_centred n (x y : 'cV[F]_n) : dot (centred x) (centred y) = cov x y.
Proof. by rewrite dotE; apply: eq_bigr => i _; rewrite !centredE. Qed.
Lemma mean_relit n a b (x : 'cV[F]_n) : (0 < n)%N -> mean (relit a b x) = a * mean x + b.
Proof.
  move=> N. rewrite /mean. have -> : \sum_i relit a b x i 0 = a * (\sum_i x i 0) + b * n%:R.
    under eq_bigr do rewrite mxE. rewrite big_split /= big_distrr /=; congr (_ + _). by rewrite sumr_const card_ord mulr_natr.
  rewrite mulrDl mulrA mulfK // pnatr_eq0. by case: n N {x}.
Qed.
Lemma centred_relit n a b (x : 'cV[F]_n) : centred (relit a b x) = a *: centred x.
Proof.
  apply/matrixP => i j. have N : (0 < n)%N by case: n x i => [x [[]]|].
  by rewrite ord1 centredE mxE [RHS]mxE centredE mean_relit // opprD addrACA subrr addr0 mulrBr.
Qed.
Lemma normalise_relit n a b (x : 'cV[F]_n) : 0 < a -> normalise (relit a b x) = normalise x.
Proof.
  move=> A. rewrite /normalise centred_relit dotZl dotZr mulrA -expr2 sqrtrM ?sqr_ge0 // sqrtr_sqr gtr0_norm //.
  rewrite mulf_eq0 gt_eqF //=. case: ifP => // S. congr Ok. rewrite scalerA invfM mulrAC mulVf ?mul1r // gt_eqF //.
Qed.
Lemma normalise_Ok n (x w : 'cV[F]_n) : normalise x = Ok w ->
  [/\ Num.sqrt (cov x x) != 0, w = (Num.sqrt (cov x x))^-1 *: centred x & dot w w = 1].
Proof.
  rewrite /normalise dot_centred. case: ifP => // S [] <-. split; [by []|by []|].
  rewrite dotZl dotZr mulrA -invfM -expr2 sqr_sqrtr -?dot_centred ?dot_ge0 // mulVf //.
  move: S; rewrite dot_centred. apply: contraFN => /eqP ->. by rewrite sqrtr0.
Qed.
Lemma normalise_dot n (x y w t : 'cV[F]_n) : normalise x = Ok w -> normalise y = Ok t -> dot w t = correlation x y.
Proof.
  move=> /normalise_Ok [_ -> _] /normalise_Ok [_ -> _]. by rewrite dotZl dotZr dot_centred /correlation invfM mulrA mulrC.
Qed.
Lemma normalise_eq n (x y w : 'cV[F]_n) : normalise x = Ok w -> normalise y = Ok w -> exists a b, 0 < a /\ x = relit a b y.
Proof.
  move=> /normalise_Ok [Sx -> _] /normalise_Ok [Sy E _].
  have Px : 0 < Num.sqrt (cov x x) by rewrite lt_def Sx sqrtr_ge0. have Py : 0 < Num.sqrt (cov y y) by rewrite lt_def Sy sqrtr_ge0.
  move: (Num.sqrt (cov x x)) (Num.sqrt (cov y y)) Sx Sy Px Py E => a b Sx Sy Px Py E.
  exists (a / b), (mean x - a / b * mean y). split; first by rewrite divr_gt0.
  have C : centred x = (a / b) *: centred y.
    have := congr1 (fun v => a *: v) E. by rewrite !scalerA divff // scale1r => ->.
  apply/matrixP => i j. rewrite ord1 mxE addrCA -mulrBr. have := congr1 (fun v : 'cV[F]_n => v i 0) C.
  by rewrite [RHS]mxE !centredE => <-; rewrite addrC subrK.
Qed.
Lemma normalise_none n (x : 'cV[F]_n) : (exists b, forall i, x i 0 = b) <-> normalise x = Err ValueError.
Proof.
  rewrite /normalise. split.
  - move=> [b E]. have -> : centred x = 0; last by rewrite /dot mulmx0 mxE sqrtr0 eqxx.
    apply/matrixP => i j. rewrite ord1 centredE mxE E. have N : (0 < n)%N by case: n x i E => [x [[]]|].
    have -> : mean x = b; last by rewrite subrr. rewrite /mean. under eq_bigr do rewrite E.
    rewrite sumr_const card_ord -[b *+ n]mulr_natr mulfK // pnatr_eq0. by case: n N {x i E}.
  - case: ifP => // /eqP S _. exists (mean x) => i. apply/eqP. rewrite -subr_eq0 -centredE.
    suff -> : centred x = 0 by rewrite mxE. apply: dot_eq0. apply/eqP. rewrite eq_le dot_ge0 andbT -sqrtr_eq0. by apply/eqP.
Qed.

(** The factor of two equal images is one. *)
Lemma proj_gap k p (G : 'M[F]_(k, p)) (w : 'cV[F]_k) : G^T *m G \in unitmx ->
  dot w w - dot (G^T *m w) (invmx (G^T *m G) *m (G^T *m w)) = dot (w - G *m (invmx (G^T *m G) *m (G^T *m w))) (w - G *m (invmx (G^T *m G) *m (G^T *m w))).
Proof.
  move=> U. set x := invmx _ *m _. rewrite dot_sub.
  have E1 : dot (G^T *m w) x = dot w (G *m x) by rewrite /dot trmx_mul trmxK !mulmxA.
  have E2 : dot (G *m x) (G *m x) = dot w (G *m x).
    have A (u : 'cV[F]_p) v : dot (G *m u) v = dot u (G^T *m v) by rewrite /dot trmx_mul mulmxA.
    by rewrite A mulmxA {2}/x mulKVmx // -A dotC.
  by rewrite E1 E2 mulr_natl mulr2n opprD !addrA addrK.
Qed.
Lemma ecc_factor_same k p (G : 'M[F]_(k, p)) (w : 'cV[F]_k) : G^T *m G \in unitmx -> dot w w = 1 ->
  ecc_factor (invmx (G^T *m G)) G w w = 1.
Proof.
  move=> U W. rewrite /ecc_factor sqr_sqrtr ?dot_ge0 //. have GE := proj_gap w U. move: GE.
  set q := dot (G^T *m w) _. move=> GE. case: ifP => D; first by rewrite divff // gt_eqF.
  have D0 : dot w w - q = 0.
    apply/eqP. rewrite eq_le {2}GE dot_ge0 andbT leNgt D. by [].
  have Q : q = 1 by rewrite -W; apply/eqP; rewrite eq_sym -subr_eq0 D0.
  by rewrite D0 oppr0 mul0r Q divr1 sqrtr1; apply/max_idPl; rewrite ler01.
Qed.

(** Orientations. *)
Lemma angle_norm_eq0 (gy gx : F) : (angle_norm gy gx == 0) = (gy == 0) && (gx == 0).
Proof. by rewrite /angle_norm sqrtr_eq0 -(sqrf_eq0 gy) -(sqrf_eq0 gx) -paddr_eq0 ?sqr_ge0 // eq_le addr_ge0 ?sqr_ge0 // andbT. Qed.
Lemma oriented_ok (gy gx : F) : oriented gy gx (sin_angle gy gx) (cos_angle gy gx).
Proof.
  rewrite /oriented /sin_angle /cos_angle. case: ifP => N.
  - split; first by rewrite expr0n expr1n add0r. left. move: N; rewrite angle_norm_eq0 => /andP [/eqP -> /eqP ->]. by [].
  - have P : 0 < angle_norm gy gx by rewrite lt_def N sqrtr_ge0.
    split; last by right; exists (angle_norm gy gx); rewrite ![_ * (_ / _)]mulrC !divfK ?N.
    rewrite !expr_div_n -mulrDl /angle_norm sqr_sqrtr ?addr_ge0 ?sqr_ge0 // divff //.
    by move: N; rewrite /angle_norm; apply: contraFN => /eqP ->; rewrite sqrtr0.
Qed.
Lemma oriented_unique (gy gx s c s' c' : F) : oriented gy gx s c -> oriented gy gx s' c' -> s = s' /\ c = c'.
Proof.
  move=> [U H] [U' H']. case: H H' => [[-> [-> [-> ->]]]|[m [M [E1 E2]]]] [[Z1 [Z2 [-> ->]]]|[m' [M' [E1' E2']]]] //.
  - move: E1' E2' => /eqP; rewrite eq_sym mulf_eq0 (gt_eqF M') /= => /eqP Es /eqP; rewrite eq_sym mulf_eq0 (gt_eqF M') /= => /eqP Ec.
    by move: U'; rewrite Es Ec expr0n addr0 => /eqP; rewrite eq_sym oner_eq0.
  - move: E1 E2; rewrite Z1 Z2 => /eqP; rewrite eq_sym mulf_eq0 (gt_eqF M) /= => /eqP Es /eqP; rewrite eq_sym mulf_eq0 (gt_eqF M) /= => /eqP Ec.
    by move: U; rewrite Es Ec expr0n addr0 => /eqP; rewrite eq_sym oner_eq0.
  - have Em : m ^+ 2 = m' ^+ 2.
      have : gy ^+ 2 + gx ^+ 2 = m ^+ 2 by rewrite E1 E2 !exprMn -mulrDr U mulr1.
      by rewrite E1' E2' !exprMn -mulrDr U' mulr1 => ->.
    have Em' : m = m' by apply/eqP; rewrite -(@eqr_expn2 _ 2) // ?ltW //; apply/eqP.
    split; apply: (mulfI (negbT (gt_eqF M))); rewrite -?E1 -?E2 Em' //.
Qed.
Lemma gc_qpE k (phi psi : 'cV[F]_k * 'cV[F]_k) : gc_qp phi psi = \sum_i (phi.2 i 0 * psi.2 i 0 + phi.1 i 0 * psi.1 i 0).
Proof. by []. Qed.
Definition unit_field k (phi : 'cV[F]_k * 'cV[F]_k) := forall i, phi.1 i 0 ^+ 2 + phi.2 i 0 ^+ 2 = 1.
Lemma orientation_unit k (g : 'cV[F]_k * 'cV[F]_k) : unit_field (orientation g).
Proof. move=> i. rewrite !mxE. by case: (oriented_ok (g.1 i 0) (g.2 i 0)). Qed.
Lemma gc_qp_same k (phi : 'cV[F]_k * 'cV[F]_k) : unit_field phi -> gc_qp phi phi = k%:R.
Proof.
  move=> U. rewrite /gc_qp. under eq_bigr do rewrite -!expr2 addrC U. by rewrite sumr_const card_ord.
Qed.
Lemma gc_error_same k (phi : 'cV[F]_k * 'cV[F]_k) : gc_error phi phi = 0.
Proof. apply/matrixP => i j. by rewrite !mxE mulrC subrr. Qed.
Lemma gram_full n m (J : 'M[F]_(n, m)) : J^T *m J \in unitmx -> full_rank J.
Proof. by move=> U x E; rewrite -(mulKmx U x) -[J^T *m J *m x]mulmxA E !mulmx0. Qed.
Lemma solve_minimum n m (J : 'M[F]_(n, m)) (e : 'cV[F]_n) : J^T *m J \in unitmx ->
  unique_minimum (fun q => sqn (e + J *m q)) (- (invmx (J^T *m J) *m (J^T *m e))).
Proof.
  move=> U. apply: minimum_of_ml; first exact: gram_full. by rewrite mulmxDr !mulmxN [J^T *m (J *m _)]mulmxA mulKVmx // subrr.
Qed.
Lemma descentE n p (g : 'cV[F]_n * 'cV[F]_n) (dW : 'M[F]_(n, p) * 'M[F]_(n, p)) (x : 'cV[F]_n) q i :
  (x + descent g dW *m q) i 0 = moved x g.1 g.2 dW q i.
Proof.
  rewrite /moved addE; congr (_ + _). rewrite mxE !big_distrr -big_split. apply: eq_bigr => j _.
  rewrite /descent /scale_rows addE [X in (X + _) * _]mxE [X in (_ + X) * _]mxE mulrDl. by congr (_ + _); rewrite -mulrA.
Qed.
Lemma sqn_col n m (x : 'cV[F]_n) (y : 'cV[F]_m) : sqn (col_mx x y) = sqn x + sqn y.
Proof. rewrite /sqn big_split_ord. by congr (_ + _); apply: eq_bigr => i _; rewrite ?col_mxEu ?col_mxEd. Qed.
End P.
