From Verif.Model Require Import Py LinAlg.
From Verif.Spec Require Import LinAlg.
From mathcomp Require Import all_ssreflect all_algebra.
Set Implicit Arguments.
Unset Strict Implicit.
Unset Printing Implicit Defensive.
Import Order.TTheory GRing.Theory Num.Theory.
Local Open Scope ring_scope.

Section P.
Variable F : realFieldType.

Lemma addE m n (A B : 'M[F]_(m, n)) i j : (A + B) i j = A i j + B i j.
Proof. by rewrite mxE. Qed.
Lemma zeroE m n i j : (0 : 'M[F]_(m, n)) i j = 0.
Proof. by rewrite mxE. Qed.
Lemma sqnE n (v : 'cV[F]_n) : sqn v = (v^T *m v) 0 0.
Proof. by rewrite /sqn mxE; apply: eq_bigr => i _; rewrite mxE expr2. Qed.
Lemma wsqnE n (w v : 'cV[F]_n) : wsqn w v = (v^T *m diag_mx w^T *m v) 0 0.
Proof.
  rewrite /wsqn mxE; apply: eq_bigr => i _. rewrite mxE (bigD1 i) //= big1 ?addr0.
    by rewrite !mxE eqxx mulr1n expr2 mulrCA mulrA.
  by move=> j ji; rewrite !mxE (negbTE ji) mulr0n mulr0.
Qed.
Lemma sqn_ge0 n (v : 'cV[F]_n) : 0 <= sqn v.
Proof. by apply: sumr_ge0 => i _; apply: sqr_ge0. Qed.
Lemma sqn_eq0 n (v : 'cV[F]_n) : sqn v = 0 -> v = 0.
Proof.
  move=> /eqP; rewrite psumr_eq0; last by move=> i _; apply: sqr_ge0.
  move=> /allP H; apply/matrixP => i j; rewrite ord1 mxE.
  by have := H i (mem_index_enum _); rewrite /= sqrf_eq0 => /eqP.
Qed.
Lemma wsqn_ge0 n (w v : 'cV[F]_n) : (forall i, 0 <= w i 0) -> 0 <= wsqn w v.
Proof. by move=> H; apply: sumr_ge0 => i _; apply: mulr_ge0 => //; apply: sqr_ge0. Qed.
Lemma wsqn_eq0 n (w v : 'cV[F]_n) : (forall i, 0 < w i 0) -> wsqn w v = 0 -> v = 0.
Proof.
  move=> W /eqP; rewrite psumr_eq0; last by move=> i _; apply: mulr_ge0; [apply: ltW|apply: sqr_ge0].
  move=> /allP H; apply/matrixP => i j; rewrite ord1 mxE.
  by have := H i (mem_index_enum _); rewrite /= mulf_eq0 sqrf_eq0 (gt_eqF (W i)) /= => /eqP.
Qed.

(** Positive definite matrices are invertible. *)
Lemma posdef_unit n (S : 'M[F]_n) : (forall v : 'cV[F]_n, (v^T *m S *m v) 0 0 = 0 -> v = 0) -> S \in unitmx.
Proof.
  move=> H. rewrite -row_free_unit -kermx_eq0. apply/eqP/row_matrixP => i. rewrite row0.
  have K : row i (kermx S) *m S = 0 by rewrite -row_mul mulmx_ker row0.
  have := H (row i (kermx S))^T. rewrite trmxK K mul0mx mxE => /(_ erefl) E.
  by rewrite -[LHS]trmxK E trmx0.
Qed.
Lemma gram_quad n m (J : 'M[F]_(n, m)) (v : 'cV[F]_m) : (v^T *m (J^T *m J) *m v) 0 0 = sqn (J *m v).
Proof. by rewrite sqnE trmx_mul !mulmxA. Qed.
Lemma gram_unit n m (J : 'M[F]_(n, m)) : full_rank J -> J^T *m J \in unitmx.
Proof. move=> H; apply: posdef_unit => v. rewrite gram_quad => /sqn_eq0. exact: H. Qed.
Lemma prior_quad n m (J : 'M[F]_(n, m)) (w v : 'cV[F]_m) : (v^T *m (J^T *m J + diag_mx w^T) *m v) 0 0 = sqn (J *m v) + wsqn w v.
Proof. by rewrite mulmxDr mulmxDl mxE gram_quad wsqnE. Qed.
Lemma prior_unit n m (J : 'M[F]_(n, m)) (w : 'cV[F]_m) : (forall i, 0 <= w i 0) -> full_rank J -> J^T *m J + diag_mx w^T \in unitmx.
Proof.
  move=> W H; apply: posdef_unit => v. rewrite prior_quad => /eqP.
  by rewrite paddr_eq0 ?sqn_ge0 ?wsqn_ge0 // => /andP [/eqP /sqn_eq0 /H].
Qed.
Lemma prior_unit_pos n m (J : 'M[F]_(n, m)) (w : 'cV[F]_m) : (forall i, 0 < w i 0) -> J^T *m J + diag_mx w^T \in unitmx.
Proof.
  move=> W; apply: posdef_unit => v. rewrite prior_quad => /eqP. have W' i : 0 <= w i 0 by apply: ltW.
  by rewrite paddr_eq0 ?sqn_ge0 ?wsqn_ge0 // => /andP [_ /eqP /(wsqn_eq0 W)].
Qed.

(** Expanding the squared norms around a point. *)
Lemma sqnD n (a b : 'cV[F]_n) : sqn (a + b) = sqn a + sqn b + 2%:R * (b^T *m a) 0 0.
Proof.
  rewrite /sqn [X in _ + _ + 2%:R * X]mxE big_distrr -!big_split /=. apply: eq_bigr => i _.
  by rewrite !mxE sqrrD -[_ *+ 2]mulr_natl [a i 0 * _]mulrC -!addrA; congr (_ + _); rewrite addrC.
Qed.
Lemma diag_colE n (w v : 'cV[F]_n) : diag_mx w^T *m v = \col_i (w i 0 * v i 0).
Proof.
  apply/matrixP => i j; rewrite !mxE ord1 (bigD1 i) //= big1 ?addr0; last by move=> k ki; rewrite !mxE eq_sym (negbTE ki) mulr0n mul0r.
  by rewrite !mxE eqxx mulr1n.
Qed.
Lemma wsqnD n (w a b : 'cV[F]_n) : wsqn w (a + b) = wsqn w a + wsqn w b + 2%:R * (b^T *m (diag_mx w^T *m a)) 0 0.
Proof.
  rewrite /wsqn [X in _ + _ + 2%:R * X]mxE big_distrr -!big_split /=. apply: eq_bigr => i _.
  rewrite diag_colE !mxE sqrrD 2!mulrDr mulrnAr -mulr_natl -!addrA; congr (_ + _). rewrite addrC; congr (_ + _).
  by rewrite [a i 0 * _]mulrC [w i 0 * (b i 0 * _)]mulrCA.
Qed.
Lemma minimum_expand n m (J : 'M[F]_(n, m)) (e : 'cV[F]_n) (w p x h : 'cV[F]_m) :
  J^T *m (e + J *m x) + diag_mx w^T *m (p + x) = 0 ->
  sqn (e + J *m (x + h)) + wsqn w (p + (x + h)) = sqn (e + J *m x) + wsqn w (p + x) + (sqn (J *m h) + wsqn w h).
Proof.
  move=> N. rewrite mulmxDr !addrA sqnD [wsqn w (p + x + h)]wsqnD.
  have Z : ((J *m h)^T *m (e + J *m x)) 0 0 + (h^T *m (diag_mx w^T *m (p + x))) 0 0 = 0.
    have := congr1 (fun M : 'cV[F]_m => (h^T *m M) 0 0) N.
    by rewrite /= mulmxDr mulmx0 addE zeroE trmx_mul -!mulmxA.
  rewrite addrACA -mulrDr Z mulr0 addr0 addrACA. by rewrite !addrA.
Qed.
Lemma minimum_of n m (J : 'M[F]_(n, m)) (e : 'cV[F]_n) (w p x : 'cV[F]_m) : (forall i, 0 <= w i 0) ->
  (forall h, sqn (J *m h) + wsqn w h = 0 -> h = 0) ->
  J^T *m (e + J *m x) + diag_mx w^T *m (p + x) = 0 ->
  unique_minimum (fun x => sqn (e + J *m x) + wsqn w (p + x)) x.
Proof.
  move=> W Def N.
  have E y : sqn (e + J *m y) + wsqn w (p + y) = sqn (e + J *m x) + wsqn w (p + x) + (sqn (J *m (y - x)) + wsqn w (y - x)).
    by rewrite -(minimum_expand _ N) [x + _]addrC subrK.
  have G y : 0 <= sqn (J *m (y - x)) + wsqn w (y - x) by apply: addr_ge0; [apply: sqn_ge0|apply: wsqn_ge0].
  split=> y; rewrite (E y); first by rewrite ler_addl.
  rewrite ger_addl => L. apply/eqP; rewrite -subr_eq0; apply/eqP; apply: Def. by apply/eqP; rewrite eq_le L G.
Qed.
Lemma wsqn0 n (v : 'cV[F]_n) : wsqn 0 v = 0.
Proof. by rewrite /wsqn big1 // => i _; rewrite mxE mul0r. Qed.
Lemma minimum_of_ml n m (J : 'M[F]_(n, m)) (e : 'cV[F]_n) (x : 'cV[F]_m) : full_rank J -> J^T *m (e + J *m x) = 0 ->
  unique_minimum (fun x => sqn (e + J *m x)) x.
Proof.
  move=> R N. have [] := @minimum_of n m J e 0 0 x; first by move=> i; rewrite mxE.
  - by move=> h; rewrite wsqn0 addr0 => /sqn_eq0 /R.
  - have -> : diag_mx (0 : 'cV[F]_m)^T = 0 by rewrite trmx0; apply/matrixP => i j; rewrite !mxE mul0rn.
    by rewrite mul0mx addr0.
  by move=> H1 H2; split=> y; [have := H1 y|move: (H2 y)]; rewrite !wsqn0 !addr0.
Qed.

(** Pseudo-inverse. *)
Lemma pinv_full_rank n m (A : 'M[F]_(n, m)) : full_rank A -> penrose A (invmx (A^T *m A) *m A^T).
Proof.
  move=> R. have U := gram_unit R. set G := A^T *m A in U *.
  have I : invmx G *m A^T *m A = 1%:M by rewrite -mulmxA mulVmx.
  have S : (invmx G)^T = invmx G by rewrite trmx_inv /G trmx_mul trmxK.
  split.
  - by rewrite -[A *m _ *m A]mulmxA I mulmx1.
  - by rewrite I mul1mx.
  - by rewrite !trmx_mul trmxK S mulmxA.
  - by rewrite I trmx1.
Qed.
Lemma penrose_unique n m (A : 'M[F]_(n, m)) P Q : penrose A P -> penrose A Q -> P = Q.
Proof.
  case=> P1 P2 P3 P4 [Q1 Q2 Q3 Q4].
  have E1 : A *m P = A *m Q.
    have E : (A *m P) *m (A *m Q) = A *m Q by rewrite mulmxA P1.
    by rewrite -Q3 -E trmx_mul P3 Q3 mulmxA Q1.
  have E2 : P *m A = Q *m A.
    have E : (P *m A) *m (Q *m A) = P *m A by rewrite -mulmxA [A *m _]mulmxA Q1.
    by rewrite -P4 -E trmx_mul P4 Q4 -mulmxA [A *m _]mulmxA P1.
  by rewrite -P2 E2 -mulmxA E1 mulmxA Q2.
Qed.

(** Solvers. *)
Lemma np_solve_ok n k (A : 'M[F]_n) (B : 'M[F]_(n, k)) : A \in unitmx -> exists2 x, np_solve A B = Ok x & A *m x = B.
Proof. by move=> U; rewrite /np_solve U; exists (invmx A *m B) => //; rewrite mulmxA mulmxV // mul1mx. Qed.
Lemma solve_shape_ml_ok n m (H : 'M[F]_m) (J : 'M[F]_(n, m)) e : H \in unitmx ->
  exists2 dp, solve_shape_ml H J e = Ok dp & J^T *m e + H *m dp = 0.
Proof.
  move=> U. rewrite /solve_shape_ml. have [x -> E] := np_solve_ok (J^T *m e) U. exists (- x) => //. by rewrite mulmxN E subrr.
Qed.
Lemma solve_shape_map_ok n m (H : 'M[F]_m) (J : 'M[F]_(n, m)) e w p : H + diag_mx w^T \in unitmx ->
  exists2 dp, (solve_shape_map H J e w p).2 = Ok dp & J^T *m e + H *m dp + diag_mx w^T *m (p + dp) = 0.
Proof.
  move=> U. rewrite /solve_shape_map /=. have [x -> E] := np_solve_ok (\col_i (w i 0 * p i 0) + J^T *m e) U.
  exists (- x) => //=. rewrite mulmxDr -addrA [H *m _ + _]addrCA -mulmxDl mulmxN E diag_colE.
  by rewrite addrA [J^T *m e + _]addrC subrr.
Qed.
Lemma solve_all_ml_ok k m n (H : 'M[F]_(m + n)) (J : 'M[F]_(k, m + n)) e : H \in unitmx ->
  exists x, solve_all_ml H J e = Ok (usubmx x, dsubmx x) /\ J^T *m e + H *m x = 0.
Proof.
  move=> U. rewrite /solve_all_ml. have [x -> E] := np_solve_ok (J^T *m e) U. exists (- x); split=> //. by rewrite mulmxN E subrr.
Qed.
Lemma solve_all_map_ok k m n (H : 'M[F]_(m + n)) (J : 'M[F]_(k, m + n)) e wa c ws p : let w := col_mx wa ws in
  H + diag_mx w^T \in unitmx ->
  exists x, solve_all_map H J e wa c ws p = Ok (usubmx x, dsubmx x) /\ J^T *m e + H *m x + diag_mx w^T *m (col_mx c p + x) = 0.
Proof.
  move=> w U. rewrite /solve_all_map -/w /=. have [x -> E] := np_solve_ok (\col_i (w i 0 * (col_mx c p) i 0) + J^T *m e) U.
  exists (- x); split=> //=. rewrite mulmxDr -addrA [H *m _ + _]addrCA -mulmxDl mulmxN E diag_colE.
  by rewrite addrA [J^T *m e + _]addrC subrr.
Qed.

(** Projection. *)
Section Proj.
Variables (k m : nat) (A : 'M[F]_(k, m)) (P : 'M[F]_(m, k)).
Hypothesis PA : penrose A P.
Lemma project_outE j (J : 'M[F]_(k, j)) : project_out A P J = (1%:M - A *m P) *m J.
Proof. by rewrite /project_out mulmxBl mul1mx mulmxA. Qed.
Lemma Q_sym : (1%:M - A *m P)^T = 1%:M - A *m P.
Proof. by case: PA => _ _ E _; rewrite linearB /= trmx1 E. Qed.
Lemma Q_idem : (1%:M - A *m P) *m (1%:M - A *m P) = 1%:M - A *m P.
Proof.
  case: PA => E _ _ _. rewrite mulmxBr mulmx1 mulmxBl mul1mx.
  by rewrite mulmxA E subrr subr0.
Qed.
Lemma Q_A : (1%:M - A *m P) *m A = 0.
Proof. by case: PA => E _ _ _; rewrite mulmxBl mul1mx E subrr. Qed.
Lemma A_Q : A^T *m (1%:M - A *m P) = 0.
Proof. by rewrite -Q_sym -trmx_mul Q_A trmx0. Qed.
Lemma P_orth j (x : 'M[F]_(k, j)) : A^T *m x = 0 -> P *m x = 0.
Proof. case: PA => _ E2 E3 _ H. by rewrite -E2 -[P *m A *m P]mulmxA -E3 trmx_mul -!mulmxA H !mulmx0. Qed.
Lemma QJ_gram n (J : 'M[F]_(k, n)) : (project_out A P J)^T *m J = (project_out A P J)^T *m project_out A P J.
Proof. by rewrite !project_outE trmx_mul Q_sym mulmxA -[_ *m _ *m (1%:M - _)]mulmxA Q_idem. Qed.
Lemma QJ_e n j (J : 'M[F]_(k, n)) (e : 'M[F]_(k, j)) : (project_out A P J)^T *m e = (project_out A P J)^T *m project_out A P e.
Proof. by rewrite !project_outE trmx_mul Q_sym mulmxA -[_ *m _ *m (1%:M - _)]mulmxA Q_idem. Qed.
Lemma QJ_full n (J : 'M[F]_(k, n)) : full_rank (row_mx (- A) J) -> full_rank (project_out A P J).
Proof.
  move=> R x. rewrite /project_out mulmxBl => /eqP; rewrite subr_eq0 => /eqP E.
  have := R (col_mx (P *m J *m x) x). rewrite mul_row_col mulNmx E -!mulmxA addNr => /(_ erefl) /eqP.
  by rewrite col_mx_eq0 => /andP [_ /eqP].
Qed.
Lemma cost_ofE (x : 'cV[F]_k) : cost_of A P x = sqn (project_out A P x).
Proof. by rewrite /cost_of sqnE !project_outE trmx_mul Q_sym mulmxA -[in RHS]mulmxA [(_ - _) *m (_ *m x)]mulmxA Q_idem mulmxA. Qed.
Lemma sqn_project (x : 'cV[F]_k) c : sqn (x - A *m c) = sqn (project_out A P x) + sqn (A *m (P *m x - c)).
Proof.
  have -> : x - A *m c = project_out A P x + A *m (P *m x - c).
    by rewrite /project_out mulmxBr addrA subrK.
  rewrite sqnD project_outE trmx_mul -mulmxA [A^T *m _]mulmxA A_Q mul0mx mulmx0 zeroE mulr0 addr0 -project_outE //.
Qed.
End Proj.

(** Joint minimisation over pairs. *)
Lemma pair_minimum m n (f : 'cV[F]_m * 'cV[F]_n -> F) (g : 'cV[F]_(m + n) -> F) x :
  (forall a b, f (a, b) = g (col_mx a b)) -> unique_minimum g x -> unique_minimum f (usubmx x, dsubmx x).
Proof.
  move=> E [H1 H2]. split; case=> a b; rewrite !E vsubmxK; first by apply: H1.
  by move=> /H2 <-; rewrite col_mxKu col_mxKd.
Qed.
Lemma minimum_unique (T : Type) (f : T -> F) x y : unique_minimum f x -> unique_minimum f y -> x = y.
Proof. by case=> H1 H2 [H3 H4]; apply: H4; apply: H1. Qed.
Lemma minimum_eq (T : Type) (f g : T -> F) x : (forall y, f y = g y) -> unique_minimum f x -> unique_minimum g x.
Proof. by move=> E [H1 H2]; split=> y; rewrite -!E; auto. Qed.
Lemma full_rank_left k m n (A : 'M[F]_(k, m)) (J : 'M[F]_(k, n)) : full_rank (row_mx (- A) J) -> full_rank A.
Proof.
  move=> R x H. have := R (col_mx x 0). rewrite mul_row_col mulNmx H mulmx0 oppr0 addr0 => /(_ erefl) /eqP.
  by rewrite col_mx_eq0 => /andP [/eqP].
Qed.
End P.
