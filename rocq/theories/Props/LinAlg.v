(** C41, C42: project-out and the Gauss-Newton increments. *)
From Verif.Model Require Import Py LinAlg.
From Verif.Spec Require Import LinAlg.
From Verif.Proofs Require Import LinAlg.
From mathcomp Require Import all_ssreflect all_algebra.
Set Implicit Arguments.
Unset Strict Implicit.
Unset Printing Implicit Defensive.
Import Order.TTheory GRing.Theory Num.Theory.
Local Open Scope ring_scope.

(** ** C41 *)
(** Whatever the appearance basis [A] (of any rank), with its pseudo-inverse: projecting out is idempotent, its result is
    orthogonal to the basis, it annihilates everything in the span of the basis and leaves everything orthogonal to it
    unchanged. *)
Theorem c41_project_out : forall (F : realFieldType) k m j (A : 'M[F]_(k, m)) P (x : 'M[F]_(k, j)), penrose A P ->
  [/\ project_out A P (project_out A P x) = project_out A P x,
      A^T *m project_out A P x = 0,
      forall c : 'M[F]_(m, j), project_out A P (A *m c) = 0
    & A^T *m x = 0 -> project_out A P x = x].
Proof.
  move=> F k m j A P x PA. split.
  - by rewrite !project_outE mulmxA Q_idem.
  - by rewrite project_outE mulmxA A_Q // mul0mx.
  - by move=> c; rewrite project_outE mulmxA Q_A // mul0mx.
  - by move=> H; rewrite /project_out (P_orth PA H) mulmx0 subr0.
Qed.
Print Assumptions c41_project_out.

(** The project-out cost of a residual is the least squared distance of the residual to the span of the appearance basis,
    attained at the weights pinv(A) x. *)
Theorem c41_cost : forall (F : realFieldType) k m (A : 'M[F]_(k, m)) P (x : 'cV[F]_k), penrose A P ->
  cost_of A P x = sqn (x - A *m (P *m x)) /\ (forall c, cost_of A P x <= sqn (x - A *m c)).
Proof.
  move=> F k m A P x PA. split; first by rewrite cost_ofE.
  by move=> c; rewrite cost_ofE // (sqn_project PA) ler_addl sqn_ge0.
Qed.
Print Assumptions c41_cost.

(** The appearance weights of an image are the ones of the closest instance of the model. *)
Theorem c41_weights : forall (F : realFieldType) k m (A : 'M[F]_(k, m)) P (i_m a_bar_m : 'cV[F]_k), penrose A P -> full_rank A ->
  unique_minimum (fun c => sqn (i_m - (a_bar_m + A *m c))) (appearance_weights P i_m a_bar_m).
Proof.
  move=> F k m A P i a PA R. set x := i - a.
  have E c : sqn (i - (a + A *m c)) = sqn (x - A *m c) by rewrite /x opprD addrA.
  have Z : sqn (0 : 'cV[F]_k) = 0 by rewrite /sqn big1 // => i0 _; rewrite mxE expr0n.
  have K c : sqn (x - A *m c) = cost_of A P x + sqn (A *m (P *m x - c)) by rewrite cost_ofE // -(sqn_project PA).
  have K0 : sqn (x - A *m (P *m x)) = cost_of A P x by rewrite K subrr mulmx0 Z addr0.
  rewrite /appearance_weights -/x. split=> y; rewrite !E K0 (K y); first by rewrite ler_addl sqn_ge0.
  rewrite ger_addl => L. apply/eqP; rewrite eq_sym -subr_eq0; apply/eqP; apply: R; apply: sqn_eq0; apply/eqP.
  by rewrite eq_le sqn_ge0 andbT.
Qed.
Print Assumptions c41_weights.

(** A pseudo-inverse exists for every basis of full column rank, and there is only one. *)
Theorem c41_pinv : forall (F : realFieldType) k m (A : 'M[F]_(k, m)),
  (full_rank A -> exists P, penrose A P) /\ (forall P Q, penrose A P -> penrose A Q -> P = Q).
Proof. move=> F k m A. split; first by move=> R; exists (invmx (A^T *m A) *m A^T); exact: pinv_full_rank. by move=> P Q; exact: penrose_unique. Qed.
Print Assumptions c41_pinv.

(** Bases of full column rank: the identity with any rows below. *)
Example full_rank_ex : forall k m (B : 'M[rat]_(k, m)), full_rank (col_mx 1%:M B).
Proof. move=> k m B x. by rewrite mul_col_mx mul1mx => /eqP; rewrite col_mx_eq0 => /andP [/eqP]. Qed.
Example full_rank_joint_ex : full_rank (row_mx (- (col_mx 1%:M 0 : 'M[rat]_(1 + 1, 1))) (col_mx 1%:M 1%:M)).
Proof.
  move=> x. rewrite -[x]vsubmxK mul_row_col mulNmx !mul_col_mx mul1mx mul0mx opp_col_mx add_col_mx oppr0 add0r => /eqP.
  rewrite col_mx_eq0 !mul1mx => /andP [/eqP H1 /eqP H2]. move: H1; rewrite H2 addr0 => /eqP. rewrite oppr_eq0 => /eqP ->.
  by rewrite col_mx0.
Qed.

(** ** C42 *)
Section C42.
Variable F : realFieldType.
(** The ML increment is the only minimum of the linearised squared residual. *)
Theorem c42_ml : forall n m (J : 'M[F]_(n, m)) (e : 'cV[F]_n), full_rank J ->
  exists dp, solve_shape_ml (J^T *m J) J e = Ok dp /\ unique_minimum (fun dp => sqn (e + J *m dp)) dp.
Proof.
  move=> n m J e R. have [dp -> E] := solve_shape_ml_ok J e (gram_unit R). exists dp; split=> //.
  by apply: minimum_of_ml => //; rewrite mulmxDr mulmxA.
Qed.
(** The MAP increment is the only minimum of the linearised squared residual plus the prior of the new parameters: for a
    non-negative prior if the Jacobian has full rank, for a positive prior always. *)
Theorem c42_map : forall n m (J : 'M[F]_(n, m)) (e : 'cV[F]_n) (w p : 'cV[F]_m),
  (full_rank J /\ (forall i, 0 <= w i 0)) \/ (forall i, 0 < w i 0) ->
  exists dp, snd (solve_shape_map (J^T *m J) J e w p) = Ok dp /\
    unique_minimum (fun dp => sqn (e + J *m dp) + wsqn w (p + dp)) dp.
Proof.
  move=> n m J e w p Hyp.
  have W i : 0 <= w i 0 by case: Hyp => [[_ H] //|H]; apply: ltW.
  have U : J^T *m J + diag_mx w^T \in unitmx by case: Hyp => [[R H]|H]; [apply: prior_unit|apply: prior_unit_pos].
  have [dp -> E] := solve_shape_map_ok J e p U. exists dp; split=> //. apply: minimum_of => //.
  - move=> h /eqP. rewrite paddr_eq0 ?sqn_ge0 ?wsqn_ge0 // => /andP [/eqP H1 /eqP H2].
    by case: Hyp => [[R _]|H]; [apply: R; apply: sqn_eq0|apply: (wsqn_eq0 H)].
  - by rewrite mulmxDr mulmxA.
Qed.
(** The simultaneous increments minimise the residual of appearance and shape jointly. *)
Theorem c42_simultaneous_ml : forall k m n (A : 'M[F]_(k, m)) (J : 'M[F]_(k, n)) (e : 'cV[F]_k) (s2_inv_S c : 'cV[F]_m) (s2_inv_L p : 'cV[F]_n),
  full_rank (row_mx (- A) J) ->
  exists dc dp, simultaneous_step false A J e s2_inv_S c s2_inv_L p = Ok (dc, dp) /\
    unique_minimum (fun q => sqn (e - A *m q.1 + J *m q.2)) (dc, dp).
Proof.
  move=> k m n A J e wa c ws p R. rewrite /simultaneous_step.
  have [x [-> E]] := solve_all_ml_ok (row_mx (- A) J) e (gram_unit R).
  exists (usubmx x), (dsubmx x); split=> //. apply: (@pair_minimum _ _ _ _ (fun x => sqn (e + row_mx (- A) J *m x))).
  - by move=> a b; rewrite mul_row_col mulNmx addrA.
  - by apply: minimum_of_ml => //; rewrite mulmxDr mulmxA.
Qed.
Theorem c42_simultaneous_map : forall k m n (A : 'M[F]_(k, m)) (J : 'M[F]_(k, n)) (e : 'cV[F]_k) (wa c : 'cV[F]_m) (ws p : 'cV[F]_n),
  full_rank (row_mx (- A) J) -> (forall i, 0 <= wa i 0) -> (forall i, 0 <= ws i 0) ->
  exists dc dp, simultaneous_step true A J e wa c ws p = Ok (dc, dp) /\
    unique_minimum (fun q => sqn (e - A *m q.1 + J *m q.2) + wsqn wa (c + q.1) + wsqn ws (p + q.2)) (dc, dp).
Proof.
  move=> k m n A J e wa c ws p R Wa Ws. rewrite /simultaneous_step.
  have W i : 0 <= (col_mx wa ws) i 0 by rewrite mxE; case: split.
  have [x [-> E]] := solve_all_map_ok (row_mx (- A) J) e c p (prior_unit W R).
  exists (usubmx x), (dsubmx x); split=> //.
  apply: (@pair_minimum _ _ _ _ (fun x => sqn (e + row_mx (- A) J *m x) + wsqn (col_mx wa ws) (col_mx c p + x))).
  - move=> a b. rewrite mul_row_col mulNmx addrA add_col_mx -addrA; congr (_ + _).
    rewrite /wsqn [RHS]big_split_ord /=; congr (_ + _); apply: eq_bigr => i _; rewrite ?col_mxEu ?col_mxEd //.
  - apply: minimum_of => //; last by rewrite mulmxDr mulmxA.
    move=> h /eqP. rewrite paddr_eq0 ?sqn_ge0 ?wsqn_ge0 // => /andP [/eqP H1 _]. by apply: R; apply: sqn_eq0.
Qed.
(** The project-out increment is the shape part of the joint minimum; the inverse compositional form, which prepares a
    pseudo-inverse in advance, computes the same; so does the simultaneous solver. *)
Theorem c42_project_out_ml : forall k m n (A : 'M[F]_(k, m)) P (J : 'M[F]_(k, n)) (e : 'cV[F]_k) s2_inv_L p,
  full_rank (row_mx (- A) J) -> penrose A P ->
  exists dp, project_out_step false A P J e s2_inv_L p = Ok dp /\ project_out_inverse_step A P J e = Ok dp /\
    (exists dc, unique_minimum (fun q => sqn (e - A *m q.1 + J *m q.2)) (dc, dp)) /\
    (forall s2_inv_S c, exists dc, simultaneous_step false A J e s2_inv_S c s2_inv_L p = Ok (dc, dp)).
Proof.
  move=> k m n A P J e ws p R PA. rewrite /project_out_step /project_out_inverse_step.
  have R' : full_rank (project_out A P J) by apply: QJ_full. set QJ := project_out A P J.
  have U : QJ^T *m J \in unitmx by rewrite (QJ_gram PA); apply: gram_unit.
  have [dp E1 E] := solve_shape_ml_ok QJ e U. exists dp; split=> //. split.
  { rewrite /np_solve U. move: E1. rewrite /solve_shape_ml /np_solve U /=. by rewrite mulmxA. }
  have M : unique_minimum (fun q => sqn (e - A *m q.1 + J *m q.2)) (P *m (e + J *m dp), dp).
  { have -> : (P *m (e + J *m dp), dp) = (usubmx (col_mx (P *m (e + J *m dp)) dp), dsubmx (col_mx (P *m (e + J *m dp)) dp)) by rewrite col_mxKu col_mxKd.
    apply: (@pair_minimum _ _ _ _ (fun x => sqn (e + row_mx (- A) J *m x))); first by move=> a b; rewrite mul_row_col mulNmx addrA.
    apply: minimum_of_ml => //. rewrite mul_row_col mulNmx addrCA addrC -/(project_out A P (e + J *m dp)).
    rewrite tr_row_mx mul_col_mx linearN /= mulNmx project_outE mulmxA A_Q // mul0mx oppr0.
    have -> : J^T *m ((1%:M - A *m P) *m (e + J *m dp)) = QJ^T *m e + QJ^T *m J *m dp.
      by rewrite /QJ project_outE trmx_mul Q_sym // mulmxA [_ *m (e + _)]mulmxDr !mulmxA.
    by rewrite E col_mx0. }
  split; first by exists (P *m (e + J *m dp)).
  move=> wa c. have [dc [dp' [E2 M2]]] := c42_simultaneous_ml e wa c ws p R.
  have [Ec Ep] : (dc, dp') = (P *m (e + J *m dp), dp) by apply: (minimum_unique M2 M).
  by exists dc; rewrite E2 Ep.
Qed.
(** With the prior, the project-out increment minimises the projected residual plus the prior. *)
Theorem c42_project_out_map : forall k m n (A : 'M[F]_(k, m)) P (J : 'M[F]_(k, n)) (e : 'cV[F]_k) (w p : 'cV[F]_n),
  full_rank (row_mx (- A) J) -> penrose A P -> (forall i, 0 <= w i 0) ->
  exists dp, project_out_step true A P J e w p = Ok dp /\
    unique_minimum (fun dp => cost_of A P (e + J *m dp) + wsqn w (p + dp)) dp.
Proof.
  move=> k m n A P J e w p R PA W. rewrite /project_out_step. have R' : full_rank (project_out A P J) by apply: QJ_full. set QJ := project_out A P J.
  have U : QJ^T *m J + diag_mx w^T \in unitmx by rewrite (QJ_gram PA); apply: prior_unit.
  have [dp -> E] := solve_shape_map_ok QJ e p U. exists dp; split=> //.
  apply: (@minimum_eq _ _ (fun dp => sqn (project_out A P e + QJ *m dp) + wsqn w (p + dp))).
  { move=> y; congr (_ + _). by rewrite cost_ofE // /QJ !project_outE mulmxDr mulmxA. }
  apply: minimum_of => //.
  - move=> h /eqP. rewrite paddr_eq0 ?sqn_ge0 ?wsqn_ge0 // => /andP [/eqP H1 _]. by apply: R'; apply: sqn_eq0.
  - by rewrite mulmxDr -(QJ_e PA) mulmxA -(QJ_gram PA).
Qed.
(** One alternating iteration: the appearance increment is the best for the last shape increment, the shape increment the
    best for that appearance increment; modified alternating: the best shape increment. *)
Theorem c42_alternating : forall k m n (A : 'M[F]_(k, m)) P (J : 'M[F]_(k, n)) (e Jdp : 'cV[F]_k),
  full_rank A -> full_rank J -> penrose A P ->
  exists dc dp, alternating_step A P J e Jdp = Ok (dc, dp) /\
    unique_minimum (fun dc => sqn (e + Jdp - A *m dc)) dc /\ unique_minimum (fun dp => sqn (e - A *m dc + J *m dp)) dp.
Proof.
  move=> k m n A P J e Jdp RA RJ PA. rewrite /alternating_step.
  have [dp [-> M]] := c42_ml (e - A *m (P *m (e + Jdp))) RJ. exists (P *m (e + Jdp)), dp; split=> //; split=> //.
  have := c41_weights (e + Jdp) 0 PA RA. rewrite /appearance_weights subr0. by apply: minimum_eq => y; rewrite add0r.
Qed.
Theorem c42_modified_alternating : forall k n (J : 'M[F]_(k, n)) (e : 'cV[F]_k) (w p : 'cV[F]_n), full_rank J -> (forall i, 0 <= w i 0) ->
  (exists dp, modified_alternating_step false J e w p = Ok dp /\ unique_minimum (fun dp => sqn (e + J *m dp)) dp) /\
  (exists dp, modified_alternating_step true J e w p = Ok dp /\ unique_minimum (fun dp => sqn (e + J *m dp) + wsqn w (p + dp)) dp).
Proof. move=> k n J e w p R W. split; [exact: c42_ml|]. by apply: c42_map; left. Qed.
(** Lucas-Kanade with the sum of squared differences: the forward increment brings the linearised warped image closest to
    the template, the inverse one the linearised template closest to the warped image. *)
Theorem c42_lk_forward : forall k n (J : 'M[F]_(k, n)) (image template : 'cV[F]_k), full_rank J ->
  exists dp, lk_forward_step J image template = Ok dp /\ unique_minimum (fun dp => sqn (image + J *m dp - template)) dp.
Proof.
  move=> k n J i t R. have [dp [E M]] := c42_ml (i - t) R. exists dp; split; first by [].
  by apply: (minimum_eq _ M) => y; rewrite addrAC.
Qed.
Theorem c42_lk_inverse : forall k n (J : 'M[F]_(k, n)) (image template : 'cV[F]_k), full_rank J ->
  exists dp, lk_inverse_step J image template = Ok dp /\ unique_minimum (fun dp => sqn (template + J *m dp - image)) dp.
Proof.
  move=> k n J i t R. rewrite /lk_inverse_step. have [dp -> E] := np_solve_ok (J^T *m (i - t)) (gram_unit R). exists dp; split=> //.
  apply: (@minimum_eq _ _ (fun dp => sqn ((t - i) + J *m dp))); first by move=> y; rewrite addrAC.
  by apply: minimum_of_ml => //; rewrite mulmxDr mulmxA E -mulmxDr addrA subrK subrr mulmx0.
Qed.
(** Without full rank there is no increment: numpy raises LinAlgError. *)
Theorem c42_singular : forall n m (J : 'M[F]_(n, m)) (e : 'cV[F]_n) (x : 'cV[F]_m), J *m x = 0 -> x != 0 ->
  solve_shape_ml (J^T *m J) J e = Err LinAlgError.
Proof.
  move=> n m J e x H N. rewrite /solve_shape_ml /np_solve. case: ifP => // U.
  move: N => /negP; case. apply/eqP. have := mulKmx U x. by rewrite -[J^T *m J *m x]mulmxA H !mulmx0.
Qed.
End C42.
Print Assumptions c42_ml.
Print Assumptions c42_map.
Print Assumptions c42_simultaneous_ml.
Print Assumptions c42_simultaneous_map.
Print Assumptions c42_project_out_ml.
Print Assumptions c42_project_out_map.
Print Assumptions c42_alternating.
Print Assumptions c42_modified_alternating.
Print Assumptions c42_lk_forward.
Print Assumptions c42_lk_inverse.
Print Assumptions c42_singular.
