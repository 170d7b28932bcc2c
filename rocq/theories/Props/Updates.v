(** C68 constrained local models, C69 unified AAM-CLM, C70 active pictorial structures: what one update does. *)
From Verif.Model Require Import Py Einsum ModelInstance Jacobian LinAlg Updates.
From Verif.Spec Require Import ModelInstance LinAlg Updates.
From Verif.Proofs Require Import LinAlg MRing ModelInstance Projection ModelExample Updates ClmPose.
From mathcomp Require Import all_ssreflect all_algebra.
Set Implicit Arguments.
Unset Strict Implicit.
Unset Printing Implicit Defensive.
Import Order.TTheory GRing.Theory Num.Theory.
Local Open Scope ring_scope.

(** ** C68 *)
(** The maximum likelihood increment is the only minimum of the squared distance to the displacements. *)
Theorem c68_maximum_likelihood : forall (F : realFieldType) n P (J : 'M[F]_(n, P)) (w p : 'cV[F]_P) e,
  (forall i, 0 <= w i 0) -> full_rank J ->
  exists2 dp, clm_step false J w p e = Ok dp & unique_minimum (clm_ml J e) dp.
Proof. move=> F n P J w p e; exact: clm_ml_ok. Qed.
Print Assumptions c68_maximum_likelihood.
(** The maximum a posteriori increment is the only minimum of that distance plus the prior of the updated parameters. *)
Theorem c68_maximum_a_posteriori : forall (F : realFieldType) n k (J : 'M[F]_(n, 4 + k)) rho2 (ev : 'cV[F]_k) p e,
  0 <= rho2 -> (forall i, 0 < ev i 0) -> full_rank J ->
  exists2 dp, clm_step true J (shape_prior rho2 ev) p e = Ok dp & unique_minimum (clm_map J e rho2 ev p) dp.
Proof. move=> F n k J rho2 ev p e; exact: clm_map_ok. Qed.
Print Assumptions c68_maximum_a_posteriori.
(** Without noise the two increments are the same. *)
Theorem c68_no_prior : forall (F : realFieldType) n k (J : 'M[F]_(n, 4 + k)) (ev : 'cV[F]_k) p e,
  (forall i, 0 < ev i 0) -> full_rank J ->
  clm_step true J (shape_prior 0 ev) p e = clm_step false J (shape_prior 0 ev) p e.
Proof.
  move=> F n k J ev p e E R. have W := prior_ge0 (lexx 0) E.
  have [a -> A] := clm_map_ok p e (lexx 0) E R. have [b -> B] := clm_ml_ok p e W R. congr Ok.
  case: B => _; apply. case: A => A _. have := A b. by rewrite /clm_map /shape_penalty !mul0r !addr0.
Qed.
Print Assumptions c68_no_prior.
(** Both raise exactly when the displacements do not determine the parameters. *)
Theorem c68_raises : forall (F : realFieldType) n P (J : 'M[F]_(n, P)) (w : 'cV[F]_P) map p e, (forall i, 0 <= w i 0) ->
  clm_step map J w p e = Err LinAlgError <-> ~ full_rank J.
Proof. move=> F n P J w map p e; exact: clm_raises. Qed.
Print Assumptions c68_raises.
(** Displacements that a change of the non-rigid parameters can realise in the pose of the mean: what one maximum likelihood
    update makes of them when the model is in another pose.  The Jacobian [jac] was taken from [d0], the model as it was when
    the algorithm was built, in a pose that neither rotates nor scales; the shape is displaced by the image of the
    displacements under the pose, not by the displacements. *)
Theorem c68_pose : forall (F : realFieldType) N (align : 'M[F]_(N, 2) -> 'M[F]_(N, 2) -> sim F) src (d0 d : opdm F N) jac
    (w : 'cV[F]_(size (o_simcomps d) + size (active (o_model d)))) u,
  let x := \sum_(k < size (active (o_model d))) nth 0 u k *: nth 0 (active (o_model d)) k in
  (forall i, 0 <= w i 0) -> s_a (o_sim d0) = 0 -> s_b (o_sim d0) = 0 -> opdm_d_dp d0 = Ok jac ->
  o_model d = o_model d0 -> o_simcomps d = o_simcomps d0 -> orthonormal (o_simcomps d ++ active (o_model d)) ->
  size (o_simweights d) = size (o_simcomps d) -> size (o_weights d) = size (active (o_model d)) ->
  similar (o_sim d) (linear_shape (o_model d) (o_weights d)) (o_target d) ->
  o_sim d = align src (linear_shape (LModel (m_mean (o_model d)) (o_simcomps d) (size (o_simcomps d))) (o_simweights d)) ->
  size u = size (active (o_model d)) ->
  exists2 d', clm_update align src false (jacobian_matrix N _ jac) w d (as_vector x) = (d', Ok tt) &
    forall i, o_target d' i 0 = o_target d i 0 + ((1 + s_a (o_sim d)) * x i 0 - s_b (o_sim d) * x i 1) /\
              o_target d' i 1 = o_target d i 1 + (s_b (o_sim d) * x i 0 + (1 + s_a (o_sim d)) * x i 1).
Proof.
  move=> F N align src d0 d jac w u x W A B EJ M C O S1 S2 SY GL U.
  have [d' E [T _]] := @pose_update F N align src d0 d jac w W A B EJ M C O S1 S2 SY GL u U.
  exists d' => // i. rewrite T. have [L0 L1] := lin_partE (o_sim d) x i. by rewrite !addE L0 L1.
Qed.
Print Assumptions c68_pose.
(** In a pose that neither rotates nor scales, the update realises the displacements exactly.  Missing: other poses. *)
Theorem c68_upright_partial : forall (F : realFieldType) N (align : 'M[F]_(N, 2) -> 'M[F]_(N, 2) -> sim F) src (d0 d : opdm F N) jac
    (w : 'cV[F]_(size (o_simcomps d) + size (active (o_model d)))) u,
  let x := \sum_(k < size (active (o_model d))) nth 0 u k *: nth 0 (active (o_model d)) k in
  (forall i, 0 <= w i 0) -> s_a (o_sim d0) = 0 -> s_b (o_sim d0) = 0 -> opdm_d_dp d0 = Ok jac ->
  o_model d = o_model d0 -> o_simcomps d = o_simcomps d0 -> orthonormal (o_simcomps d ++ active (o_model d)) ->
  size (o_simweights d) = size (o_simcomps d) -> size (o_weights d) = size (active (o_model d)) ->
  similar (o_sim d) (linear_shape (o_model d) (o_weights d)) (o_target d) ->
  o_sim d = align src (linear_shape (LModel (m_mean (o_model d)) (o_simcomps d) (size (o_simcomps d))) (o_simweights d)) ->
  size u = size (active (o_model d)) -> s_a (o_sim d) = 0 -> s_b (o_sim d) = 0 ->
  exists2 d', clm_update align src false (jacobian_matrix N _ jac) w d (as_vector x) = (d', Ok tt) & o_target d' = o_target d + x.
Proof.
  move=> F N align src d0 d jac w u x W A B EJ M C O S1 S2 SY GL U Z1 Z2.
  have [d' E T] := c68_pose W A B EJ M C O S1 S2 SY GL U. exists d' => //.
  apply/matrixP => i j. have [T0 T1] := T i. rewrite addE. have [->|->] := ord2 j; rewrite ?T0 ?T1 Z1 Z2 addr0 !mul1r !mul0r ?subr0 ?add0r //.
Qed.
Print Assumptions c68_upright_partial.

(** A shape model of four points with one component, turned by half a turn. *)
Section HalfTurn.
Variable F : realFieldType.
Add Ring Fr : (@r_ring F).
Notation half := (2%:R^-1 : F).
Let m := LModel (mean4 F) [:: comp4 F] 1.
Let ortho (x : lmodel F 4) := (basis4 F, x).
Let d0 := (opdm_new (@lsq F 4) ortho m).1.
Lemma lsq_multiple (c : F) : lsq (mean4 F) (c *: mean4 F) = Sim (c - 1) 0 0 0.
Proof.
  have [X Y] := @centred4 F. have Z : (4%:R : F) != 0 by rewrite pnatr_eq0.
  have Ze i j : (c *: mean4 F) i j = c * mean4 F i j by rewrite mxE.
  have Sm (f : 'I_4 -> F) g : (forall i, f i = c * g i) -> \sum_i f i = c * \sum_i g i.
    by move=> E; rewrite mulr_sumr; apply: eq_bigr => i _; rewrite E.
  have E1 : \sum_i (mean4 F i 0 * (c *: mean4 F) i 0 + mean4 F i 1 * (c *: mean4 F) i 1) = c * 4%:R.
    rewrite -(norm4 F). apply: Sm => i. rewrite !Ze. mring F.
  have E2 : \sum_i (mean4 F i 0 * (c *: mean4 F) i 1 - mean4 F i 1 * (c *: mean4 F) i 0) = 0.
    by apply: big1 => i _; rewrite !Ze; mring F.
  have E3 : \sum_i (c *: mean4 F) i 0 = 0 by rewrite (Sm _ (fun i => mean4 F i 0)) ?X ?mulr0.
  have E4 : \sum_i (c *: mean4 F) i 1 = 0 by rewrite (Sm _ (fun i => mean4 F i 1)) ?Y ?mulr0.
  by rewrite /lsq E1 E2 E3 E4 (norm4 F) mulfK // !mul0r.
Qed.
Lemma d0E : exists q, size q = 4%N /\ d0 = Opdm m [:: 0] (mean4 F) (Sim 0 0 0 0) (basis4 F) q.
Proof.
  have L : lsq (mean4 F) (mean4 F) = Sim 0 0 0 0 by rewrite -[X in lsq _ X]scale1r lsq_multiple subrr.
  eexists. rewrite /d0 /opdm_new /opdm_construct [ortho _]/ortho. rewrite /opdm_generate instance_ok; last by [].
  rewrite /= L. split; last first.
    congr Opdm. apply/matrixP => i j.
    have -> : sim_apply (Sim 0 0 0 0) (linear_shape m [:: 0]) = linear_shape m [:: 0].
      apply/matrixP => i' j'. have := sim_applyP (Sim 0 0 0 0) (linear_shape m [:: 0]) i'. rewrite /= => -[E0 E1].
      have [->|->] := ord2 j'; rewrite ?E0 ?E1; mring F.
    by rewrite /linear_shape big_ord1 /= scale0r addr0.
  by [].
Qed.
Lemma ortho5 : orthonormal (basis4 F ++ [:: comp4 F]).
Proof.
  have O4 := @ortho4 F. have O1 := @ortho1 F. have O := @ortho14 F.
  have S4 : size (basis4 F) = 4%N by [].
  move=> i k. rewrite size_cat S4 => I K. rewrite !nth_cat S4.
  case: ltnP => Hi; case: ltnP => Hk.
  - by rewrite O4.
  - have -> : k = 4%N by apply/eqP; rewrite eqn_leq Hk andbT; exact: K.
    rewrite dotC O ?mem_nth ?inE //. by rewrite (ltn_eqF Hi).
  - have -> : i = 4%N by apply/eqP; rewrite eqn_leq Hi andbT; exact: I.
    rewrite O ?mem_nth ?inE //. by rewrite (gtn_eqF Hk).
  - have -> : k = 4%N by apply/eqP; rewrite eqn_leq Hk andbT; exact: K.
    have -> : i = 4%N by apply/eqP; rewrite eqn_leq Hi andbT; exact: I.
    by rewrite eqxx; exact: (O1 0%N 0%N).
Qed.
(** Finding: after half a turn the update moves the landmarks away from the displacements, by as much as they ask for. *)
Theorem c68_half_turn_refuted : exists align orthonormalize m v (d : opdm F 4) jac u,
  let d0 := (opdm_new align orthonormalize m).1 in
  exact_alignment align (m_mean m) /\ opdm_from_vector align (m_mean m) v d0 = (d, Ok tt) /\ opdm_d_dp d0 = Ok jac /\
  u <> 0 /\ exists x, x <> 0 /\ full_rank (jacobian_matrix 4 5 jac) /\ as_vector x = jacobian_matrix 4 5 jac *m u /\
  exists2 d', clm_update align (m_mean m) false (jacobian_matrix 4 5 jac) 0 d (as_vector x) = (d', Ok tt) &
    o_target d' = o_target d - x.
Proof.
  have [q [Sq E0]] := d0E.
  have Z : (4%:R : F) != 0 by rewrite pnatr_eq0.
  pose v : seq F := [:: - 4%:R; 0; 0; 0; 0].
  have Su : (opdm_from_vector (@lsq F 4) (mean4 F) v d0).2 = Ok tt by apply: opdm_from_succeeds; rewrite E0 /=.
  case E : (opdm_from_vector (@lsq F 4) (mean4 F) v d0) Su => [d r] /= Er. rewrite {}Er {r} in E.
  have [SY [GL [V [M C]]]] := opdm_from_ok E.
  have Eq : o_simweights d = [:: - 4%:R; 0; 0; 0] /\ o_weights d = [:: 0].
    move: E. rewrite /opdm_from_vector. case X : opdm_update_global => [d1 [[]|]] //.
    have [_ [Q1 _]] := opdm_update_ok X. move=> /opdm_regenerate_ok /= [_ [W1 [W2 _]]]. rewrite W2 Q1 W1 E0 /=.
    by rewrite Sq.
  case: Eq => S1 S2. rewrite E0 /= in M C.
  have G : o_sim d = Sim (- 2%:R) 0 0 0.
    have -> : o_sim d = lsq (mean4 F) (- 1 *: mean4 F).
      rewrite GL M C S1 /=. congr lsq. rewrite /linear_shape /=. apply/matrixP => i j.
      have [B0 B1] := basis_span (mean4 F) half half [:: - 4%:R; 0; 0; 0] i. rewrite /= in B0 B1.
      have H : - 4%:R * half = - 2%:R :> F by rewrite mulNr (natrM F 2 2) mulfK // pnatr_eq0.
      rewrite !mul0r subr0 addr0 H in B0. rewrite !mul0r add0r addr0 H in B1.
      rewrite addE [RHS]mxE. have K (z : F) : z + - 2%:R * z = - 1 * z by have -> : (2%:R : F) = 1 + 1 by []; mring F.
      have [->|->] := ord2 j; [exact: (etrans (congr1 (+%R (mean4 F i 0)) B0) (K _))|exact: (etrans (congr1 (+%R (mean4 F i 1)) B1) (K _))].
    by rewrite lsq_multiple -opprD.
  have [jac EJ Cols] := @opdm_columns F 4 d0 ltac:(by rewrite E0) ltac:(by rewrite E0).
  exists (@lsq F 4), ortho, m, v, d, jac. exists (\col_(k < 5) (k == 4%N :> nat)%:R) => /=.
  have SC : o_simcomps d0 ++ active (o_model d0) = basis4 F ++ [:: comp4 F] by rewrite E0.
  split; first exact: exact4. split=> //. split=> //. split.
    by move/matrixP/(_ (inord 4) 0); rewrite !mxE inordK // => /eqP; rewrite oner_eq0.
  exists (comp4 F).
  have Ncol (k : 'I_5) (r : 'I_(4 * 2)) : (jacobian_matrix 4 5 jac) r k = as_vector (nth 0 (basis4 F ++ [:: comp4 F]) k) r 0.
    by rewrite Cols SC // ltn_ord.
  have Gram := @jac_ortho F 4 5 jac (basis4 F ++ [:: comp4 F]) erefl ortho5 Ncol.
  split. { move=> H. have := @ortho1 F 0%N 0%N isT isT. rewrite /= H dotE big1; first by move/eqP; rewrite eq_sym oner_eq0.
           by move=> i _; rewrite !mxE !mulr0 addr0. }
  split; first by apply: unit_full; rewrite Gram unitmx1.
  split.
    have Ce k : (\col_(k < 5) ((k == 4%N :> nat)%:R : F)) k 0 = (k == 4%N :> nat)%:R by rewrite mxE.
    apply/matrixP => r c. rewrite ord1 [RHS]mxE (bigD1 (inord 4)) //= big1 ?addr0.
      by rewrite Ncol Ce inordK //= mulr1.
    move=> k kn. rewrite Ce. case: eqP => [Ek|_]; last by rewrite mulr0.
    by case/eqP: kn; apply: val_inj; rewrite /= inordK.
  have Sz : (size (o_simcomps d) + size (active (o_model d)) = 5)%N by rewrite C M.
  have X : comp4 F = \sum_(k < size (active (o_model d))) nth 0 [:: 1] k *: nth 0 (active (o_model d)) k.
    by rewrite M /= big_ord1 /= scale1r.
  have [d' U [T _]] := @pose_update F 4 (@lsq F 4) (mean4 F) d0 d jac 0 ltac:(by move=> i; rewrite mxE) ltac:(by rewrite E0) ltac:(by rewrite E0) EJ
    ltac:(by rewrite E0 M) ltac:(by rewrite E0 C) ltac:(by rewrite C M; exact: ortho5) ltac:(by rewrite S1 C) ltac:(by rewrite S2 M) SY GL [:: 1] ltac:(by rewrite M).
  rewrite -X in U T. exists d'; first by rewrite -Sz.
  rewrite T. congr (_ + _). apply/matrixP => i j. have [L0 L1] := lin_partE (o_sim d) (comp4 F) i. rewrite G /= in L0 L1.
  have K (z : F) : (1 - 2%:R) * z = - z by have -> : (2%:R : F) = 1 + 1 by []; mring F.
  rewrite G [RHS]mxE. have [->|->] := ord2 j; rewrite ?L0 ?L1 K mul0r ?subr0 ?add0r //.
Qed.
End HalfTurn.
Print Assumptions c68_half_turn_refuted.

(** A Jacobian of full rank meets the hypotheses of the first theorems: the identity, with unit variances. *)
Example c68_example : forall F : realFieldType, full_rank (1%:M : 'M[F]_(4 + 1)) /\ (0 <= (1 : F)) /\
  (forall i, 0 < (const_mx 1 : 'cV[F]_1) i 0).
Proof.
  move=> F. split; first by move=> x; rewrite mul1mx. split; first exact: ler01. by move=> i; rewrite mxE ltr01.
Qed.

(** ** C69 *)
(** Alternating: with or without prior, the increment is the only minimum of the weighted objective. *)
Theorem c69_alternating : forall (F : realFieldType) n s P (a i_s i_r : F) (j : 'M[F]_(n, P)) (jc : 'M[F]_(s, P)) (w p : 'cV[F]_P) e ec,
  0 <= a -> a <= 1 -> 0 <= i_s -> 0 <= i_r -> full_rank (stack a i_s i_r j jc) ->
  exists2 dp, alt_step false a j jc i_s i_r w p e ec = Ok dp & unique_minimum (unified a i_s i_r j jc e ec) dp.
Proof. move=> F n s P a i_s i_r j jc w p e ec A0 A1 S0 R0. exact: alt_ml_ok. Qed.
Print Assumptions c69_alternating.
Theorem c69_alternating_prior : forall (F : realFieldType) n s k (a i_s i_r : F) (j : 'M[F]_(n, 4 + k)) (jc : 'M[F]_(s, 4 + k))
    (ev : 'cV[F]_k) p e ec,
  0 <= a -> a <= 1 -> 0 <= i_s -> 0 <= i_r -> (forall i, 0 < ev i 0) -> full_rank (stack a i_s i_r j jc) ->
  exists2 dp, alt_step true a j jc i_s i_r (shape_prior 1 ev) p e ec = Ok dp &
    unique_minimum (fun dp => unified a i_s i_r j jc e ec dp + shape_penalty 1 ev (p + dp)) dp.
Proof.
  move=> F n s k a i_s i_r j jc ev p e ec A0 A1 S0 R0 E R.
  have [dp -> [M1 M2]] := alt_map_ok A0 A1 S0 R0 p e ec (prior_ge0 ler01 E) R. exists dp => //.
  by split=> y; rewrite !penaltyE; [exact: M1|exact: M2].
Qed.
Print Assumptions c69_alternating_prior.
(** At the ends of the range the other term does not matter. *)
Theorem c69_alternating_ends : forall (F : realFieldType) n s P (i_s i_r : F) (j : 'M[F]_(n, P)) (jc : 'M[F]_(s, P)) prior (w p : 'cV[F]_P) e ec e' ec',
  alt_step prior 1 j jc i_s i_r w p e ec = alt_step prior 1 j jc i_s i_r w p e ec' /\
  alt_step prior 0 j jc i_s i_r w p e ec = alt_step prior 0 j jc i_s i_r w p e' ec.
Proof. move=> F n s P i_s i_r j jc prior w p e ec e' ec'. by rewrite /alt_step subrr subr0 !scale0r !subr0. Qed.
Print Assumptions c69_alternating_ends.
(** Project-out without prior: the increment minimises the sum of both terms over all appearances, whatever the weight.
    Missing: the weight, see the next theorem. *)
Theorem c69_project_out_partial : forall (F : realFieldType) n m s P (i_s i_r : F) (U : 'M[F]_(n, m)) (PU : 'M[F]_(m, n))
    (j : 'M[F]_(n, P)) (jc : 'M[F]_(s, P)) a (w p : 'cV[F]_P) (e : 'cV[F]_n) (ec : 'cV[F]_s),
  penrose U PU -> 0 <= i_s -> 0 < i_r -> full_rank jc -> (forall i, 0 <= w i 0) ->
  exists2 dp, po_step false a U PU j jc i_s i_r w p e ec = Ok dp &
    profile_minimum (fun c dp => i_s * sqn (e - j *m dp - U *m c) + i_r * sqn (ec - jc *m dp)) dp.
Proof. move=> F n m s P i_s i_r U PU j jc a w p e ec PE S0 R0 R W. exact: po_ml_ok. Qed.
Print Assumptions c69_project_out_partial.

(** The smallest case: as many landmarks coordinates and pixels as parameters, no appearance component. *)
Lemma po_one (F : realFieldType) prior a (p e ec : 'cV[F]_5) :
  po_step prior a (0 : 'M[F]_(5, 0)) 0 1%:M 1%:M 1 1 0 p e ec =
  Ok (2%:R^-1 *: (if prior then a *: e + (1 - a) *: ec else e + ec)).
Proof.
  have J : project_out (0 : 'M[F]_(5, 0)) 0 1%:M = 1%:M by rewrite /project_out mul0mx subr0.
  have H : (1%:M : 'M[F]_5) + 1%:M = 2%:R%:M by apply/matrixP => i k; rewrite !mxE -mulrnDl.
  have U : (2%:R%:M : 'M[F]_5) \in unitmx by rewrite unitmxE det_scalar unitrX // unitfE pnatr_eq0.
  have I : invmx (2%:R%:M : 'M[F]_5) = 2%:R^-1%:M by rewrite invmx_scalar.
  have D : diag_mx (0 : 'cV[F]_5)^T = 0 by rewrite trmx0; apply/matrixP => i k; rewrite !mxE mul0rn.
  rewrite /po_step /po_precompute J !scale1r trmx1 mulmx1 H /np_solve U /= /np_inv D addr0 U /= I.
  case: prior => /=; congr Ok.
  - have -> : (\col_i ((0 : 'cV[F]_5) i 0 * p i 0)) = 0 by apply/matrixP => i k; rewrite !mxE mul0r.
    rewrite ?scale1r ?trmx1 !mul1mx sub0r mul_scalar_mx -opprD scalerN opprK //.
  - by rewrite ?scale1r ?trmx1 ?mulmx1 !mul_scalar_mx scalerDr.
Qed.
(** Finding: without prior the weight is ignored: with all the weight on the appearance, which is satisfied already, the
    landmark error still moves the parameters. *)
Theorem c69_weight_ignored_refuted : forall F : realFieldType, exists (e ec : 'cV[F]_5) dp, e = 0 /\
  (forall a, po_step false a (0 : 'M[F]_(5, 0)) 0 1%:M 1%:M 1 1 0 0 e ec = Ok dp) /\ dp <> 0 /\
  unified 1 1 1 1%:M (1%:M : 'M[F]_5) e ec 0 < unified 1 1 1 1%:M (1%:M : 'M[F]_5) e ec dp.
Proof.
  move=> F. exists 0, (const_mx 1), (2%:R^-1 *: const_mx 1). split=> //. split; first by move=> a; rewrite po_one add0r.
  have N : 2%:R^-1 *: const_mx 1 <> 0 :> 'cV[F]_5.
    move=> /matrixP /(_ 0 0). rewrite !mxE mulr1 => /eqP. by rewrite invr_eq0 pnatr_eq0.
  split=> //. rewrite /unified subrr !mul0r !addr0 !mul1r !mul1mx subr0 sub0r -[X in _ < X]quad1 quadN quad1.
  have Z : sqn (0 : 'cV[F]_5) = 0 by rewrite /sqn big1 // => i _; rewrite mxE expr0n.
  rewrite Z lt_neqAle sqn_ge0 andbT eq_sym. by apply/eqP => /sqn_eq0.
Qed.
Print Assumptions c69_weight_ignored_refuted.
(** Finding: with the prior the weight enters the gradient but not the Hessian: where both terms ask for the same parameters
    and no prior opposes, the update covers only half of the way. *)
Theorem c69_half_step_refuted : forall F : realFieldType, exists e : 'cV[F]_5, e <> 0 /\ forall a,
  po_step true a (0 : 'M[F]_(5, 0)) 0 1%:M 1%:M 1 1 0 0 e e = Ok (2%:R^-1 *: e) /\
  unique_minimum (unified a 1 1 1%:M (1%:M : 'M[F]_5) e e) e.
Proof.
  move=> F. exists (const_mx 1). split; first by move=> /matrixP /(_ 0 0); rewrite !mxE => /eqP; rewrite oner_eq0.
  move=> a. split; first by rewrite po_one -scalerDl addrC subrK scale1r.
  have E y : unified a 1 1 1%:M (1%:M : 'M[F]_5) (const_mx 1) (const_mx 1) y = sqn (const_mx 1 - y).
    by rewrite /unified !mul1r !mul1mx -mulrDl addrC subrK mul1r.
  have Z : sqn (0 : 'cV[F]_5) = 0 by rewrite /sqn big1 // => i _; rewrite mxE expr0n.
  split=> y; rewrite !E subrr Z; first exact: sqn_ge0.
  move=> L. have /sqn_eq0 /eqP : sqn (const_mx 1 - y) = 0 by apply/eqP; rewrite eq_le L sqn_ge0.
  by rewrite subr_eq0 => /eqP.
Qed.
Print Assumptions c69_half_step_refuted.
(** The reported cost weights the appearance term but not the landmark term: it is the weighted cost exactly when one of
    the two does not matter. *)
Theorem c69_cost : forall (F : realFieldType) n s (x : 'cV[F]_n) (y : 'cV[F]_s) a,
  unified_cost x y a = a * sqn x + (1 - a) * sqn y <-> a = 0 \/ y = 0.
Proof.
  move=> F n s x y a. rewrite /unified_cost -!sqnE mulrDl mul1r mulNr addrA. split.
  - move/eqP. rewrite -subr_eq0 subKr mulf_eq0 => /orP [/eqP|/eqP /sqn_eq0]; by [left|right].
  - move=> [->|->]; first by rewrite !mul0r subr0. have -> : sqn (0 : 'cV[F]_s) = 0 by rewrite /sqn big1 // => i _; rewrite mxE expr0n.
    by rewrite !mulr0 subr0.
Qed.
Print Assumptions c69_cost.
(** The weighted objective of the example with half of the weight on each side has full rank. *)
Example c69_example : forall F : realFieldType, let a := 2%:R^-1 : F in
  0 <= a <= 1 /\ full_rank (stack a 1 1 (1%:M : 'M[F]_(4 + 1)) (1%:M : 'M[F]_(4 + 1))) /\ penrose (0 : 'M[F]_(5, 0)) 0.
Proof.
  move=> F a. have A : a != 0 by rewrite invr_eq0 pnatr_eq0. split.
    by rewrite invr_ge0 ler0n invf_le1 ?ltr0n // ler1n.
  split.
  - move=> x. rewrite /stack mul_col_mx mulr1 -!scalemxAl mul1mx -col_mx0 => /eq_col_mx [/eqP]. rewrite scaler_eq0 (negbTE A) /= => /eqP //.
  - by split; rewrite ?mul0mx ?mulmx0 ?trmx0 //; apply/matrixP => -[].
Qed.

(** ** C70 *)
(** Both algorithms jump to the only minimum of the objective: the appearance error under the appearance precision plus the
    deformation under the deformation precision, measured from the current pose when Procrustes analysis was used. *)
Theorem c70_minimum : forall (F : realFieldType) n s P (Qa : 'M[F]_n) (Qd : 'M[F]_s) w (J : 'M[F]_(n, P)) (S : 'M[F]_(s, P)) up e p,
  psd Qa -> psd Qd -> 0 <= w -> (forall h, quad Qa (J *m h) + w * quad Qd (S *m h) = 0 -> h = 0) ->
  exists q, aps_forward up J Qa (H_s S Qd w) e p = Ok q /\ aps_inverse up J Qa (H_s S Qd w) e p = Ok q /\
    unique_minimum (aps Qa Qd w J S e p (if up then pose_part p else 0)) q.
Proof.
  move=> F n s P Qa Qd w J S up e p A D W N. have [q E M] := aps_forward_ok A D W N up e p. exists q.
  by rewrite (aps_inverse_ok A N).
Qed.
Print Assumptions c70_minimum.
(** The precision of the sampled pixels is the one of the model at these pixels, and stays positive semi-definite. *)
Theorem c70_masked : forall (F : realFieldType) n m (Q : 'M[F]_n) (mask : 'I_m -> 'I_n), psd Q ->
  psd (masked_precision Q mask) /\ forall i k, masked_precision Q mask i k = Q (mask i) (mask k).
Proof. move=> F n m Q mask; exact: masked_ok. Qed.
Print Assumptions c70_masked.
(** The flattened Jacobian follows the order of coordinates of a flattened shape: for a linear model, multiplying it by the
    parameters displaces the flattened shape as the model does. *)
Theorem c70_order : forall (F : realFieldType) N (cs : seq 'M[F]_(N, 2)) w,
  @ds_dp_vectorized F N (size cs) (reshape_comps cs) *m (\col_k nth 0 w k) = as_vector (\sum_(k < size cs) nth 0 w k *: nth 0 cs k).
Proof. move=> F N cs w. by rewrite vectorized_same comps_matrix. Qed.
Print Assumptions c70_order.
(** The costs: all pixels, and shapes that the model generates.  Missing: a sampled appearance, see the next theorem. *)
Theorem c70_costs_partial : forall (F : realFieldType) n s P (Qa : 'M[F]_n) (x : 'cV[F]_n) (Qd : 'M[F]_s) (mean : 'cV[F]_s) w (S : 'M[F]_(s, P)) p,
  aps_appearance_cost Qa x = Ok (quad Qa x) /\
  aps_deformation_cost Qd mean w (mean + S *m p) = w * quad Qd (S *m p).
Proof.
  move=> F n s P Qa x Qd mean w S p. split; first exact: appearance_cost_full.
  by rewrite deformation_costE /H_s quadZ quadM.
Qed.
Print Assumptions c70_costs_partial.
(** Finding: with a sampling mask that leaves out a pixel, asking for costs raises. *)
Theorem c70_masked_cost_refuted : forall (F : realFieldType) n m (Q : 'M[F]_n) (x : 'cV[F]_m), (m < n)%N ->
  aps_appearance_cost Q x = Err ValueError.
Proof. move=> F n m Q x H. apply: appearance_cost_masked => E. by rewrite E ltnn in H. Qed.
Print Assumptions c70_masked_cost_refuted.
(** Finding: the deformation part of the objective is measured from the current pose, the reported deformation cost from the
    mean: moving only the pose changes it. *)
Theorem c70_pose_cost_refuted : forall F : realFieldType, exists (Qd : 'M[F]_4) (S : 'M[F]_(4, 4)) mean p,
  psd Qd /\ p = pose_part p /\ quad Qd (S *m (p - pose_part p)) = 0 /\
  aps_deformation_cost Qd mean 1 mean = 0 /\ 0 < aps_deformation_cost Qd mean 1 (mean + S *m p).
Proof.
  move=> F. exists 1%:M, 1%:M, 0, (const_mx 1). have Z : sqn (0 : 'cV[F]_4) = 0 by rewrite /sqn big1 // => i _; rewrite mxE expr0n.
  have E : const_mx 1 = pose_part (const_mx 1 : 'cV[F]_4) by apply/matrixP => i k; rewrite !mxE ltn_ord.
  split; first by split=> [|v]; rewrite ?trmx1 // quad1; exact: sqn_ge0.
  split=> //. split; first by rewrite -E subrr mulmx0 quad1.
  have D x : aps_deformation_cost 1%:M 0 1 x = sqn x by rewrite /aps_deformation_cost subr0 mulr1 -[LHS]/(quad 1%:M x) quad1.
  rewrite !D add0r mul1mx Z. split=> //. rewrite lt_neqAle sqn_ge0 andbT eq_sym. apply/eqP => /sqn_eq0 /matrixP /(_ 0 0).
  by rewrite !mxE => /eqP; rewrite oner_eq0.
Qed.
Print Assumptions c70_pose_cost_refuted.
Example c70_example : forall F : realFieldType, psd (1%:M : 'M[F]_4) /\
  (forall h : 'cV[F]_4, quad 1%:M (1%:M *m h) + 1 * quad (1%:M : 'M[F]_4) (1%:M *m h) = 0 -> h = 0).
Proof.
  move=> F. split; first by split=> [|v]; rewrite ?trmx1 // quad1; exact: sqn_ge0.
  move=> h. rewrite mul1mx mul1r !quad1 => /eqP. rewrite paddr_eq0 ?sqn_ge0 // => /andP [/eqP /sqn_eq0 //].
Qed.
