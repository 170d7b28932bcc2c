(** One update of a constrained local model on an OrthoPDM in any pose. *)
From Verif.Model Require Import Py Einsum ModelInstance Jacobian LinAlg Updates.
From Verif.Spec Require Import ModelInstance LinAlg Updates.
From Verif.Proofs Require Import LinAlg MRing ModelInstance Projection Jacobian Updates.
From mathcomp Require Import all_ssreflect all_algebra.
Set Implicit Arguments.
Unset Strict Implicit.
Unset Printing Implicit Defensive.
Import Order.TTheory GRing.Theory Num.Theory.
Local Open Scope ring_scope.

Section P.
Variable F : realFieldType.
Add Ring Fr : (@r_ring F).
Lemma sum_flat n (f : nat -> nat -> F) : \sum_(r < n * 2) f (r %/ 2)%N (r %% 2)%N = \sum_(i < n) (f i 0%N + f i 1%N).
Proof.
  elim: n f => [|n IH] f; first by rewrite !big_ord0.
  rewrite mulSn !big_ord_recl addrA. congr (_ + _).
  rewrite (eq_bigr (fun r : 'I_(n * 2) => f (r %/ 2).+1 (r %% 2))%N); last first.
    move=> r _. rewrite /= /bump /= !add1n. have -> : r.+2 = (1 * 2 + r)%N by []. by rewrite divnMDl // modnMDl.
  exact: (IH (fun i => f i.+1)).
Qed.
Section Shapes.
Variable N : nat.
Notation shape := 'M[F]_(N, 2).
Lemma vector_dot (x y : shape) : ((as_vector x)^T *m as_vector y) 0 0 = dot x y.
Proof.
  rewrite mxE dotE (eq_bigr (fun r : 'I_(N * 2) => at_ x (r %/ 2)%N (r %% 2)%N * at_ y (r %/ 2)%N (r %% 2)%N)).
    rewrite (sum_flat N (fun i c => at_ x i c * at_ y i c)). apply: eq_bigr => i _.
    have E0 (s : shape) : at_ s i 0%N = s i 0 by exact: (at_E s i 0).
    have E1 (s : shape) : at_ s i 1%N = s i 1 by exact: (at_E s i 1).
    by rewrite !E0 !E1.
  by move=> r _; rewrite !mxE.
Qed.
Lemma as_vectorD (x y : shape) : as_vector (x + y) = as_vector x + as_vector y.
Proof.
  apply/matrixP => r c. rewrite [RHS]mxE ![(as_vector _) _ _]mxE /at_.
  case: (insub (r %/ 2)%N) => [i|]; last by rewrite addr0. case: (insub (r %% 2)%N) => [k|]; last by rewrite addr0. by rewrite mxE.
Qed.
Lemma as_vectorZ a (x : shape) : as_vector (a *: x) = a *: as_vector x.
Proof.
  apply/matrixP => r c. rewrite [RHS]mxE ![(as_vector _) _ _]mxE /at_.
  case: (insub (r %/ 2)%N) => [i|]; last by rewrite mulr0. case: (insub (r %% 2)%N) => [k|]; last by rewrite mulr0. by rewrite mxE.
Qed.
(** The two ways of flattening d_dp agree. *)
Lemma vectorized_same P (t : tensor F) : @ds_dp_vectorized F N P t = @jacobian_matrix F N P t.
Proof. by apply/matrixP => r k; rewrite !mxE. Qed.
End Shapes.
Variable N : nat.
Notation shape := 'M[F]_(N, 2).
(** For a plain model the columns are the components. *)
Lemma comps_matrix (cs : seq shape) (w : seq F) :
  (@jacobian_matrix F N (size cs) (reshape_comps cs)) *m (\col_k nth 0 w k) = as_vector (\sum_(k < size cs) nth 0 w k *: nth 0 cs k).
Proof.
  have -> : as_vector (\sum_(k < size cs) nth 0 w k *: nth 0 cs k) = \sum_(k < size cs) nth 0 w k *: as_vector (nth 0 cs k).
    have Z : as_vector (0 : shape) = 0 by rewrite -(scale0r (0 : shape)) as_vectorZ scale0r.
    by rewrite (big_morph (@as_vector F N) (@as_vectorD N) Z); apply: eq_bigr => k _; rewrite as_vectorZ.
  apply/matrixP => r c. rewrite [LHS]mxE summxE. apply: eq_bigr => k _. rewrite [RHS]mxE ![_ r _]mxE [(\col__ _) _ _]mxE mulrC.
  by [].
Qed.

(** The Jacobian of an OrthoPDM whose global transform neither rotates nor scales: the components, one per column. *)
Lemma opdm_columns (d : opdm F N) : s_a (o_sim d) = 0 -> s_b (o_sim d) = 0 ->
  exists2 jac, opdm_d_dp d = Ok jac & forall P (k : 'I_P), (k < size (o_simcomps d ++ active (o_model d)))%N ->
    forall r : 'I_(N * 2), (@jacobian_matrix F N P jac) r k = as_vector (nth 0 (o_simcomps d ++ active (o_model d)) k) r 0.
Proof.
  move=> A B. have S : t_shape (reshape_comps (o_simcomps d)) = [:: N; size (o_simcomps d); 2%N] by [].
  have [jac E [_ [L R]]] := global_d_dp_ok (o_model d) (o_sim d) S. exists jac => // P k K r.
  rewrite !mxE nth_cat. case: ltnP => H; first by rewrite L.
  have I : (r %/ 2 < N)%N by rewrite ltn_divLR.
  have C : (r %% 2 < 2)%N by rewrite ltn_mod.
  have K' : (k - size (o_simcomps d) < size (active (o_model d)))%N by rewrite ltn_subLR // -size_cat.
  have := R (Ordinal I) (k - size (o_simcomps d))%N (Ordinal C) K'. rewrite subnKC // => ->.
  rewrite A B addr0 subr0 addr0 if_same mul1r. by rewrite -at_E.
Qed.
Lemma jac_gram P (jac : tensor F) (cs : seq shape) : P = size cs ->
  (forall (k : 'I_P) (r : 'I_(N * 2)), (@jacobian_matrix F N P jac) r k = as_vector (nth 0 cs k) r 0) ->
  forall x : shape, (@jacobian_matrix F N P jac)^T *m as_vector x = \col_k dot x (nth 0 cs k).
Proof.
  move=> _ E x. apply/matrixP => k c. rewrite [RHS]mxE dotC -vector_dot ord1 [LHS]mxE [RHS]mxE. apply: eq_bigr => r _.
  congr (_ * _). by rewrite [LHS]mxE E [RHS]mxE.
Qed.
Lemma jac_ortho P (jac : tensor F) (cs : seq shape) : P = size cs -> orthonormal cs ->
  (forall (k : 'I_P) (r : 'I_(N * 2)), (@jacobian_matrix F N P jac) r k = as_vector (nth 0 cs k) r 0) ->
  (@jacobian_matrix F N P jac)^T *m jacobian_matrix N P jac = 1%:M.
Proof.
  move=> S O E. apply/matrixP => k l. have H (k' : 'I_P) : (k' < size cs)%N by rewrite -S.
  have -> : ((jacobian_matrix N P jac)^T *m jacobian_matrix N P jac) k l = ((jacobian_matrix N P jac)^T *m as_vector (nth 0 cs l)) k 0.
    by rewrite ![LHS]mxE [RHS]mxE; apply: eq_bigr => r _; rewrite E.
  by rewrite (jac_gram S E) mxE [RHS]mxE O // eq_sym.
Qed.

Section Pose.
Variable align : shape -> shape -> sim F.
Variables (src : shape) (d0 d : opdm F N) (jac : tensor F).
Notation P := (size (o_simcomps d) + size (active (o_model d)))%N.
Variable w : 'cV[F]_P.
Hypothesis (W : forall i, 0 <= w i 0).
(** The Jacobian was computed in the pose of the mean. *)
Hypothesis (A0 : s_a (o_sim d0) = 0) (B0 : s_b (o_sim d0) = 0) (EJ : opdm_d_dp d0 = Ok jac).
Hypothesis (M : o_model d = o_model d0) (C : o_simcomps d = o_simcomps d0).
Hypothesis O : orthonormal (o_simcomps d ++ active (o_model d)).
Hypothesis (SW : size (o_simweights d) = size (o_simcomps d)) (WW : size (o_weights d) = size (active (o_model d))).
Hypothesis (SY : opdm_synced d) (GL : opdm_global align src d).
Variable u : seq F.
Hypothesis U : size u = size (active (o_model d)).
Let x : shape := \sum_(k < size (active (o_model d))) nth 0 u k *: nth 0 (active (o_model d)) k.
Let cs := o_simcomps d ++ active (o_model d).
Let v : seq F := nseq (size (o_simcomps d)) 0 ++ u.
Lemma x_coeff k : (k < size cs)%N -> dot x (nth 0 cs k) = nth 0 v k.
Proof.
  move=> K. have -> : x = \sum_(k < size cs) nth 0 v k *: nth 0 cs k; last exact: span_coeff.
  rewrite -!combinationE /cs /v. by rewrite /combination zip_cat ?size_nseq // big_cat /= -![\sum_(i <- zip _ _) _]/(combination _ _) combinationE big1 ?add0r ?combinationE // => i _; rewrite nth_nseq if_same scale0r.
Qed.
Lemma pose_step (p : 'cV[F]_P) : clm_step false (jacobian_matrix N P jac) w p (as_vector x) = Ok (\col_k nth 0 v k).
Proof.
  have [jac' E' Cols] := opdm_columns A0 B0. have Ej : jac' = jac by move: E'; rewrite EJ => -[]. rewrite {}Ej {E'} in Cols.
  have S : P = size cs by rewrite size_cat.
  have E (k : 'I_P) (r : 'I_(N * 2)) : (jacobian_matrix N P jac) r k = as_vector (nth 0 cs k) r 0.
    have := Cols P k _ r. by rewrite -M -C -/cs => -> //; rewrite -S ltn_ord.
  have G := jac_ortho S O E.
  rewrite /clm_step clm_pre_ok //=; last by apply: unit_full; rewrite G unitmx1.
  rewrite G invmx1 mul1mx (jac_gram S E). congr Ok. apply/matrixP => k c. rewrite !mxE x_coeff // -S. exact: ltn_ord.
Qed.
Lemma pose_update : exists2 d', clm_update align src false (jacobian_matrix N P jac) w d (as_vector x) = (d', Ok tt) &
  o_target d' = o_target d + lin_part (o_sim d) x /\ o_model d' = o_model d /\ o_simcomps d' = o_simcomps d /\ o_sim d' = o_sim d.
Proof.
  rewrite /clm_update pose_step.
  set q := map _ _. have Sp : size (opdm_vector d) = P by rewrite size_cat SW WW.
  have Sq : size q = P by rewrite size_map size_iota Sp.
  have Eq : q = o_simweights d ++ [seq nth 0 (o_weights d) k + nth 0 u k | k <- iota 0 (size u)].
    apply: (@eq_from_nth _ 0); first by rewrite Sq size_cat size_map size_iota SW U.
    move=> k. rewrite Sq => K. rewrite (nth_map 0%N) ?size_iota ?Sp // nth_iota ?Sp // add0n insubT [(\col_k0 _) _ _]mxE /=.
    rewrite /v !nth_cat SW size_nseq nth_nseq. case: ltnP => H; first by rewrite addr0.
    have K' : (k - size (o_simcomps d) < size u)%N by rewrite U ltn_subLR.
    by rewrite (nth_map 0%N) ?size_iota // nth_iota.
  have Su : (opdm_from_vector align src q d).2 = Ok tt by apply: opdm_from_succeeds.
  case E : (opdm_from_vector align src q d) Su => [d' r] /= Er. rewrite Er in E. exists d'; first by rewrite Er.
  have [S' [G' [V' [M' C']]]] := opdm_from_ok E.
  have Ss : size (o_simweights d') = size (o_simweights d).
    move: E. rewrite /opdm_from_vector. case X : opdm_update_global => [d1 [[]|]] //.
    have [_ [Q1 _]] := opdm_update_ok X. move=> /opdm_regenerate_ok /= [_ [_ [-> _]]]. rewrite Q1 size_take Sq SW.
    by case: ltnP => // L; apply/eqP; rewrite eqn_leq L leq_addr.
  have Es : o_simweights d' = o_simweights d.
    have := congr1 (take (size (o_simweights d))) V'. by rewrite /opdm_vector -{1}Ss take_size_cat // Eq take_size_cat.
  have Ew : o_weights d' = [seq nth 0 (o_weights d) k + nth 0 u k | k <- iota 0 (size u)].
    have := congr1 (drop (size (o_simweights d))) V'. by rewrite /opdm_vector -{1}Ss drop_size_cat // Eq drop_size_cat.
  have Eg : o_sim d' = o_sim d by move: G' GL; rewrite /opdm_global => -> ->; rewrite M' C' Es.
  split=> //. move: S'; rewrite /opdm_synced => /similarP ->. move: (SY); rewrite /opdm_synced => /similarP ->.
  rewrite Eg M' Ew -sim_apply_add. congr sim_apply. rewrite /linear_shape -addrA. congr (_ + _). rewrite /x -big_split /=.
  apply: eq_bigr => k _. by rewrite (nth_map 0%N) ?size_iota ?U // nth_iota ?U // add0n scalerDl.
Qed.
End Pose.
End P.
