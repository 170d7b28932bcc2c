(** Renumbering the landmarks. *)
From Verif.Model Require Import Py Einsum LinAlg ModelInstance Jacobian Updates ClmFitter SdmVectors SimilarityModel.
From Verif.Spec Require Import ModelInstance Renumber.
From Verif.Proofs Require Import MRing LinAlg ModelInstance Jacobian Updates.
From Coq Require List.
From mathcomp Require Import all_ssreflect all_fingroup all_algebra.
Set Implicit Arguments.
Unset Strict Implicit.
Unset Printing Implicit Defensive.
Import Order.TTheory GRing.Theory Num.Theory.
Local Open Scope ring_scope.

Section Shapes.
Variable F : realFieldType.
Variable N : nat.
Notation shape := 'M[F]_(N, 2).
Notation opdm := (opdm F N).
Variable p : 'S_N.
Notation R := (@renumbered F N p).
Notation RM := (renumbered_model p).
Notation RD := (renumbered_pdm p).

Lemma RD_ (s t : shape) : R (s + t) = R s + R t. Proof. by apply/matrixP => i j; rewrite !mxE. Qed.
Lemma RN_ (s : shape) : R (- s) = - R s. Proof. by apply/matrixP => i j; rewrite !mxE. Qed.
Lemma RB_ (s t : shape) : R (s - t) = R s - R t. Proof. by rewrite RD_ RN_. Qed.
Lemma RZ_ a (s : shape) : R (a *: s) = a *: R s. Proof. by apply/matrixP => i j; rewrite !mxE. Qed.
Lemma R0_ : R 0 = 0. Proof. by apply/matrixP => i j; rewrite !mxE. Qed.
Lemma R_inj : injective R.
Proof. move=> s t /matrixP E. apply/matrixP => i j. by have := E (perm_inv p i) j; rewrite !mxE permKV. Qed.
Lemma R_nth k (cs : seq shape) : nth 0 [seq R c | c <- cs] k = R (nth 0 cs k).
Proof. case: (ltnP k (size cs)) => K; first by rewrite (nth_map 0). by rewrite !nth_default ?size_map // R0_. Qed.
Lemma dot_R (s t : shape) : dot (R s) (R t) = dot s t.
Proof.
  rewrite /dot [RHS](reindex_inj (@perm_inj _ p)) /=. apply: eq_bigr => i _. apply: eq_bigr => j _. by rewrite !mxE.
Qed.
Lemma combination_R w (cs : seq shape) : combination w [seq R c | c <- cs] = R (combination w cs).
Proof.
  rewrite !combinationE size_map. rewrite (big_morph R RD_ R0_). apply: eq_bigr => i _. by rewrite R_nth RZ_.
Qed.
Lemma active_R (m : lmodel F N) : active (RM m) = [seq R c | c <- active m].
Proof. by rewrite /active /= map_take. Qed.
Lemma instance_R (m : lmodel F N) w : instance (RM m) w = map_res R (instance m w).
Proof. rewrite /instance active_R size_map. case: ifP => //= _. by rewrite combination_R RD_. Qed.
Lemma project_R (m : lmodel F N) s : project (RM m) (R s) = project m s.
Proof. rewrite /project active_R -map_comp. apply: eq_map => c /=. by rewrite -RB_ dot_R. Qed.
Lemma sim_apply_R g (s : shape) : sim_apply g (R s) = R (sim_apply g s).
Proof. apply/matrixP => i j. rewrite !mxE. congr (_ + _). apply: eq_bigr => k _. by rewrite !mxE. Qed.
Lemma sim_pinv_R g (s : shape) : sim_pinv_apply g (R s) = map_res R (sim_pinv_apply g s).
Proof. rewrite /sim_pinv_apply. case: ifP => //= _. congr Ok. apply/matrixP => i j. rewrite !mxE. apply: eq_bigr => k _. by rewrite !mxE. Qed.

(** ** Shape models *)
Variable align : shape -> shape -> sim F.
Hypothesis IG : ignores_numbering align.
Definition RO (x : opdm * res unit) : opdm * res unit := (RD x.1, x.2).

Lemma similarity_R (d : opdm) : o_similarity (RD d) = RM (o_similarity d).
Proof. by rewrite /o_similarity /RD /RM /= size_map. Qed.
Lemma regenerate_R (d : opdm) : opdm_regenerate (RD d) = RO (opdm_regenerate d).
Proof.
  rewrite /opdm_regenerate /opdm_generate [o_model (RD d)]/= [o_weights (RD d)]/= instance_R. case: instance => [s|e] //=.
  by rewrite sim_apply_R.
Qed.
Lemma update_global_R s q (d : opdm) : opdm_update_global align (R s) q (RD d) = RO (opdm_update_global align s q d).
Proof.
  rewrite /opdm_update_global.
  have -> : o_similarity (Opdm (o_model (RD d)) (o_weights (RD d)) (o_target (RD d)) (o_sim (RD d)) (o_simcomps (RD d)) q) = RM (o_similarity d)
    by rewrite /o_similarity /= size_map.
  have -> : o_similarity (Opdm (o_model d) (o_weights d) (o_target d) (o_sim d) (o_simcomps d) q) = o_similarity d by [].
  rewrite instance_R. case: instance => [t|e] //=. by rewrite IG.
Qed.
Lemma sync_R s (d : opdm) : opdm_sync_state align (R s) (RD d) = RO (opdm_sync_state align s d).
Proof.
  rewrite /opdm_sync_state similarity_R [o_target (RD d)]/= project_R update_global_R. case: opdm_update_global => [d1 [u|e]] //=.
  rewrite sim_pinv_R. case: sim_pinv_apply => [t|e] //=. rewrite project_R. exact: (regenerate_R (Opdm _ _ _ _ _ _)).
Qed.
Lemma set_target_R s t (d : opdm) : opdm_set_target align (R s) (R t) (RD d) = RO (opdm_set_target align s t d).
Proof. exact: (sync_R s (Opdm _ _ _ _ _ _)). Qed.
Lemma from_vector_R s v (d : opdm) : opdm_from_vector align (R s) v (RD d) = RO (opdm_from_vector align s v d).
Proof.
  rewrite /opdm_from_vector [o_simweights (RD d)]/= update_global_R. case: opdm_update_global => [d1 [u|e]] //=.
  exact: (regenerate_R (Opdm _ _ _ _ _ _)).
Qed.
Lemma set_active_R s k (d : opdm) : opdm_set_active align (R s) k (RD d) = RO (opdm_set_active align s k d).
Proof.
  rewrite /opdm_set_active [o_model (RD d)]/= /set_active. case: eqP => // _.
  have := sync_R s (Opdm (LModel (m_mean (o_model d)) (m_comps (o_model d)) (minn k (size (m_comps (o_model d))))) (o_weights d) (o_target d) (o_sim d) (o_simcomps d) (o_simweights d)).
  move=> <-. by rewrite /RD /RM /= size_map.
Qed.

(** ** Vectors and Jacobians *)
Lemma row_lt (r : 'I_(N * 2)) : (r %/ 2 < N)%N. Proof. by rewrite ltn_divLR. Qed.
Lemma idx_lt (i : 'I_N) (c : nat) : (c < 2)%N -> (i * 2 + c < N * 2)%N.
Proof. move=> C. apply: (@leq_trans (i * 2 + 2)); first by rewrite ltn_add2l. by rewrite -mulSnr leq_mul2r ltn_ord. Qed.
Definition vperm_fun (r : 'I_(N * 2)) : 'I_(N * 2) := Ordinal (idx_lt (p (Ordinal (row_lt r))) (ltn_pmod r (isT : (0 < 2)%N))).
Lemma vperm_inj : injective vperm_fun.
Proof.
  move=> r s E. have V : (p (Ordinal (row_lt r)) * 2 + r %% 2 = p (Ordinal (row_lt s)) * 2 + s %% 2)%N by case: E.
  have M : (r %% 2 = s %% 2)%N by have := congr1 (modn^~ 2%N) V; rewrite !modnMDl !modn_mod.
  have D : p (Ordinal (row_lt r)) = p (Ordinal (row_lt s)) by apply: val_inj; have := congr1 (divn^~ 2%N) V;
    rewrite /= !divnMDl // !(divn_small (ltn_pmod _ _)) // !addn0.
  move/perm_inj: D => [D]. apply: val_inj => /=. by rewrite (divn_eq r 2) (divn_eq s 2) D M.
Qed.
Definition vperm : 'S_(N * 2) := perm vperm_inj.
Lemma vpermE r : vperm r = vperm_fun r. Proof. by rewrite permE. Qed.
Lemma as_vector_R (s : shape) : as_vector (R s) = row_perm vperm (as_vector s).
Proof.
  apply/matrixP => r c. rewrite !mxE vpermE /=. have C : (r %% 2 < 2)%N by rewrite ltn_mod.
  rewrite (at_E (R s) (Ordinal (row_lt r)) (Ordinal C)) mxE.
  rewrite divnMDl // modnMDl modn_mod (divn_small C) addn0. by rewrite (at_E s (p (Ordinal (row_lt r))) (Ordinal C)).
Qed.
Lemma reshape_as_vector (v : 'cV[F]_(N * 2)) : as_vector (reshape_points 0 v) = v.
Proof.
  apply/matrixP => r c. rewrite mxE ord1. have C : (r %% 2 < 2)%N by rewrite ltn_mod.
  rewrite (at_E (reshape_points 0 v) (Ordinal (row_lt r)) (Ordinal C)) mxE /= -divn_eq. by rewrite (valK r).
Qed.
Lemma renumbered_vectorE (v : 'cV[F]_(N * 2)) : renumbered_vector p v = row_perm vperm v.
Proof. by rewrite /renumbered_vector as_vector_R reshape_as_vector. Qed.
Lemma gram_perm n k l (q : 'S_n) (A : 'M[F]_(n, k)) (B : 'M[F]_(n, l)) : (row_perm q A)^T *m row_perm q B = A^T *m B.
Proof.
  apply/matrixP => i j. rewrite !mxE [RHS](reindex_inj (@perm_inj _ q)) /=. apply: eq_bigr => r _. by rewrite !mxE.
Qed.

Variable noise_variance : lmodel F N -> F.
Variable eigenvalues : lmodel F N -> seq F.
Hypothesis NV : forall m, noise_variance (RM m) = noise_variance m.
Hypothesis EV : forall m, eigenvalues (RM m) = eigenvalues m.
Definition RA (a : alg F N) : alg F N := Alg (row_perm vperm (a_J a)) (a_prior a).
Lemma clm_precompute_perm n P (q : 'S_n) (J : 'M[F]_(n, P)) w :
  clm_precompute (row_perm q J) w = map_res (fun pre => (col_perm q pre.1, pre.2)) (clm_precompute J w).
Proof.
  rewrite /clm_precompute gram_perm /np_solve /np_inv. case: ifP => //= _. case: ifP => //= _. congr (Ok (_, _)).
  apply/matrixP => i j. rewrite !mxE. apply: eq_bigr => r _. by rewrite !mxE.
Qed.
Lemma clm_step_perm n P (q : 'S_n) (J : 'M[F]_(n, P)) w b v e : clm_step b (row_perm q J) w v (row_perm q e) = clm_step b J w v e.
Proof.
  rewrite /clm_step clm_precompute_perm. case: clm_precompute => [[pre1 pre2]|] //=. congr Ok. rewrite /clm_increment /=. case: b.
    by rewrite gram_perm.
  apply/matrixP => i j. rewrite !mxE [RHS](reindex_inj (@perm_inj _ q)) /=. apply: eq_bigr => r _. by rewrite !mxE.
Qed.
Lemma clm_update_R s b P (J : 'M[F]_(N * 2, P)) w (d : opdm) e :
  clm_update align (R s) b (row_perm vperm J) w (RD d) (row_perm vperm e) = RO (clm_update align s b J w d e).
Proof. rewrite /clm_update clm_step_perm. case: clm_step => [dp|x] //. exact: from_vector_R. Qed.

Lemma opdm_d_dp_R (d : opdm) : exists jac jac', [/\ opdm_d_dp d = Ok jac, opdm_d_dp (RD d) = Ok jac',
  t_shape jac = [:: N; (size (o_simcomps d) + size (active (o_model d)))%N; 2%N], t_shape jac' = t_shape jac &
  jacobian_matrix N (size (o_simcomps d) + size (active (o_model d))) jac' = row_perm vperm (jacobian_matrix N (size (o_simcomps d) + size (active (o_model d))) jac)].
Proof.
  have S : t_shape (reshape_comps (o_simcomps d)) = [:: N; size (o_simcomps d); 2%N] by [].
  have [jac E [Sh [L V]]] := global_d_dp_ok (o_model d) (o_sim d) S.
  have S' : t_shape (reshape_comps (o_simcomps (RD d))) = [:: N; size (o_simcomps d); 2%N] by rewrite /= size_map.
  have [jac' E' [Sh' [L' V']]] := global_d_dp_ok (o_model (RD d)) (o_sim (RD d)) S'.
  rewrite active_R size_map in Sh' V'.
  exists jac, jac'. split=> //; first by rewrite Sh' Sh.
  apply/matrixP => r k. rewrite !mxE vpermE /=. have C : (r %% 2 < 2)%N by rewrite ltn_mod.
  rewrite divnMDl // modnMDl modn_mod (divn_small C) addn0.
  case: (ltnP k (size (o_simcomps d))) => K.
    rewrite L // L' // /=. rewrite R_nth (at_E (R _) (Ordinal (row_lt r)) (Ordinal C)) mxE.
    by rewrite (at_E _ (p (Ordinal (row_lt r))) (Ordinal C)).
  have K' : (k - size (o_simcomps d) < size (active (o_model d)))%N by rewrite ltn_subLR.
  have := V (p (Ordinal (row_lt r))) (k - size (o_simcomps d))%N (Ordinal C) K'. rewrite subnKC // => ->.
  have := V' (Ordinal (row_lt r)) (k - size (o_simcomps d))%N (Ordinal C) K'. rewrite subnKC // => ->.
  by rewrite R_nth mxE.
Qed.
Lemma alg_new_R (d : opdm) : alg_new noise_variance eigenvalues (RD d) = map_res RA (alg_new noise_variance eigenvalues d).
Proof.
  have [jac [jac' [E E' Sh Sh' EJ]]] := opdm_d_dp_R d. rewrite /alg_new E E'. cbn [bind]. rewrite Sh' Sh. cbn [nth].
  rewrite [o_model (RD d)]/= NV EV. case: ifP => // _. rewrite EJ clm_precompute_perm. by case: clm_precompute.
Qed.
Lemma build_R ds : mapM (alg_new noise_variance eigenvalues) [seq RD d | d <- ds] = map_res (map RA) (mapM (alg_new noise_variance eigenvalues) ds).
Proof. elim: ds => [|d ds IH] //=. rewrite alg_new_R. case: alg_new => [a|e] //=. rewrite IH. by case: mapM. Qed.
End Shapes.

Section Fit.
Variable F : realFieldType.
Variables (N : nat) (Image : Type).
Notation shape := 'M[F]_(N, 2).
Notation opdm := (opdm F N).
Variable p : 'S_N.
Notation R := (@renumbered F N p).
Notation RD := (@renumbered_pdm F N p).
Variable align : shape -> shape -> sim F.
Hypothesis IG : ignores_numbering align.
Variables displacement displacement' : nat -> Image -> shape -> res 'cV[F]_(N * 2).
Hypothesis DI : forall k im s, displacement' k im (R s) = map_res (renumbered_vector p) (displacement k im s).
Variables next next' : nat -> Image -> shape -> shape.
Hypothesis NX : forall k im s, next' k im (R s) = R (next k im s).
Variables exceeds exceeds' : shape -> shape -> bool.
Hypothesis EX : forall s t, exceeds' (R s) (R t) = exceeds s t.
Notation RR := (@renumbered_result F N p).

Lemma step_R k im b a (d : opdm) : alg_step align displacement' k im b (RA p a) (RD d) = RO p (alg_step align displacement k im b a d).
Proof.
  rewrite /alg_step [o_target (RD d)]/= DI. case: displacement => [e|e] //=. have -> : opdm_vector (RD d) = opdm_vector d by [].
  case: ifP => // _. rewrite renumbered_vectorE. exact: clm_update_R.
Qed.
Lemma loop_R k im b a m : forall go (d : opdm) ss ps,
  alg_loop align displacement' exceeds' m go k im b (RA p a) (RD d) [seq R s | s <- ss] ps =
  let x := alg_loop align displacement exceeds m go k im b a d ss ps in (RD x.1, map_res RR x.2).
Proof.
  elim: m => [|m IH] go d ss ps //=. case: go => //. rewrite step_R. case: alg_step => [d1 [u|e]] //=.
  have -> : opdm_vector (RD d1) = opdm_vector d1 by []. rewrite EX. have := IH (exceeds (o_target d) (o_target d1)) d1 (ss ++ [:: o_target d1]) (ps ++ [:: opdm_vector d1]). by rewrite map_cat.
Qed.
Lemma run_R k im s m b a (d : opdm) : alg_run align displacement' exceeds' k im (R s) m b (RA p a) (RD d) =
  let x := alg_run align displacement exceeds k im s m b a d in (RD x.1, map_res RR x.2).
Proof.
  rewrite /alg_run. have -> : src (RD d) = R (src d) by []. rewrite set_target_R //. case: opdm_set_target => [d1 [u|e]] //=.
  exact: (loop_R k im b a m true d1 [:: o_target d1] [:: opdm_vector d1]).
Qed.
Lemma fit_from_R c algs : forall k s ds,
  fit_from align displacement' next' exceeds' k (Call (c_image c) (R (c_shape c)) (c_max_iters c) (c_map c)) (R s) [seq RA p a | a <- algs] [seq RD d | d <- ds] =
  let x := fit_from align displacement next exceeds k c s algs ds in ([seq RD d | d <- x.1], map_res (map RR) x.2).
Proof.
  elim: algs => [|a algs IH] k s ds //. case: ds => [|d ds] //=. rewrite run_R. case: alg_run => [d1 [r|e]] //=.
  rewrite last_map NX IH. case: fit_from => [ds' [rs|e]] //.
Qed.
Lemma set_components_R ns : forall ds, set_components align [seq RD d | d <- ds] ns =
  let x := set_components align ds ns in ([seq RD d | d <- x.1], x.2).
Proof.
  elim: ns => [|n ns IH] [|d ds] //=. have -> : src (RD d) = R (src d) by []. rewrite set_active_R //. case: opdm_set_active => [d1 [u|e]] //=.
  rewrite IH. by case: set_components.
Qed.
Variable noise_variance : lmodel F N -> F.
Variable eigenvalues : lmodel F N -> seq F.
Hypothesis NV : forall m, noise_variance (renumbered_model p m) = noise_variance m.
Hypothesis EV : forall m, eigenvalues (renumbered_model p m) = eigenvalues m.
Notation RC := (@renumbered_call F N p Image).
Lemma build_all_R n ds : build align noise_variance eigenvalues n [seq RD d | d <- ds] =
  let x := build align noise_variance eigenvalues n ds in ([seq RD d | d <- x.1], map_res (map (RA p)) x.2).
Proof.
  rewrite /build. case: n => [ns|]; last by rewrite build_R.
  rewrite size_map. case: ifP => // _. rewrite set_components_R. case: set_components => [ds1 [u|e]] //=. by rewrite build_R.
Qed.
Lemma fit_R c algs ds : fit align displacement' next' exceeds' (RC c) [seq RA p a | a <- algs] [seq RD d | d <- ds] =
  let x := fit align displacement next exceeds c algs ds in ([seq RD d | d <- x.1], map_res (map RR) x.2).
Proof. exact: fit_from_R. Qed.
Definition RW (w : world F N) : world F N := World [seq RD d | d <- w_models w] [seq [seq RA p a | a <- f] | f <- w_fitters w].
Lemma fitter_R w i : List.nth_error (w_fitters (RW w)) i = omap (map (RA p)) (List.nth_error (w_fitters w) i).
Proof. case: w => ds fs /=. elim: fs i => [|f fs IH] [|i] //=. Qed.
Lemma session_R os : forall w, session align noise_variance eigenvalues displacement' next' exceeds' [seq renumbered_op p o | o <- os] (RW w) =
  RW (session align noise_variance eigenvalues displacement next exceeds os w).
Proof.
  elim: os => [|o os IH] w //=. rewrite -IH. congr session. case: o => [n|i c] /=.
    rewrite build_all_R. case: build => [ds1 [f|e]] /=; by rewrite /RW /= map_cat.
  rewrite fitter_R. case: List.nth_error => [f|] //=. by rewrite fit_R.
Qed.
Lemma outcome_R i c w : outcome align displacement' next' exceeds' i (RC c) (RW w) = map_res (map RR) (outcome align displacement next exceeds i c w).
Proof. rewrite /outcome fitter_R. case: List.nth_error => [f|] //=. by rewrite fit_R. Qed.
End Fit.

Section Procrustes.
Variable F : rcfType.
Variable N : nat.
Notation shape := 'M[F]_(N, 2).
Variable p : 'S_N.
Notation R := (@renumbered F N p).
Lemma centre_R (s : shape) j : centre (R s) j = centre s j.
Proof. rewrite /centre [in RHS](reindex_inj (@perm_inj _ p)) /=. congr (_ / _). apply: eq_bigr => i _. by rewrite mxE. Qed.
Lemma centred_R (s : shape) : centred (R s) = R (centred s).
Proof. apply/matrixP => i j. by rewrite !mxE centre_R. Qed.
Lemma rotated_R (s : shape) : rotated_ccw (R s) = R (rotated_ccw s).
Proof. apply/matrixP => i j. by rewrite !mxE. Qed.
Lemma norm_R (s : shape) : norm (R s) = norm s.
Proof. by rewrite /norm centred_R dot_R. Qed.
Lemma procrustes_R (s t : shape) : procrustes (R s) (R t) = procrustes s t.
Proof. by rewrite /procrustes !centred_R rotated_R !dot_R !norm_R !centre_R. Qed.
Lemma similarity_model_R (s : shape) : similarity_2d_instance_model (R s) = renumbered_model p (similarity_2d_instance_model s).
Proof.
  rewrite /similarity_2d_instance_model /renumbered_model /= rotated_R.
  have C (f : 'I_2 -> F) : R (\matrix_(i, j) f j) = \matrix_(i, j) f j by apply/matrixP => i j; rewrite !mxE.
  by rewrite !C.
Qed.
End Procrustes.
