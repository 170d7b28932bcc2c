(** C83: shape models follow the shape they are given. *)
From Verif.Model Require Import Py ModelInstance SimilarityModel.
From Verif.Spec Require Import ModelInstance Pose.
From Verif.Proofs Require Import ModelInstance MRing Projection Closest SimilarityModel ModelExample.
From mathcomp Require Import all_ssreflect all_algebra.
Set Implicit Arguments.
Unset Strict Implicit.
Unset Printing Implicit Defensive.
Import Order.TTheory GRing.Theory Num.Theory.
Local Open Scope ring_scope.

(** The shapes of the similarity model of a shape are its moved, turned and scaled copies, and the weights are the
    parameters of the similarity; there are no others. *)
Theorem c83_similarity_parameters : forall (F : realFieldType) N (s : 'M[F]_(N, 2)),
  (forall w0 w1 w2 w3, instance (similarity_2d_instance_model s) [:: w0; w1; w2; w3] = Ok (moved (1 + w0) w1 w2 w3 s)) /\
  (forall al be x y, instance (similarity_2d_instance_model s) [:: al - 1; be; x; y] = Ok (moved al be x y s)).
Proof.
  move=> F N s. split=> [w0 w1 w2 w3|al be x y]; rewrite similarity_instance //. by rewrite [1 + _]addrC subrK.
Qed.
Print Assumptions c83_similarity_parameters.

(** GlobalPDM: moving, turning or scaling the target does the same to the shape that is reported, and the shape weights are
    the same. *)
Theorem c83_global : forall (F : rcfType) N (d d1 : gpdm F N) src t al be x y, nonzero al be -> correlated src t ->
  gpdm_set_target (@procrustes F N) src t d = (d1, Ok tt) ->
  exists d2, gpdm_set_target (@procrustes F N) src (moved al be x y t) d = (d2, Ok tt) /\
    g_weights d2 = g_weights d1 /\ g_target d2 = moved al be x y (g_target d1).
Proof.
  move=> F N d d1 src t al be x y P C H. have [d2 H2 [W [T _]]] := gpdm_moves x y P C H. by exists d2.
Qed.
Print Assumptions c83_global.

(** OrthoPDM, whose global transform starts from the mean of the model: no condition on the target but that it can be set. *)
Theorem c83_ortho : forall (F : rcfType) N (d d1 : opdm F N) t al be x y, (0 < N)%N -> orthonormal (o_simcomps d) ->
  similarity_basis (m_mean (o_model d)) (o_simcomps d) -> nonzero al be ->
  opdm_set_target (@procrustes F N) (m_mean (o_model d)) t d = (d1, Ok tt) ->
  exists d2, opdm_set_target (@procrustes F N) (m_mean (o_model d)) (moved al be x y t) d = (d2, Ok tt) /\
    o_weights d2 = o_weights d1 /\ o_target d2 = moved al be x y (o_target d1).
Proof.
  move=> F N d d1 t al be x y N0 O B P H. have C := opdm_correlated N0 O B H.
  have [d2 H2 [W [T _]]] := opdm_moves x y O B P C H. by exists d2.
Qed.
Print Assumptions c83_ortho.

(** A moved, turned and scaled copy of the mean is reproduced exactly, with no shape weights, by an OrthoPDM in any state. *)
Theorem c83_ortho_mean : forall (F : rcfType) N (d : opdm F N) al be x y, orthonormal (o_simcomps d) ->
  similarity_basis (m_mean (o_model d)) (o_simcomps d) -> spread (m_mean (o_model d)) -> nonzero al be ->
  exists d1, opdm_set_target (@procrustes F N) (m_mean (o_model d)) (moved al be x y (m_mean (o_model d))) d = (d1, Ok tt) /\
    o_target d1 = moved al be x y (m_mean (o_model d)) /\ o_weights d1 = nseq (size (active (o_model d))) 0.
Proof.
  move=> F N d al be x y O B S P. exact: opdm_mean.
Qed.
Print Assumptions c83_ortho_mean.

(** GlobalSimilarityModel: it follows its target, it reproduces the similarity transforms of its mean exactly, and setting the
    shape it reports as target, or its parameters, changes nothing. *)
Theorem c83_similarity_only : forall (F : rcfType) N (d : gsm F N) t al be x y, nonzero al be ->
  (correlated (gs_mean d) t -> gs_target (gsm_set_target (moved al be x y t) d) = moved al be x y (gs_target (gsm_set_target t d))) /\
  (spread (gs_mean d) -> gs_target (gsm_set_target (moved al be x y (gs_mean d)) d) = moved al be x y (gs_mean d)) /\
  (spread (gs_mean d) -> gs_target (gsm_new (gs_mean d)) = gs_mean d /\ gsm_set_target (gs_mean d) (gsm_new (gs_mean d)) = gsm_new (gs_mean d)) /\
  (correlated (gs_mean d) t -> gsm_set_target (gs_target (gsm_set_target t d)) (gsm_set_target t d) = gsm_set_target t d) /\
  gsm_from_vector (gsm_vector (gsm_set_target t d)) d = (gsm_set_target t d, Ok tt).
Proof.
  move=> F N d t al be x y P. exact: gsm_all.
Qed.
Print Assumptions c83_similarity_only.

(** ** A concrete model: four points on a circle, one shape component *)
Section Concrete.
Variable F : rcfType.
Definition square4 : opdm F 4 := Opdm (LModel (mean4 F) [:: comp4 F] 1) [:: 0] (mean4 F) (identity_sim F) (basis4 F) (nseq 4 0).
Lemma spread4 : spread (mean4 F).
Proof. exists (inord 0), (inord 1), 0. rewrite !mean4E //=. exact: oner_neq0. Qed.
Example c83_ortho_ex : exists d1 d2,
  opdm_set_target (@procrustes F 4) (mean4 F) (moved 2%:R 1 3%:R 0 (mean4 F)) square4 = (d1, Ok tt) /\
  o_target d1 = moved 2%:R 1 3%:R 0 (mean4 F) /\
  opdm_set_target (@procrustes F 4) (mean4 F) (moved 0 1 0 (- 1) (moved 2%:R 1 3%:R 0 (mean4 F))) square4 = (d2, Ok tt) /\
  o_target d2 = moved 0 1 0 (- 1) (o_target d1) /\ o_weights d2 = [:: 0].
Proof.
  have T2 : nonzero (2%:R : F) 1 by rewrite /nonzero oner_neq0 orbT.
  have T1 : nonzero (0 : F) 1 by rewrite /nonzero oner_neq0 orbT.
  have [d1 [H1 [E1 W1]]] := @c83_ortho_mean F 4 square4 2%:R 1 3%:R 0 (@ortho4 F) (@basis4_ok F) spread4 T2.
  have [d2 [H2 [W2 E2]]] := @c83_ortho F 4 square4 d1 _ 0 1 0 (- 1) isT (@ortho4 F) (@basis4_ok F) T1 H1.
  exists d1, d2. by rewrite W2 W1.
Qed.
Example c83_global_ex : exists d1 d2,
  gpdm_set_target (@procrustes F 4) (mean4 F) (mean4 F) (gpdm_new (@procrustes F 4) (LModel (mean4 F) [:: comp4 F] 1)) = (d1, Ok tt) /\
  gpdm_set_target (@procrustes F 4) (mean4 F) (moved 0 1 5%:R 0 (mean4 F)) (gpdm_new (@procrustes F 4) (LModel (mean4 F) [:: comp4 F] 1)) = (d2, Ok tt) /\
  g_weights d2 = g_weights d1 /\ g_target d2 = moved 0 1 5%:R 0 (g_target d1).
Proof.
  have T1 : nonzero (0 : F) 1 by rewrite /nonzero oner_neq0 orbT.
  have [d1 H1] : exists d1, gpdm_set_target (@procrustes F 4) (mean4 F) (mean4 F) (gpdm_new (@procrustes F 4) (LModel (mean4 F) [:: comp4 F] 1)) = (d1, Ok tt).
    rewrite /gpdm_set_target /gpdm_sync_state /= procrustes_self; last exact: spread4.
    have I : sim_apply (as_sim 1 0 0 0) (mean4 F) = mean4 F.
      rewrite as_simP. apply/matrixP => i j. rewrite mxE mul1r mul0r subr0 addr0 mul0r add0r mul1r addr0. by case: (ord2 j) => ->.
    have -> : sim_pinv_apply (as_sim 1 0 0 0) (mean4 F) = Ok (mean4 F).
      rewrite -{1}I pinv_apply // nonzero_det // /nonzero. by rewrite oner_neq0.
    rewrite /gpdm_generate /=. by eexists.
  have [d2 [H2 E]] := @c83_global F 4 _ d1 _ _ 0 1 5%:R 0 T1 (spread_correlated spread4) H1. by exists d1, d2.
Qed.
End Concrete.
