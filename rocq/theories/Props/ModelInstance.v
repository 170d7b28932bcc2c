(** C29, C55, C56: point distribution models stay consistent with their parameters. *)
From Verif.Model Require Import Py ModelInstance.
From Verif.Spec Require Import ModelInstance.
From Verif.Proofs Require Import ModelInstance MRing Projection Closest.
From mathcomp Require Import all_ssreflect all_algebra.
Set Implicit Arguments.
Unset Strict Implicit.
Unset Printing Implicit Defensive.
Import Order.TTheory GRing.Theory Num.Theory.
Local Open Scope ring_scope.

(** ** C29: the reported target is generated by the current parameters *)
(** PDM: a new model, and a model after any history of calls (failed ones included) whose last call returned, report
    mean + sum of weights times components. *)
Theorem c29_pdm_in_sync : forall (F : realFieldType) N (m : lmodel F N),
  d_target (pdm_new m) = linear_shape m (d_weights (pdm_new m)) /\
  forall ops o d', pdm_perform o (perform_all (@pdm_perform F N) ops (pdm_new m)) = (d', Ok tt) ->
    d_target d' = linear_shape (d_model d') (d_weights d').
Proof.
  move=> F N m. split; last by move=> ops o d'; exact: pdm_perform_synced.
  by rewrite /pdm_new /= linear_zero.
Qed.
Print Assumptions c29_pdm_in_sync.

(** GlobalPDM: the target is the image, under the current global transform, of that shape. *)
Theorem c29_global_in_sync : forall (F : realFieldType) N align (m : lmodel F N),
  (align (m_mean m) (m_mean m) = identity_sim F ->
   let d := gpdm_new align m in similar (g_sim d) (linear_shape m (g_weights d)) (g_target d)) /\
  forall ops o d', gpdm_perform align (m_mean m) o (perform_all (gpdm_perform align (m_mean m)) ops (gpdm_new align m)) = (d', Ok tt) ->
    similar (g_sim d') (linear_shape (g_model d') (g_weights d')) (g_target d').
Proof.
  move=> F N align m. split; last by move=> ops o d'; exact: gpdm_perform_synced.
  move=> A /=. rewrite A linear_zero. exact: similar_id.
Qed.
Print Assumptions c29_global_in_sync.

(** OrthoPDM: likewise, and the global transform is the alignment of the mean of the constructor to the shape that the global
    weights describe. *)
Theorem c29_ortho_in_sync : forall (F : realFieldType) N align orthonormalize (m : lmodel F N),
  (forall d, opdm_new align orthonormalize m = (d, Ok tt) -> similar (o_sim d) (linear_shape (o_model d) (o_weights d)) (o_target d)) /\
  forall ops o d', opdm_perform align orthonormalize (m_mean m) o
      (perform_all (opdm_perform align orthonormalize (m_mean m)) ops (opdm_new align orthonormalize m).1) = (d', Ok tt) ->
    similar (o_sim d') (linear_shape (o_model d') (o_weights d')) (o_target d') /\
    o_sim d' = align (m_mean m) (linear_shape (o_similarity d') (o_simweights d')).
Proof.
  move=> F N align orthonormalize m. split; first by move=> d; exact: opdm_new_ok.
  move=> ops o d' H. exact: opdm_perform_synced H.
Qed.
Print Assumptions c29_ortho_in_sync.

(** Vectors round trip: a vector of the right length is always accepted, and as_vector gives it back. *)
Theorem c29_pdm_round_trip : forall (F : realFieldType) N (d : pdm F N) v, size v = size (active (d_model d)) ->
  exists d', pdm_from_vector v d = (d', Ok tt) /\ pdm_vector d' = v /\ d_model d' = d_model d.
Proof.
  move=> F N d v S. rewrite /pdm_from_vector /pdm_generate /= instance_ok ?S //. by eexists; split.
Qed.
Print Assumptions c29_pdm_round_trip.
Theorem c29_global_round_trip : forall (F : realFieldType) N (d : gpdm F N) v, size v = (4 + size (active (g_model d)))%N ->
  exists d', gpdm_from_vector v d = (d', Ok tt) /\ gpdm_vector d' = v /\ g_model d' = g_model d.
Proof.
  move=> F N d v S. have := @gpdm_from_succeeds F N v d S. case E : gpdm_from_vector => [d' r] /= R. rewrite R in E *.
  exists d'. split=> //. have [_ [V M]] := gpdm_from_ok E. exact: conj V M.
Qed.
Print Assumptions c29_global_round_trip.
Theorem c29_ortho_round_trip : forall (F : realFieldType) N align src (d : opdm F N) v,
  size (o_simweights d) = size (o_simcomps d) -> size v = (size (o_simcomps d) + size (active (o_model d)))%N ->
  exists d', opdm_from_vector align src v d = (d', Ok tt) /\ opdm_vector d' = v /\ o_model d' = o_model d.
Proof.
  move=> F N align src d v S0 S. have := @opdm_from_succeeds F N align src v d S0 S. case E : opdm_from_vector => [d' r] /= R. rewrite R in E *.
  exists d'. split=> //. have [_ [_ [V [M _]]]] := opdm_from_ok E. exact: conj V M.
Qed.
Print Assumptions c29_ortho_round_trip.

(** The number of parameters after set_target, increment or a change of the number of active components. *)
Theorem c29_n_parameters : forall (F : realFieldType) N align orthonormalize src (o : op F N), (forall v, o <> FromVector v) ->
  (forall d d', pdm_perform o d = (d', Ok tt) -> size (pdm_vector d') = size (active (d_model d'))) /\
  (forall d d', gpdm_perform align src o d = (d', Ok tt) -> size (gpdm_vector d') = (4 + size (active (g_model d')))%N) /\
  (forall d d', opdm_perform align orthonormalize src o d = (d', Ok tt) ->
     size (opdm_vector d') = (size (o_simcomps d') + size (active (o_model d')))%N).
Proof.
  move=> F N align orthonormalize src o H. split; [|split].
  - move=> d d'. case: o H => [t|v|k|m] H /=; first by move=> /pdm_sync_ok [_ []].
    + by have := H v.
    + rewrite /pdm_set_active. case: set_active => // m' /pdm_sync_ok [_ []] //.
    + by move=> /pdm_sync_ok [_ []].
  - move=> d d'. rewrite /gpdm_vector /=. case: o H => [t|v|k|m] H /=; first by move=> /gpdm_sync_ok [_ [->]].
    + by have := H v.
    + rewrite /gpdm_set_active. case: set_active => // m' /gpdm_sync_ok [_ [->]] //.
    + by move=> /gpdm_sync_ok [_ [->]].
  - move=> d d'. rewrite /opdm_vector size_cat. case: o H => [t|v|k|m] H /=; first by move=> /opdm_sync_ok [_ [_ [-> [-> _]]]].
    + by have := H v.
    + rewrite /opdm_set_active. case: set_active => // m' /opdm_sync_ok [_ [_ [-> [-> _]]]] //.
    + by move=> /opdm_sync_ok [_ [_ [-> [-> _]]]].
Qed.
Print Assumptions c29_n_parameters.

(** A vector that is too short is accepted too, and changes the number of parameters. *)
Theorem c29_short_vector_refuted : forall (F : realFieldType) N (d : pdm F N) v, (size v < size (active (d_model d)))%N ->
  exists d', pdm_from_vector v d = (d', Ok tt) /\ size (pdm_vector d') <> size (active (d_model d')).
Proof.
  move=> F N d v S. rewrite /pdm_from_vector /pdm_generate /= instance_ok; last exact: ltnW.
  eexists; split; first reflexivity. move=> /= E. by rewrite E ltnn in S.
Qed.
Print Assumptions c29_short_vector_refuted.
(** One that is too long raises, but only after the weights were replaced: the object is left with the new weights and the
    old target, for every model, every such vector. *)
Theorem c29_failed_call_refuted : forall (F : realFieldType) N (d : pdm F N) v, (size (active (d_model d)) < size v)%N ->
  linear_shape (d_model d) v <> d_target d ->
  (pdm_from_vector v d).2 = Err ValueError /\ let d' := (pdm_from_vector v d).1 in
  d_target d' <> linear_shape (d_model d') (d_weights d').
Proof.
  move=> F N d v S D. rewrite /pdm_from_vector /pdm_generate /= /instance leqNgt S /=. split=> // E. by apply: D.
Qed.
Print Assumptions c29_failed_call_refuted.

(** ** C55: zero parameters generate the mean of the model *)
Theorem c55_pdm : forall (F : realFieldType) N (d : pdm F N) k d', pdm_from_vector (nseq k 0) d = (d', Ok tt) -> d_target d' = m_mean (d_model d).
Proof.
  move=> F N d k d'. rewrite /pdm_from_vector /pdm_generate /=. case E : instance => [t|] // [<-] /=. rewrite (instanceE E). exact: linear_zero.
Qed.
Print Assumptions c55_pdm.
Theorem c55_global : forall (F : realFieldType) N (d : gpdm F N) k d', gpdm_from_vector (nseq k 0) d = (d', Ok tt) -> g_target d' = m_mean (g_model d).
Proof.
  move=> F N d k d'. rewrite /gpdm_from_vector. case: k => [|[|[|[|k]]]] //=. rewrite take0 /= drop0 /gpdm_generate /=.
  case E : instance => [t|] // [<-] /=. rewrite (instanceE E) linear_zero. apply: similar_fun (similar_id _). exact: sim_applyP.
Qed.
Print Assumptions c55_global.
(** OrthoPDM whose model has not been incremented (the source of the global transform is the mean of the model). *)
Theorem c55_ortho_partial : forall (F : realFieldType) N align (d : opdm F N) k d', exact_alignment align (m_mean (o_model d)) ->
  opdm_from_vector align (m_mean (o_model d)) (nseq k 0) d = (d', Ok tt) -> o_target d' = m_mean (o_model d).
Proof. move=> F N align d k d' E H. apply: (opdm_zero_params H). apply: (E (identity_sim F)). exact: similar_id. Qed.
Print Assumptions c55_ortho_partial.
(** After an increment the global transform still maps from the mean of the original model.  If the new mean is a similarity
    transform of the original one (for instance, the same shapes at another scale) and is not the original mean, the zero
    parameters do not generate it. *)
Theorem c55_ortho_incremented_refuted : forall (F : realFieldType) N align src (d : opdm F N) k d' g i j,
  exact_alignment align src -> similar g src (m_mean (o_model d)) -> m_mean (o_model d) <> src ->
  row i (m_mean (o_model d)) <> row j (m_mean (o_model d)) ->
  opdm_from_vector align src (nseq k 0) d = (d', Ok tt) -> o_target d' <> m_mean (o_model d).
Proof. move=> F N align src d k d' g i j E G D R H. exact: (opdm_zero_params_moved E G D R H). Qed.
Print Assumptions c55_ortho_incremented_refuted.

(** ** C56: the reported shape is the closest one, and setting it again changes nothing *)
(** PDM: after set_target, a change of the number of active components or an increment, the model reports the shape of the
    (new) model closest to the target given, respectively to the shape it reported before. *)
Theorem c56_pdm_closest : forall (F : realFieldType) N (o : op F N) (d d' : pdm F N), (forall v, o <> FromVector v) ->
  pdm_perform o d = (d', Ok tt) ->
  model_after o (d_model d) (d_model d') /\
  (orthonormal (active (d_model d')) -> forall w,
     distance2 (wanted o (d_target d)) (d_target d') <= distance2 (wanted o (d_target d)) (linear_shape (d_model d') w)).
Proof.
  move=> F N [t|v|k|m] d d' V /= H.
  - have [_ [_ M]] := pdm_sync_ok H. split=> // O w. rewrite M in O *. exact: (pdm_sync_closest w H O).
  - by have := V v.
  - move: H. rewrite /pdm_set_active. case A : set_active => [m|] // H. have [_ [_ M]] := pdm_sync_ok H. rewrite /= in M.
    split; first by rewrite M; exact: set_active_after. move=> O w. rewrite M in O *. exact: (pdm_sync_closest w H O).
  - have [_ [_ M]] := pdm_sync_ok H. split=> // O w. rewrite M in O *. exact: (pdm_sync_closest w H O).
Qed.
Print Assumptions c56_pdm_closest.
(** GlobalPDM: the global transform is the alignment of the source mean to that shape, and the reported shape is the closest
    among the images of shapes of the model under this transform. *)
Theorem c56_global_closest : forall (F : realFieldType) N align src (o : op F N) (d d' : gpdm F N), (forall v, o <> FromVector v) ->
  gpdm_perform align src o d = (d', Ok tt) ->
  model_after o (g_model d) (g_model d') /\ g_sim d' = align src (wanted o (g_target d)) /\
  (orthonormal (active (g_model d')) -> forall w x, similar (g_sim d') (linear_shape (g_model d') w) x ->
     distance2 (wanted o (g_target d)) (g_target d') <= distance2 (wanted o (g_target d)) x).
Proof.
  move=> F N align src [t|v|k|m] d d' V /= H.
  - have [A [M C]] := gpdm_sync_closest H. rewrite M. by split.
  - by have := V v.
  - move: H. rewrite /gpdm_set_active. case A : set_active => [m|] // H. have [G [M C]] := gpdm_sync_closest H. rewrite /= in M G C.
    rewrite M. split; first exact: set_active_after. by split.
  - have [A [M C]] := gpdm_sync_closest H. rewrite M. by split.
Qed.
Print Assumptions c56_global_closest.
(** OrthoPDM: likewise; the global weights are those of the closest similarity transform of the mean. *)
Theorem c56_ortho_closest : forall (F : realFieldType) N align orthonormalize src (o : op F N) (d d' : opdm F N), (forall v, o <> FromVector v) ->
  opdm_perform align orthonormalize src o d = (d', Ok tt) ->
  let sm := match o with Increment m => orthonormalize m | _ => (o_simcomps d, o_model d) end in
  model_after (match o with Increment m => Increment sm.2 | _ => o end) (o_model d) (o_model d') /\ o_simcomps d' = sm.1 /\
  (orthonormal (o_simcomps d') -> forall q,
     distance2 (wanted o (o_target d)) (linear_shape (o_similarity d') (o_simweights d')) <=
     distance2 (wanted o (o_target d)) (linear_shape (o_similarity d') q)) /\
  (orthonormal (active (o_model d')) -> forall w x, similar (o_sim d') (linear_shape (o_model d') w) x ->
     distance2 (wanted o (o_target d)) (o_target d') <= distance2 (wanted o (o_target d)) x).
Proof.
  move=> F N align orthonormalize src [t|v|k|m] d d' V /= H.
  - have [M [S [C1 C2]]] := opdm_sync_closest H. rewrite M S. by split.
  - by have := V v.
  - move: H. rewrite /opdm_set_active. case A : set_active => [m|] // H. have [M [S [C1 C2]]] := opdm_sync_closest H. rewrite /= in M S C1 C2.
    rewrite M S. split; first exact: set_active_after. by split.
  - move: H. rewrite /opdm_increment /opdm_construct /=. case: orthonormalize => sc m' H.
    have [M [S [C1 C2]]] := opdm_sync_closest H. rewrite /= in M S C1 C2. rewrite M S. by split.
Qed.
Print Assumptions c56_ortho_closest.
(** Setting the reported shape as the target changes nothing. *)
Theorem c56_pdm : forall (F : realFieldType) N (d d' : pdm F N) t, orthonormal (active (d_model d)) ->
  pdm_set_target t d = (d', Ok tt) -> pdm_set_target (d_target d') d' = (d', Ok tt).
Proof.
  move=> F N d d' t O /pdm_sync_ok [T [S M]]. apply: pdm_idempotent => //. by rewrite M.
Qed.
Print Assumptions c56_pdm.
(** OrthoPDM: parameters, global transform and target are left as they are. *)
Theorem c56_ortho : forall (F : realFieldType) N align (d d' : opdm F N) t,
  let m := o_model d in
  orthonormal (o_simcomps d) -> orthonormal (active m) ->
  (forall c c', c \in active m -> c' \in o_simcomps d -> dot c c' = 0) ->
  similarity_basis (m_mean m) (o_simcomps d) -> exact_alignment align (m_mean m) ->
  opdm_set_target align (m_mean m) t d = (d', Ok tt) ->
  opdm_set_target align (m_mean m) (o_target d') d' = (d', Ok tt).
Proof. move=> F N align d d' t m Os Om X B E H. exact: opdm_set_target_twice H. Qed.
Print Assumptions c56_ortho.

(** ** The hypotheses are met by a concrete model: four points, one shape component, the least squares alignment *)
From Verif.Proofs Require Import ModelExample.
Section Concrete.
Variable F : realFieldType.
Definition model4 : lmodel F 4 := LModel (mean4 F) [:: comp4 F] 1.
Definition ortho4d : opdm F 4 := Opdm model4 [:: 0] (mean4 F) (identity_sim F) (basis4 F) (nseq 4 0).
Example c56_ortho_ex : forall t d', opdm_set_target (@lsq F 4) (mean4 F) t ortho4d = (d', Ok tt) ->
  opdm_set_target (@lsq F 4) (mean4 F) (o_target d') d' = (d', Ok tt).
Proof.
  move=> t d' H. apply: (@c56_ortho F 4 (@lsq F 4) ortho4d d' t _ _ _ _ _ H).
  - exact: ortho4. - exact: ortho1. - move=> c c' A B. exact: ortho14 A B. - exact: basis4_ok. - exact: exact4.
Qed.
Example c56_closest_ex : forall t d', opdm_set_target (@lsq F 4) (mean4 F) t ortho4d = (d', Ok tt) -> forall w x,
  similar (o_sim d') (linear_shape (o_model d') w) x -> distance2 t (o_target d') <= distance2 t x.
Proof.
  move=> t d' H. have [M [_ [_ C]]] := @c56_ortho_closest F 4 (@lsq F 4) (fun m => ([::], m)) (mean4 F) (SetTarget t) ortho4d d' ltac:(by []) H.
  apply: C. rewrite /= in M. rewrite M. exact: ortho1.
Qed.
Example c55_ortho_ex : exists d', opdm_from_vector (@lsq F 4) (mean4 F) (nseq 5 0) ortho4d = (d', Ok tt) /\ o_target d' = mean4 F.
Proof.
  have [d' [H _]] := @c29_ortho_round_trip F 4 (@lsq F 4) (mean4 F) ortho4d (nseq 5 0) erefl erefl.
  exists d'. split; first exact: H. have T := @c55_ortho_partial F 4 (@lsq F 4) ortho4d 5 d' (@exact4 F) H. exact T.
Qed.
(** The same model after an increment that doubled its mean. *)
Definition incremented4 : opdm F 4 := Opdm (LModel (2%:R *: mean4 F) [:: comp4 F] 1) [:: 0] (mean4 F) (identity_sim F) (basis4 F) (nseq 4 0).
Example c55_ortho_incremented_ex : exists d', opdm_from_vector (@lsq F 4) (mean4 F) (nseq 5 0) incremented4 = (d', Ok tt) /\
  o_target d' <> m_mean (o_model incremented4).
Proof.
  have [d' [H _]] := @c29_ortho_round_trip F 4 (@lsq F 4) (mean4 F) incremented4 (nseq 5 0) erefl erefl.
  exists d'. split; first exact: H.
  have M i j : (i < 4)%N -> (2%:R *: mean4 F) (inord i) j = 2%:R * nth 0 (if j == 0 then xs F else ys F) i.
    by move=> I; rewrite mxE mean4E.
  apply: (@c55_ortho_incremented_refuted F 4 (@lsq F 4) (mean4 F) incremented4 5 d' (Sim (1 : F) 0 0 0) (inord 0) (inord 1) _ _ _ _ H).
  - exact: exact4.
  - move=> i. rewrite [m_mean _ i 0]mxE [m_mean _ i 1]mxE /= !mul0r subr0 !addr0 add0r. by [].
  - move=> /matrixP /(_ (inord 0) 0). rewrite M // mean4E //= mulr1 => /eqP. by rewrite (eqr_nat F 2 1).
  - move=> /rowP /(_ 0). rewrite mxE [RHS]mxE !M //= mulr1 mulr0 => /eqP. by rewrite pnatr_eq0.
Qed.
Example c29_ex : (size (active model4) = 1)%N /\ exists d', pdm_set_target (comp4 F) (pdm_new model4) = (d', Ok tt) /\ d_target d' <> comp4 F.
Proof.
  split=> //. eexists. split; first by [].
  move=> /matrixP /(_ (inord 1) 1) /=. rewrite /combination /= big_cons big_nil addr0 mxE mean4E // comp4E //=.
  rewrite mxE comp4E //= mulr0 addr0 => /eqP.
  by rewrite oner_eq0.
Qed.
End Concrete.
