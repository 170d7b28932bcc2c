(** C77 and C78 for the shape model the library uses, the OrthoPDM, and the row by row predictions of its regressors. *)
From Coq Require List.
From Verif.Model Require Import Py ModelInstance SdmOrtho Regression Regressors.
From Verif.Model Require SdmAlgorithm.
From Verif.Spec Require Import ModelInstance SdmAlgorithm.
From Verif.Proofs Require Import ModelInstance Projection SdmOrtho ModelExample.
From Verif.Props Require SdmAlgorithm.
From mathcomp Require Import all_ssreflect all_algebra.
Set Implicit Arguments.
Unset Strict Implicit.
Unset Printing Implicit Defensive.
Import Order.TTheory GRing.Theory Num.Theory.
Local Open Scope ring_scope.

Section Ortho.
Variable F : realFieldType.
Variable N : nat.
Notation shape := 'M[F]_(N, 2).
Variable align : shape -> shape -> sim F.
Variable src : shape.
Variables I X R A E : Type.
Variables vadd vsub : seq F -> seq F -> seq F.
Variable patches : I -> shape -> res X.
Variable build_appearance : nat -> seq X -> res A.
Variable appearance_feature : A -> X -> res X.
Variable build_shape : seq shape -> res (opdm F N).
Variable reg_train : seq X -> seq (option (seq F)) -> res R.
Variable reg_increment : R -> seq X -> seq (option (seq F)) -> res R.
Variable reg_predict : R -> seq X -> res (seq (seq F)).
Variable reg_predict1 : R -> X -> res (seq F).
Variable compute_error : shape -> shape -> shape -> res E.
Variable garbage : seq F.
Notation train := (SdmAlgorithm.train vadd vsub (ortho_set_target align src) (ortho_from_vector align src) (@opdm_vector F N) (@o_target F N)
  patches build_appearance appearance_feature build_shape reg_train reg_increment reg_predict compute_error garbage).
Notation fit := (SdmAlgorithm.fit vadd (ortho_set_target align src) (ortho_from_vector align src) (@opdm_vector F N) (@o_target F N)
  patches appearance_feature reg_predict1).

(** The trained model o_model: components orthonormal and orthogonal to the similarity components, alignment exact, and the
    source of its global transform its own mean. *)
Definition proper_pdm (d : opdm F N) : Prop :=
  src = m_mean (o_model d) /\ orthonormal (o_simcomps d) /\ orthonormal (active (o_model d)) /\
  (forall c c', c \in active (o_model d) -> c' \in o_simcomps d -> dot c c' = 0) /\
  similarity_basis (m_mean (o_model d)) (o_simcomps d) /\ exact_alignment align (m_mean (o_model d)).

(** C77: fitting training image i from its l-th perturbation retraces training, if the perturbation is a shape the model can
    generate and no estimate has all its points in one place. *)
Theorem c77_ortho_partial : forall app vb inc n a images gts cur a' o i l im (s : shape) m,
  let kd := SdmAlgorithm.mkKind true app in
  rowwise reg_predict reg_predict1 ->
  train kd vb inc n a images gts cur = Ok (a', o) -> n <> 0%N -> (inc = true -> length (SdmAlgorithm.a_regressors a) = n) ->
  List.nth_error images i = Some im -> sample cur i l = Some s -> SdmAlgorithm.a_shape a' = Some m ->
  proper_pdm m ->
  (exists d v d', same_pdm m d /\ ortho_from_vector align src d v = Ok d' /\ o_target d' = s) -> spread s ->
  (forall c x, List.In c (List.tl (SdmAlgorithm.o_currents o)) -> sample c i l = Some x -> spread x) ->
  exists shapes m', fit kd a' m im s = Ok (shapes, m') /\
    retraces (SdmAlgorithm.o_currents o) (SdmAlgorithm.o_final o) i l shapes /\ length shapes = n.
Proof.
  move=> app vb inc n a images gts cur a' o i l im s m kd RW T N0 LI Hi Hs HM [Esrc [Os [Om [Xo [B Ex]]]]] [d [v [d' [Sd [Hd Td]]]]] SP SC.
  have EO : SdmAlgorithm.o_model o = m.
    move: T => /Verif.Proofs.SdmAlgorithm.train_parts [? [? [? [? [? [? [? [? [? [? [? [? [? [? Q]]]]]]]]]]]]]]. by move: HM; rewrite Q /= => [[]].
  eapply (Verif.Props.SdmAlgorithm.c77_retraces_partial _ _ _ _ _ _ _ _ _ _ _ _ _ _ _ _ _ (ortho_stateless align src)); [exact: RW|exact: T|exact: N0|exact: LI|exact: Hi|exact: Hs|rewrite EO..].
  - by [].
  - move: Hd. rewrite Esrc => Hd. exact: (ortho_in_model Os Om Xo B Ex SP Sd Hd Td).
  - move=> c x Hc Hx. rewrite Esrc. apply: ortho_recovered => //. exact: SC Hc Hx.
Qed.

(** C78: training with verbose=True on an OrthoPDM gives the regressors, estimates and models of training without. *)
Theorem c78_ortho : forall app inc n a images gts cur a' o,
  let kd := SdmAlgorithm.mkKind true app in
  train kd true inc n a images gts cur = Ok (a', o) ->
  exists b' o', train kd false inc n a images gts cur = Ok (b', o') /\
    SdmAlgorithm.o_currents o = SdmAlgorithm.o_currents o' /\ SdmAlgorithm.o_final o = SdmAlgorithm.o_final o' /\
    SdmAlgorithm.a_regressors a' = SdmAlgorithm.a_regressors b' /\ SdmAlgorithm.a_appearance a' = SdmAlgorithm.a_appearance b' /\
    exists m m', SdmAlgorithm.a_shape a' = Some m /\ SdmAlgorithm.a_shape b' = Some m' /\ same_pdm m m'.
Proof.
  move=> app inc n a images gts cur a' o kd T.
  have [b' [o' [Q1 [Q2 [Q3 [Q4 [Q5 Q6]]]]]]] := Verif.Props.SdmAlgorithm.c78_verbose_changes_nothing _ _ _ _ _ _ _ _ _ _ _ _ _ _ _ _ (ortho_stateless align src) _ _ _ _ _ _ _ _ _ T.
  exists b', o'. do 5 split=> //. 
  have EA : SdmAlgorithm.a_shape a' = Some (SdmAlgorithm.o_model o).
    by move: T => /Verif.Proofs.SdmAlgorithm.train_parts [? [? [? [? [? [? [? [? [? [? [? [? [? [? ->]]]]]]]]]]]]]].
  move: Q6. rewrite EA. case: (SdmAlgorithm.a_shape b') => // m' S. by exists (SdmAlgorithm.o_model o), m'.
Qed.
End Ortho.

(** The predictions of the regressors of the library for a matrix are those for its rows: IRLRegression and IIRLRegression, *)
Theorem c77_irl_rowwise : forall (F : realFieldType) (bias : bool) n d k (s : irl_state F (d + bias) k) (x : 'M[F]_(n, d)) i,
  row i (irl_predict s x) = irl_predict s (row i x).
Proof. move=> *; exact: row_irl. Qed.
(** PCRRegression, and OptimalLinearRegression and OPPRegression. *)
Theorem c77_other_rowwise : forall (F : rcfType) (bias : bool) d q m (x : 'M[F]_(m, d)) i,
  (forall st : pcr_state F (d + bias) q, row i (pcr_predict st x) = pcr_predict st (row i x)) /\
  (forall R : 'M[F]_(d + bias, q), row i (linear_predict R x) = linear_predict R (row i x)).
Proof. move=> F bias d q m x i. split; [move=> st; exact: row_pcr|move=> R; exact: (Verif.Proofs.SdmOrtho.row_linear R x i)]. Qed.

(** The hypotheses on the model hold for four points on a circle with one component; its mean is a perturbation it can
    generate. *)
Section Example.
Variable F : realFieldType.
Definition pdm4 : opdm F 4 := Opdm (LModel (mean4 F) [:: comp4 F] 1) [:: 0] (mean4 F) (identity_sim F) (basis4 F) (nseq 4 0).
Example c77_ortho_example : proper_pdm (@lsq F 4) (mean4 F) pdm4 /\ spread (mean4 F) /\
  exists d', ortho_from_vector (@lsq F 4) (mean4 F) pdm4 (nseq 5 0) = Ok d' /\ o_target d' = mean4 F.
Proof.
  split; [split; [by []|split; [exact: ortho4|split; [exact: ortho1|split; [exact: ortho14|split; [exact: basis4_ok|exact: exact4]]]]]|].
  split; first by exists (inord 0), (inord 1); move=> /rowP /(_ 0); rewrite mxE [RHS]mxE !mean4E //= => /eqP; rewrite oner_eq0.
  have [d' H] : exists d', opdm_from_vector (@lsq F 4) (mean4 F) (nseq 5 0) pdm4 = (d', Ok tt).
    have := @opdm_from_succeeds F 4 (@lsq F 4) (mean4 F) (nseq 5 0) pdm4 erefl erefl. case: opdm_from_vector => [d' r] /= ->. by exists d'.
  exists d'. split; first by rewrite /ortho_from_vector eqxx [X in _ && X]/= H.
  apply: (opdm_zero_params H). apply: (@exact4 F (identity_sim F)). exact: similar_id.
Qed.
End Example.
Print Assumptions c77_ortho_partial.
Print Assumptions c78_ortho.
Print Assumptions c77_irl_rowwise.
Print Assumptions c77_other_rowwise.
