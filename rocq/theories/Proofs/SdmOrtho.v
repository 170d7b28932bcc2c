From Verif.Model Require Import Py ModelInstance SdmOrtho Regression Regressors.
From Verif.Spec Require Import ModelInstance SdmAlgorithm.
From Verif.Proofs Require Import ModelInstance Projection.
From mathcomp Require Import all_ssreflect all_algebra.
Set Implicit Arguments.
Unset Strict Implicit.
Unset Printing Implicit Defensive.
Import Order.TTheory GRing.Theory Num.Theory.
Local Open Scope ring_scope.

Section P.
Variable F : realFieldType.
Variable N : nat.
Notation shape := 'M[F]_(N, 2).
Variable align : shape -> shape -> sim F.
(** The same trained model, in whatever state. *)
Definition same_pdm (d d' : opdm F N) : Prop := o_model d = o_model d' /\ o_simcomps d = o_simcomps d'.
(** Not all points in one place. *)
Definition spread (s : shape) : Prop := exists i j, row i s <> row j s.

Lemma ortho_stateless src : stateless (ortho_set_target align src) (ortho_from_vector align src) same_pdm.
Proof.
  split.
  - by [].
  - by move=> m n [A B]; split; rewrite ?A ?B.
  - by move=> m n p [A B] [C D]; split; rewrite ?A ?B.
  - move=> m s m'. rewrite /ortho_set_target. case E : opdm_set_target => [d' [[]|]] // [<-].
    have [_ [_ [_ [_ [M C]]]]] := opdm_sync_ok E. by rewrite /= in M C.
  - move=> m v m'. rewrite /ortho_from_vector. case: ifP => // _. case E : opdm_from_vector => [d' [[]|]] // [<-].
    by have [_ [_ [_ [M C]]]] := opdm_from_ok E.
  - move=> m n s [M C]. rewrite /ortho_set_target /opdm_set_target /opdm_sync_state /opdm_update_global /o_similarity /= M C.
    case: instance => //= t. by case: sim_pinv_apply.
Qed.

Lemma collapsed (d : opdm F N) : opdm_synced d -> sdet (o_sim d) = 0 -> ~ spread (o_target d).
Proof.
  rewrite /opdm_synced /sdet => S D [i [j]]. apply.
  have [A B] : 1 + s_a (o_sim d) = 0 /\ s_b (o_sim d) = 0.
    have P1 := sqr_ge0 (1 + s_a (o_sim d)). have P2 := sqr_ge0 (s_b (o_sim d)).
    move/eqP: D. rewrite paddr_eq0 // !sqrf_eq0 => /andP [/eqP ? /eqP ?]. by split.
  apply/rowP => k. rewrite !mxE. have [X1 Y1] := S i. have [X2 Y2] := S j.
  rewrite A B !mul0r ?subr0 ?addr0 ?add0r in X1 Y1 X2 Y2.
  have [->|->] : k = 0 \/ k = 1 by case: k => [[|[|//]] ?]; [left|right]; exact: val_inj.
  - by rewrite X1 X2.
  - by rewrite Y1 Y2.
Qed.

Section Trained.
Variable d0 : opdm F N.
Let m := o_model d0.
Hypotheses (Os : orthonormal (o_simcomps d0)) (Om : orthonormal (active m))
  (X : forall c c', c \in active m -> c' \in o_simcomps d0 -> dot c c' = 0)
  (B : similarity_basis (m_mean m) (o_simcomps d0)) (E : exact_alignment align (m_mean m)).
Notation src := (m_mean m).

Lemma ortho_finds d v d' : same_pdm d0 d -> ortho_from_vector align src d v = Ok d' -> spread (o_target d') ->
  ortho_set_target align src d' (o_target d') = Ok d'.
Proof using Os Om X B E.
  move=> [M C]. rewrite /ortho_from_vector. case: ifP => // /andP [/eqP S1 /eqP S2]. case H : opdm_from_vector => [d1 [[]|]] // [<-] SP.
  have [SY [GL [V [M1 C1]]]] := opdm_from_ok H.
  have SW : size (o_simweights d1) = size (o_simcomps d1).
    move: H. rewrite /opdm_from_vector. case U : opdm_update_global => [d2 [[]|]] //. have [_ [Q _]] := opdm_update_ok U.
    move=> /opdm_regenerate_ok /= [_ [_ [Q' _]]]. rewrite Q' Q C1 size_take S1 S2. case: (size (active (o_model d))) => [|k]; first by rewrite addn0 ltnn.
    by rewrite -addSnnS ltn_addr.
  have WW : size (o_weights d1) = size (active (o_model d1)).
    have := congr1 size V. rewrite /opdm_vector size_cat SW S2 C1 M1. exact: addnI.
  rewrite /ortho_set_target. have -> : src = m_mean (o_model d1) by rewrite /m M M1.
  rewrite (@opdm_idempotent _ _ align d1) //.
  - by rewrite C1 -C.
  - by rewrite M1 -M.
  - by rewrite M1 -M C1 -C.
  - by rewrite M1 -M C1 -C.
  - by rewrite M1 -M.
  - move: GL. by rewrite /opdm_global M1 -M.
  - apply/eqP => D. exact: collapsed SY D SP.
Qed.
Lemma ortho_recovered (s : shape) : spread s -> recovered (ortho_set_target align src) (ortho_from_vector align src) (@o_target F N) same_pdm d0 s.
Proof using Os Om X B E. move=> SP d v d' S H T. rewrite -T. apply: ortho_finds (S) H _. by rewrite T. Qed.
Lemma ortho_in_model (s : shape) d v d' : spread s -> same_pdm d0 d -> ortho_from_vector align src d v = Ok d' -> o_target d' = s ->
  in_model (ortho_set_target align src) (@o_target F N) same_pdm d0 s.
Proof using Os Om X B E.
  move=> SP S H T d1 d2 S1 H1. have R := ortho_recovered SP S H T. have [_ sy tr _ sf fg] := ortho_stateless src.
  rewrite (fg d1 d') in H1; last by apply: tr (sy _ _ S1) (tr _ _ _ S (sf _ _ _ H)). by move: H1; rewrite R => [[<-]].
Qed.
End Trained.
(** Predictions are computed row by row. *)
Lemma row_bias (bias : bool) n d (x : 'M[F]_(n, d)) i : row i (add_bias bias x) = add_bias bias (row i x).
Proof. rewrite /add_bias row_row_mx. congr row_mx. by apply/rowP => j; rewrite !mxE. Qed.
Lemma row_irl (bias : bool) n d k (s : irl_state F (d + bias) k) (x : 'M[F]_(n, d)) i :
  row i (irl_predict s x) = irl_predict s (row i x).
Proof. by rewrite /irl_predict row_mul row_bias. Qed.
End P.
Section R.
Variable F : rcfType.
Lemma row_linear (bias : bool) d q (R : 'M[F]_(d + bias, q)) m (x : 'M[F]_(m, d)) i :
  row i (linear_predict R x) = linear_predict R (row i x).
Proof. by rewrite /linear_predict row_mul row_bias. Qed.
Lemma row_pcr (bias : bool) d q (st : pcr_state F (d + bias) q) m (x : 'M[F]_(m, d)) i :
  row i (pcr_predict st x) = pcr_predict st (row i x).
Proof. by rewrite /pcr_predict !row_mul row_bias. Qed.
End R.
