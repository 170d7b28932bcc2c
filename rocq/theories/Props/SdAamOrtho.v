(** C81 for the transform the library uses: an OrthoMDTransform, a warp driven by an OrthoPDM. *)
From Coq Require List.
From Verif.Model Require Import Py ModelInstance SdmOrtho SdAam.
From Verif.Model Require SdmAlgorithm.
From Verif.Spec Require Import ModelInstance SdmAlgorithm SdAam.
From Verif.Proofs Require Import ModelInstance Projection SdmOrtho ModelExample.
From Verif.Props Require SdAam SdmOrtho.
From mathcomp Require Import all_ssreflect all_algebra.
Set Implicit Arguments.
Unset Strict Implicit.
Unset Printing Implicit Defensive.
Import Order.TTheory GRing.Theory Num.Theory.
Local Open Scope ring_scope.
Import Verif.Props.SdmOrtho.

Section Ortho.
Variable F : realFieldType.
Variable N : nat.
Notation shape := 'M[F]_(N, 2).
Variable align : shape -> shape -> sim F.
Variable src : shape.
Variables I X R E : Type.
Variables vadd vsub : seq F -> seq F -> seq F.
(** Features of an image as warped by a warp with that target. *)
Variable feature : I -> shape -> res X.
Variable reg_train : seq X -> seq (option (seq F)) -> res R.
Variable reg_increment : R -> seq X -> seq (option (seq F)) -> res R.
Variable reg_predict : R -> seq X -> res (seq (seq F)).
Variable reg_predict1 : R -> X -> res (seq F).
Variable compute_error : shape -> shape -> shape -> res E.
Variable garbage : seq F.
(** modelinstance.py: _sync_state_from_target of the OrthoPDM. *)
Definition ortho_sync (d : opdm F N) : res (opdm F N) :=
  match opdm_sync_state align src d with (d', Ok _) => Ok d' | (_, Err e) => Err e end.
Notation set_target := (md_set_target (ortho_set_target align src) ortho_sync (@o_target F N)).
Notation from_vector := (md_from_vector (ortho_from_vector align src) (@o_target F N)).
Notation vec := (md_vec (@opdm_vector F N)).
Notation tgt := (md_tgt (@o_target F N)).
Notation train := (sd_train vadd vsub set_target from_vector vec tgt (fun im t => feature im (md_warp t)) reg_train reg_increment reg_predict compute_error garbage).
Notation fit := (sd_fit vadd set_target from_vector vec tgt (fun im t => feature im (md_warp t)) reg_predict1).
Definition same_transform (t t' : md shape (opdm F N)) : Prop := same_pdm (md_pdm t) (md_pdm t').

Lemma sync_is_set d : ortho_sync d = ortho_set_target align src d (o_target d).
Proof. by rewrite /ortho_sync /ortho_set_target /opdm_set_target; case: d. Qed.
Lemma transform_stateless : stateless set_target from_vector same_transform.
Proof. exact: (Verif.Props.SdAam.c81_transform_stateless _ _ _ _ _ (ortho_stateless align src) sync_is_set). Qed.
Lemma readback m v m' : from_vector m v = Ok m' -> vec m' = v.
Proof.
  rewrite /md_from_vector /ortho_from_vector. case: ifP => // _. case H : opdm_from_vector => [d [[]|]] //= [<-]. rewrite /md_vec /=.
  by have [_ [_ [V _]]] := opdm_from_ok H.
Qed.

(** Fitting training image i from any of its perturbations gives the estimates training had of it, unless an intermediate estimate
    has all its points in one place. *)
Theorem c81_ortho : forall vb inc n a images gts cur a' o i l im (s : shape),
  rowwise reg_predict reg_predict1 ->
  train vb inc n a images gts cur = Ok (a', o) -> n <> 0%N -> (inc = true -> length (sd_regressors a) = n) ->
  List.nth_error images i = Some im -> sample cur i l = Some s ->
  proper_pdm align src (md_pdm (SdmAlgorithm.o_model o)) ->
  (forall c x, List.In c (List.tl (SdmAlgorithm.o_currents o)) -> sample c i l = Some x -> spread x) ->
  exists ps t shapes m', fit a' im s = Ok (ps, t :: shapes, m') /\
    settled_on set_target tgt (SdmAlgorithm.o_model o) s t /\
    retraces (SdmAlgorithm.o_currents o) (SdmAlgorithm.o_final o) i l shapes /\ length shapes = n /\ length ps = (n + 1)%coq_nat.
Proof.
  move=> vb inc n a images gts cur a' o i l im s RW T N0 LI Hi Hs [Esrc [Os [Om [Xo [B Ex]]]]] SC.
  apply: (Verif.Props.SdAam.c81_retraces _ _ _ _ _ _ _ _ _ _ _ _ _ _ transform_stateless vb inc n a images gts cur a' o i l im s RW readback T N0 LI Hi Hs).
  - apply: (Verif.Props.SdAam.c81_transform_settles _ _ _ _ sync_is_set) => d d' [M C].
    rewrite /ortho_set_target Esrc. case H : opdm_set_target => [d1 [[]|]] // [<-].
    rewrite M in Om Xo B Ex H *. rewrite C in Os Xo B. by rewrite (opdm_set_target_twice Os Om Xo B Ex H).
  - move=> c x Hc Hx. apply: (Verif.Props.SdAam.c81_transform_recovers _ _ _ _ _ sync_is_set). rewrite Esrc. apply: ortho_recovered => //. exact: SC Hc Hx.
Qed.
(** Training again from scratch, in whatever state earlier trainings and fits left the transform. *)
Theorem c81_ortho_retrain : forall n a b images gts cur a' o, same_transform (sd_transform a) (sd_transform b) ->
  train false false n a images gts cur = Ok (a', o) ->
  exists b' o', train false false n b images gts cur = Ok (b', o') /\ sd_regressors a' = sd_regressors b' /\
    SdmAlgorithm.o_currents o = SdmAlgorithm.o_currents o' /\ SdmAlgorithm.o_final o = SdmAlgorithm.o_final o' /\
    same_transform (sd_transform a') (sd_transform b').
Proof. move=> *. apply: (Verif.Props.SdAam.c81_retrain _ _ _ _ _ _ _ _ _ _ _ _ _ transform_stateless); eassumption. Qed.
(** Verbose training. *)
Theorem c81_ortho_verbose : forall inc n a images gts cur a' o, train true inc n a images gts cur = Ok (a', o) ->
  exists b' o', train false inc n a images gts cur = Ok (b', o') /\ sd_regressors a' = sd_regressors b' /\
    SdmAlgorithm.o_currents o = SdmAlgorithm.o_currents o' /\ SdmAlgorithm.o_final o = SdmAlgorithm.o_final o' /\
    same_transform (sd_transform a') (sd_transform b').
Proof. move=> *. apply: (Verif.Props.SdAam.c81_verbose _ _ _ _ _ _ _ _ _ _ _ _ _ transform_stateless); eassumption. Qed.
End Ortho.
(** The model of c77_ortho_example is proper, so is the transform built on it. *)
Example c81_ortho_example (F : realFieldType) : proper_pdm (@lsq F 4) (mean4 F) (md_pdm (md_new (@o_target F 4) (pdm4 F))) /\
  md_warp (md_new (@o_target F 4) (pdm4 F)) = mean4 F.
Proof. split; [by have [] := c77_ortho_example F|by []]. Qed.
Print Assumptions c81_ortho.
Print Assumptions c81_ortho_retrain.
Print Assumptions c81_ortho_verbose.
