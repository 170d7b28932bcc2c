From Coq Require Import List Arith.
From Verif.Model Require Import Py Result SdmTrain SdmAlgorithm SdAam.
Import ListNotations.
(** Supervised descent sees images only through the features of their warps. *)
Section P.
  Context {S V I I' X R M E : Type}.
  Variables vadd vsub : V -> V -> V.
  Variable set_target : M -> S -> res M.
  Variable from_vector : M -> V -> res M.
  Variable vec : M -> V.
  Variable tgt : M -> S.
  Variable feature : I -> M -> res X.
  Variable feature' : I' -> M -> res X.
  Variable reg_train : list X -> list (option V) -> res R.
  Variable reg_increment : R -> list X -> list (option V) -> res R.
  Variable reg_predict : R -> list X -> res (list V).
  Variable reg_predict1 : R -> X -> res V.
  Variable compute_error : S -> S -> S -> res E.
  Variable garbage : V.
  Notation alike := (fun im im' => forall m, feature im m = feature' im' m).
  Lemma test_alike im im' m s : alike im im' -> test_features set_target feature im m s = test_features set_target feature' im' m s.
  Proof. intros H. unfold test_features. destruct (set_target m s); cbn [bind]; [|reflexivity]. rewrite H. reflexivity. Qed.
  Lemma fit_loop_alike im im' : alike im im' -> forall regs m p,
    sd_fit_loop vadd set_target from_vector tgt feature reg_predict1 regs im m p = sd_fit_loop vadd set_target from_vector tgt feature' reg_predict1 regs im' m p.
  Proof.
    intros H. induction regs as [|r regs IH]; intros m p; cbn [sd_fit_loop]; [reflexivity|]. rewrite (test_alike _ _ _ _ H).
    destruct (test_features _ _ _ _ _) as [[f m1]|]; cbn [bind]; [|reflexivity]. destruct (reg_predict1 r f); cbn [bind]; [|reflexivity].
    destruct (from_vector _ _); cbn [bind]; [|reflexivity]. rewrite IH. reflexivity.
  Qed.
  Lemma fit_alike a im im' s : alike im im' ->
    sd_fit vadd set_target from_vector vec tgt feature reg_predict1 a im s = sd_fit vadd set_target from_vector vec tgt feature' reg_predict1 a im' s.
  Proof. intros H. unfold sd_fit. destruct (set_target _ s); cbn [bind]; [|reflexivity]. rewrite (fit_loop_alike _ _ H). reflexivity. Qed.
  Lemma shapes_alike im im' : alike im im' -> forall ss m, features_shapes set_target feature im ss m = features_shapes set_target feature' im' ss m.
  Proof.
    intros H. induction ss as [|s ss IH]; intros m; cbn [features_shapes]; [reflexivity|]. rewrite (test_alike _ _ _ _ H).
    destruct (test_features _ _ _ _ _) as [[f m1]|]; cbn [bind]; [|reflexivity]. rewrite IH. reflexivity.
  Qed.
  Lemma images_alike : forall images images', Forall2 alike images images' -> forall cur m,
    features_images set_target feature images cur m = features_images set_target feature' images' cur m.
  Proof.
    induction 1 as [|im im' images images' A AA IH]; intros [|ss cur] m; cbn [features_images]; try reflexivity.
    rewrite (shapes_alike _ _ A). destruct (features_shapes _ _ _ _ _) as [[xs m1]|]; cbn [bind]; [|reflexivity]. rewrite IH. reflexivity.
  Qed.
  Lemma training_alike images images' : Forall2 alike images images' -> forall cur m,
    training_features set_target feature images cur m = training_features set_target feature' images' cur m.
  Proof. intros A cur m. unfold training_features. rewrite (images_alike _ _ A). reflexivity. Qed.
  Notation lp := (sd_loop vadd vsub set_target from_vector vec tgt feature reg_train reg_increment reg_predict compute_error garbage).
  Notation lp' := (sd_loop vadd vsub set_target from_vector vec tgt feature' reg_train reg_increment reg_predict compute_error garbage).
  Lemma loop_alike images images' : Forall2 alike images images' -> forall vb inc np gts n k gt cur m delta regs,
    lp images vb inc np gts n k gt cur m delta regs = lp' images' vb inc np gts n k gt cur m delta regs.
  Proof.
    intros A vb inc np gts. induction n as [|n IH]; intros k gt cur m delta regs; cbn [sd_loop]; [reflexivity|].
    rewrite (training_alike _ _ A). destruct (training_features _ _ _ _ _) as [[f m0]|]; cbn [bind]; [|reflexivity].
    destruct (if inc then _ else _); cbn [bind]; [|reflexivity]. destruct (nth_res _ k); cbn [bind]; [|reflexivity].
    destruct (reg_predict _ f); cbn [bind]; [|reflexivity]. destruct (if vb then _ else _) as [[pr m1]|]; cbn [bind]; [|reflexivity].
    destruct (estimates_outer _ _ _ _ _ _ _ _ _ _ _ _) as [[[c m2] d]|]; cbn [bind]; [|reflexivity]. rewrite IH. reflexivity.
  Qed.
  Lemma train_alike vb inc n a images images' gts cur : Forall2 alike images images' ->
    sd_train vadd vsub set_target from_vector vec tgt feature reg_train reg_increment reg_predict compute_error garbage vb inc n a images gts cur =
    sd_train vadd vsub set_target from_vector vec tgt feature' reg_train reg_increment reg_predict compute_error garbage vb inc n a images' gts cur.
  Proof.
    intros A. unfold sd_train. destruct (if inc then _ else _); cbn [bind]; [|reflexivity]. destruct (nth_res cur 0); cbn [bind]; [|reflexivity].
    destruct (nth_res gts 0); cbn [bind]; [|reflexivity]. destruct (deltas _ _ _ _ _ _) as [[[m1 d] g]|]; cbn [bind]; [|reflexivity].
    rewrite (loop_alike _ _ A). reflexivity.
  Qed.
End P.
