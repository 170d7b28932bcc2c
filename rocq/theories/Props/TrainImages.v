(** C88: at every scale a model is fitted to images prepared as those it was trained on. *)
From Coq Require Import String List ZArith QArith Qcanon Bool Arith Lia.
From Coq Require Qcabs.
From Verif.Model Require Import Py Dict Affine Result Fitter TrainImages.
From Verif.Spec Require Import TrainImages.
From Verif.Proofs Require Fitter TrainImages.
Import ListNotations.
Local Open Scope nat_scope.

Section Props.
  Context {Px : Type}.
  Notation image := (@image Px).
  Variable to_pointcloud : Px -> shape -> shape -> res (Px * (shape -> shape)).
  Variable features_of : nat -> Px -> res (Px * (shape -> shape)).
  Variable resized : Px -> Qc -> res (Px * (shape -> shape) * aff).
  Variable rescale_to_pointcloud : image -> shape -> string -> res image.
  Variable feature : nat -> image -> res image.
  Variable rescale : image -> Qc -> res (image * aff).
  Variable alignment_affine : shape -> shape -> res aff.
  Hypothesis rides : ride_along to_pointcloud features_of resized rescale_to_pointcloud feature rescale.

  (** What fitting from the annotated shape prepares is what was trained on: the same pixels with the same
      shape at every scale. *)
  Definition fitted_as_trained (fs : list nat) (ss : list Qc) (reference : shape) (group : string)
             (im : image) (k : nat) (tr : list (list image)) : Prop :=
    forall s0 gt d fimages inits gts affs scs d',
    dict_get group (lms im) = Some s0 ->
    prepare_image rescale_to_pointcloud feature rescale alignment_affine (mkFitter reference fs ss) (px im) s0 gt d =
      (Ok (fimages, inits, gts, affs, scs), d') ->
    length fimages = length tr /\
    forall j ims fi, nth_error tr j = Some ims -> nth_error fimages j = Some fi ->
      exists ti, nth_error ims k = Some ti /\ px ti = px fi /\ dict_get group (lms ti) = nth_error inits j.

  Lemma from_batch v fs ss reference group batch im k tr :
    objects fs -> clear_scales ss ->
    (exists b, nth_error batch k = Some b /\ rescale_to_pointcloud im reference group = Ok b) ->
    scale_loop feature rescale v fs ss batch None = Ok tr ->
    fitted_as_trained (map fn_eq fs) ss reference group im k tr.
  Proof.
    intros Hobj Hcl (b & Hb & Hrb) Htr s0 gt d fimages inits gts affs scs d' Hs0 Hp.
    rewrite Fitter.prepare_image_spec in Hp.
    destruct (Fitter.computed _ _ _ _ _ _ _ _ _) as [x|e] eqn:Hc; [|discriminate].
    injection Hp as -> _. unfold Fitter.computed in Hc. cbn [reference_shape holistic_features scales] in Hc.
    destruct (rescale_to_pointcloud (mkImage (px im) (Fitter.with_groups s0 gt d)) reference initial_group)
      as [tmp|e] eqn:Htmp; cbn [bind] in Hc; [|discriminate].
    destruct (prepare_scales feature rescale alignment_affine (map fn_eq fs) ss tmp s0 None) as [l|e] eqn:Hl;
      cbn [bind] in Hc; [|discriminate].
    destruct (mapM _ (map _ l)) as [is|e] eqn:Hin; cbn [bind] in Hc; [|discriminate].
    match type of Hc with bind ?X _ = _ => destruct X as [gs|e] end; cbn [bind] in Hc; [|discriminate].
    injection Hc as <- <- _ _ _.
    assert (Hbt : alike group b initial_group tmp).
    { eapply TrainImages.to_pointcloud_alike; [exact rides| |exact Hrb|exact Htmp].
      split; [reflexivity|]. cbn. now rewrite Fitter.get_init_with. }
    destruct (TrainImages.loops_alike _ _ _ _ _ _ alignment_affine rides group initial_group v k batch tmp s0
                (ex_intro _ b (conj Hb Hbt)) fs ss Hobj Hcl None None tr l I Htr Hl) as [Hlen Hall].
    split; [now rewrite map_length|].
    intros j ims fi Hims Hfi. rewrite nth_error_map in Hfi.
    destruct (nth_error l j) as [x|] eqn:Hx; [|discriminate]. injection Hfi as <-.
    destruct (Hall j ims x Hims Hx) as (ti & Hti & Hpx & Hd). exists ti. split; [exact Hti|]. split; [exact Hpx|].
    rewrite Hd. destruct (TrainImages.mapM_nth _ _ _ j (fst (fst x)) Hin) as (y & Hy & Hny).
    { rewrite nth_error_map, Hx. reflexivity. }
    rewrite Hny. unfold dict_at in Hy. destruct (dict_get initial_group (lms (fst (fst x)))); congruence.
  Qed.

  (** AAM, CLM, APS, unified AAM-CLM without smoothing ([common_loop]), SDM ([sdm_loop]) and the template of
      an ATM ([atm_loop]). *)
  Theorem c88_fitted_as_trained v fs ss reference group images im k tr :
    objects fs -> clear_scales ss -> nth_error images k = Some im ->
    training_images rescale_to_pointcloud feature rescale v (fun i => Ok i) fs ss reference group images = Ok tr ->
    fitted_as_trained (map fn_eq fs) ss reference group im k tr.
  Proof.
    intros Hobj Hcl Him Htr. unfold training_images in Htr.
    destruct (rescale_images_to_reference_shape _ _ _ _) as [batch|e] eqn:Hb; cbn [bind] in Htr; [|discriminate].
    rewrite TrainImages.mapM_id in Htr. cbn [bind] in Htr.
    destruct (TrainImages.mapM_nth _ _ _ _ _ Hb Him) as (b & Hrb & Hnb).
    eapply from_batch; eauto.
  Qed.

  (** dlib, whose initial shapes and groups are bounding boxes. *)
  Theorem c88_dlib_fitted_as_trained ss reference group images im k tr :
    clear_scales ss -> nth_error images k = Some im ->
    dlib_training_images rescale_to_pointcloud rescale ss reference group images = Ok tr ->
    fitted_as_trained (repeat no_op_eq (length ss)) ss reference group im k tr.
  Proof.
    intros Hcl Him Htr. unfold dlib_training_images in Htr.
    destruct (rescale_images_to_reference_shape _ _ _ _) as [batch|e] eqn:Hb; cbn [bind] in Htr; [|discriminate].
    destruct (TrainImages.mapM_nth _ _ _ _ _ Hb Him) as (b & Hrb & Hnb).
    replace (repeat no_op_eq (length ss)) with (map fn_eq (repeat (mkFn 0 no_op_eq) (length ss))) by (clear; induction ss as [|s ss IH]; [reflexivity|cbn; now rewrite IH]).
    eapply (from_batch sdm_loop); eauto.
    - intros f f' Hf Hf' _. apply repeat_spec in Hf. apply repeat_spec in Hf'. congruence.
    - assert (Hloop : forall prev, prev = None \/ prev = Some (mkFn 0 no_op_eq, batch) ->
                forall tr, mapM (scale_images rescale batch) ss = Ok tr ->
                scale_loop feature rescale sdm_loop (repeat (mkFn 0 no_op_eq) (length ss)) ss batch prev = Ok tr).
      { clear. induction ss as [|s ss IH]; intros prev Hp tr H; [exact H|].
        cbn [mapM] in H. cbn [length repeat scale_loop].
        destruct (scale_images rescale batch s) as [sc|e] eqn:Hs; cbn [bind] in H; [|discriminate].
        destruct (mapM (scale_images rescale batch) ss) as [r|e] eqn:Hr; cbn [bind] in H; [|discriminate].
        injection H as <-.
        destruct Hp as [-> | ->]; cbn [bind skips_no_op sdm_loop fn_eq Nat.eqb andb same_features by_identity guards_scale no_op_eq];
          rewrite Hs; cbn [bind]; rewrite (IH _ (or_intror eq_refl) _ eq_refl); reflexivity. }
      apply Hloop; auto.
  Qed.
End Props.

(** *** An instance: an image is its width; features of class 1 halve it, landmarks scale along. *)
Notation demo_image := (@image Qc).
Definition scaled_by (k : Qc) : shape -> shape := map (fun p => (k * fst p, k * snd p)%Qc).
Definition demo_to_pointcloud (w : Qc) (s r : shape) : res (Qc * (shape -> shape)) := Ok (w, fun s => s).
Definition demo_features (n : nat) (w : Qc) : res (Qc * (shape -> shape)) :=
  match n with
  | 1 => Ok ((w * Q2Qc (1 # 2))%Qc, scaled_by (Q2Qc (1 # 2)))
  | _ => Ok (w, fun s => s)
  end.
Definition demo_resized (w k : Qc) : res (Qc * (shape -> shape) * aff) := Ok ((w * k)%Qc, scaled_by k, scale_aff (/ k)%Qc).
Definition demo_rtp (im : demo_image) (ref : shape) (g : string) : res demo_image :=
  let? s := dict_at g (lms im) in
  let? (p, t) := demo_to_pointcloud (px im) s ref in Ok (mkImage p (moved t (lms im))).
Definition demo_feature (n : nat) (im : demo_image) : res demo_image :=
  let? (p, t) := demo_features n (px im) in Ok (mkImage p (moved t (lms im))).
Definition demo_rescale (im : demo_image) (s : Qc) : res (demo_image * aff) :=
  let? (p, t, a) := demo_resized (px im) s in Ok (mkImage p (moved t (lms im)), a).
Definition demo_align (s t : shape) : res aff := Ok id_aff.

Lemma demo_rides : ride_along demo_to_pointcloud demo_features demo_resized demo_rtp demo_feature demo_rescale.
Proof. repeat split. Qed.

Definition dot : shape := [(Q2Qc 8, Q2Qc 4)].
Definition photo : demo_image := mkImage (Q2Qc 16) [("PTS"%string, dot)].
Definition half : Qc := Q2Qc (1 # 2).

(** The hypotheses of the theorem are met: features of class 1 at both scales, 1/2 and 1. *)
Example c88_ex :
  objects [mkFn 3 1; mkFn 4 1] /\ clear_scales [half; 1%Qc] /\
  exists tr r, training_images demo_rtp demo_feature demo_rescale common_loop (fun i => Ok i)
              [mkFn 3 1; mkFn 4 1] [half; 1%Qc] dot "PTS" [photo] = Ok tr /\
    map (map px) tr = [[Q2Qc 4]; [Q2Qc 8]] /\
    fst (prepare_image demo_rtp demo_feature demo_rescale demo_align (mkFitter dot [1; 1] [half; 1%Qc]) (Q2Qc 16) dot None []) = Ok r /\
    map px (fst (fst (fst (fst r)))) = [Q2Qc 4; Q2Qc 8].
Proof.
  split.
  { intros f f' [<-|[<-|[]]] [<-|[<-|[]]]; reflexivity. }
  split.
  { intros s [<-|[<-|[]]]; [discriminate|reflexivity]. }
  eexists _, _. split; [reflexivity|]. split; [cbn; repeat f_equal; apply Qc_is_canon; reflexivity|].
  split; [reflexivity|]. cbn. repeat f_equal; apply Qc_is_canon; reflexivity.
Qed.

(** *** Findings *)

(** A scale within the tolerance of np.allclose of 1 is skipped in training but not in fitting. *)
Definition nearly_one : Qc := (1 + Q2Qc (1 # 200000))%Qc.
Theorem c88_nearly_one_refuted :
  exists tr fimages inits affs scs d' ti fi,
    training_images demo_rtp demo_feature demo_rescale common_loop (fun i => Ok i)
      [mkFn 0 0] [nearly_one] dot "PTS" [photo] = Ok tr /\
    prepare_image demo_rtp demo_feature demo_rescale demo_align (mkFitter dot [0] [nearly_one]) (Q2Qc 16) dot None [] =
      (Ok (fimages, inits, None, affs, scs), d') /\
    tr = [[ti]] /\ fimages = [fi] /\ px ti <> px fi.
Proof.
  eexists _, _, _, _, _, _, _, _.
  split; [reflexivity|]. split; [lazy; reflexivity|]. split; [reflexivity|]. split; [reflexivity|].
  intro H. apply (f_equal this) in H. vm_compute in H. discriminate.
Qed.

(** With sigma a unified AAM-CLM is trained on smoothed images and fitted to unsmoothed ones. *)
Definition smooth (im : demo_image) : res demo_image := Ok (mkImage (px im * half)%Qc (lms im)).
Theorem c88_unified_sigma_refuted :
  exists tr fimages inits affs scs d' ti fi,
    training_images demo_rtp demo_feature demo_rescale common_loop smooth
      [mkFn 0 0] [1%Qc] dot "PTS" [photo] = Ok tr /\
    prepare_image demo_rtp demo_feature demo_rescale demo_align (mkFitter dot [0] [1%Qc]) (Q2Qc 16) dot None [] =
      (Ok (fimages, inits, None, affs, scs), d') /\
    tr = [[ti]] /\ fimages = [fi] /\ px ti <> px fi.
Proof.
  eexists _, _, _, _, _, _, _, _.
  split; [reflexivity|]. split; [lazy; reflexivity|]. split; [reflexivity|]. split; [reflexivity|].
  intro H. apply (f_equal this) in H. vm_compute in H. discriminate.
Qed.

(** Which scales that concerns. *)
Theorem c88_clear_scales_iff (ss : list Qc) :
  clear_scales ss <->
  forall s, In s ss -> s = 1%Qc \/ (Qcabs.Qcabs (s - 1) > Q2Qc (1 # 100000000) + Q2Qc (1 # 100000))%Qc.
Proof.
  unfold clear_scales, close_to_one. split; intros H s Hs; specialize (H s Hs).
  - destruct (Qclt_le_dec _ _) as [Hlt|Hle]; [now right|left; now apply H].
  - destruct (Qclt_le_dec _ _) as [Hlt|Hle]; [discriminate|]. intros _.
    destruct H as [H|H]; [exact H|]. exfalso. exact (Qcle_not_lt _ _ Hle H).
Qed.

Print Assumptions c88_fitted_as_trained.
Print Assumptions c88_dlib_fitted_as_trained.
Print Assumptions c88_nearly_one_refuted.
Print Assumptions c88_unified_sigma_refuted.
Print Assumptions c88_clear_scales_iff.
