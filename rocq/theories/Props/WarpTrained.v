(** C95, from the user's image: a fit of a training image that starts at its annotation sees, at every scale, the sample the
    appearance model of that scale was trained on. *)
From Coq Require Import String List ZArith QArith Qcanon Bool Arith Lia.
From Verif.Model Require Import Py Dict Affine Result Fitter TrainImages SdAam Warp.
From Verif.Spec Require Import TrainImages Warp.
From Verif.Proofs Require Import Warp.
From Verif.Props Require Import TrainImages Warp.
Import ListNotations.
Local Open Scope nat_scope.

Section Trained.
  Context {Px Vals P V : Type}.
  Notation image := (@image Px).
  Notation pt := (Qc * Qc)%type.
  Variable to_pointcloud : Px -> shape -> shape -> res (Px * (shape -> shape)).
  Variable features_of : nat -> Px -> res (Px * (shape -> shape)).
  Variable resized : Px -> Qc -> res (Px * (shape -> shape) * aff).
  Variable rescale_to_pointcloud : image -> shape -> string -> res image.
  Variable feature : nat -> image -> res image.
  Variable rescale : image -> Qc -> res (image * aff).
  Variable alignment_affine : shape -> shape -> res aff.
  Hypothesis rides : ride_along to_pointcloud features_of resized rescale_to_pointcloud feature rescale.
  (** Sampling reads pixels, not landmarks. *)
  Variable sample_px : Px -> list pt -> res Vals.
  Definition sample (im : image) := sample_px (px im).
  Variable align : shape -> shape -> list pt -> res (list pt).
  Variable mean_of : list Vals -> Vals.
  Variable p_set_target : P -> shape -> res P.
  Variable p_sync : P -> res P.
  Variable p_from_vector : P -> V -> res P.
  Variable p_tgt : P -> shape.

  Theorem c95_ground_truth : forall v fs ss reference group images im k tr s0 gt d fimages inits gts affs scs d' j ims shapes fr a pdm i ms i1 fi s,
    objects fs -> clear_scales ss -> nth_error images k = Some im ->
    training_images rescale_to_pointcloud feature rescale v (fun i => Ok i) fs ss reference group images = Ok tr ->
    nth_error tr j = Some ims -> Forall2 (fun i s => dict_get group (lms i) = Some s) ims shapes ->
    train_appearance sample align fr [(ims, shapes)] = Ok a ->
    dict_get group (lms im) = Some s0 ->
    prepare_image rescale_to_pointcloud feature rescale alignment_affine (mkFitter reference (map fn_eq fs) ss) (px im) s0 gt d =
      (Ok (fimages, inits, gts, affs, scs), d') ->
    nth_error fimages j = Some fi -> nth_error inits j = Some s -> reproduces p_set_target p_sync p_tgt s ->
    aam_interface mean_of p_tgt pdm a = Ok i -> itf_moves p_set_target p_sync p_from_vector p_tgt ms i = Ok i1 ->
    exists i2 w, itf_move p_set_target p_sync p_from_vector p_tgt (SetTarget s) i1 = Ok i2 /\
      itf_warp sample align i2 fi = Ok w /\ nth_error (ap_values a) k = Some (w_px w).
  Proof.
    intros v fs ss reference group images im k tr s0 gt d fimages inits gts affs scs d' j ims shapes fr a pdm i ms i1 fi s
      Hobj Hcl Him Htr Hj Hsh Ha Hs0 Hp Hfi Hs R Hi Hm.
    destruct (c88_fitted_as_trained _ _ _ _ _ _ alignment_affine rides v fs ss reference group images im k tr Hobj Hcl Him Htr
                s0 gt d fimages inits gts affs scs d' Hs0 Hp) as [_ C].
    destruct (C j ims fi Hj Hfi) as (ti & Hti & Epx & Hd). rewrite Hs in Hd.
    assert (Hk : nth_error (concat (map (fun b => combine (fst b) (snd b)) [(ims, shapes)])) k = Some (ti, s)).
    { cbn [map concat fst snd]. rewrite app_nil_r. clear -Hsh Hti Hd. revert k Hti. induction Hsh as [|x y l r H F IH]; intros [|k] Hti; try discriminate; cbn in *.
      - injection Hti as ->. rewrite Hd in H. injection H as <-. reflexivity.
      - apply IH. exact Hti. }
    destruct (c95_training_sample sample align mean_of p_set_target p_sync p_from_vector p_tgt fr _ a pdm i ms i1 k ti s Ha Hi Hm Hk R)
      as (i2 & w & H2 & Hw & Hn).
    exists i2, w. split; [exact H2|]. split; [|exact Hn]. rewrite <- Hw. unfold itf_warp, warp_to_mask, sample. rewrite Epx. reflexivity.
  Qed.
End Trained.

(** The hypotheses are met together: the demonstration images of C88 with features that halve them, at the scales 1/2 and 1. *)
Definition d_sample (w : Qc) (pts : list (Qc * Qc)) : res (Qc * list (Qc * Qc)) := Ok (w, pts).
Definition d_align (src tgt pts : shape) : res shape := Ok (tgt ++ pts).
Definition d_set (p s : shape) : res shape := Ok s.
Definition d_sync (p : shape) : res shape := Ok p.
Definition d_vec (p : shape) (v : nat) : res shape := Ok p.
Definition d_mean (l : list (Qc * shape)) : Qc * shape := nth 0 l (0%Qc, []).
Example c95_ground_truth_ex : exists tr r a,
  training_images demo_rtp demo_feature demo_rescale common_loop (fun i => Ok i)
    [mkFn 3 1; mkFn 4 1] [half; 1%Qc] dot "PTS" [photo] = Ok tr /\
  fst (prepare_image demo_rtp demo_feature demo_rescale demo_align (mkFitter dot [1; 1] [half; 1%Qc]) (Q2Qc 16) dot None []) = Ok r /\
  (forall ims, nth_error tr 0 = Some ims -> exists shapes, Forall2 (fun i s => dict_get "PTS" (lms i) = Some s) ims shapes /\
     train_appearance (sample d_sample) d_align (mkFrame dot dot) [(ims, shapes)] = Ok a) /\
  forall s, nth_error (snd (fst (fst (fst r)))) 0 = Some s -> reproduces d_set d_sync (fun p => p) s.
Proof.
  eexists _, _, _. split; [reflexivity|]. split; [reflexivity|]. split.
  - intros ims H. injection H as <-. eexists. split; [constructor; [reflexivity|constructor]|]. reflexivity.
  - intros s _. split; intros p; [eexists; split; reflexivity|]. intros ->. eexists. split; reflexivity.
Qed.
Print Assumptions c95_ground_truth.
