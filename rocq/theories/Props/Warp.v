(** C95: what a model sees of an image at a shape is the same in training and in fitting. *)
From Coq Require Import List ZArith Lia.
From Verif.Model Require Import Py SdAam Warp.
From Verif.Spec Require Import Warp.
From Verif.Proofs Require Import Warp.
Import ListNotations.

Section C95.
  Context {Img Pt Px Ps P V : Type}.
  Notation shape := (list Pt).
  Variable sample : Img -> list Pt -> res Px.
  Variable align : shape -> shape -> list Pt -> res (list Pt).
  Variable patches : Img -> shape -> Ps -> res Px.
  Variable mean_of : list Px -> Px.
  Variable p_set_target : P -> shape -> res P.
  Variable p_sync : P -> res P.
  Variable p_from_vector : P -> V -> res P.
  Variable p_tgt : P -> shape.
  Notation moves := (itf_moves p_set_target p_sync p_from_vector p_tgt).
  Notation step := (itf_move p_set_target p_sync p_from_vector p_tgt).

  (** Training, over any batches: the appearance model consumes, image by image, what is seen of the image at its own shape;
      nothing carries over from one image to the next. *)
  Theorem c95_training : forall fr batches a,
    train_appearance sample align fr batches = Ok a ->
    Forall2 (fun q v => seen_at sample align fr (fst q) (snd q) v)
      (concat (map (fun b => combine (fst b) (snd b)) batches)) (ap_values a).
  Proof. intros fr batches a H. apply (train_good sample align fr batches a H). Qed.

  (** Fitting: whatever was done to the transform of the interface before, its warp sees the image at the current target of the
      transform, on the frame of the training. *)
  Theorem c95_current : forall fr batches a pdm,
    train_appearance sample align fr batches = Ok a ->
    exists i, aam_interface mean_of p_tgt pdm a = Ok i /\
    forall ms i', moves ms i = Ok i' ->
    forall im v, (exists w, itf_warp sample align i' im = Ok w /\ w_px w = v) <->
                 seen_at sample align fr im (md_tgt p_tgt (i_md i')) v.
  Proof.
    intros fr batches a pdm H. destruct (train_good sample align fr batches a H) as [[M Sr] _].
    unfold aam_interface, holistic_interface, pca_mean. cbn [w_source]. rewrite Sr. eexists. split; [reflexivity|].
    intros ms i' Hm im v. apply warp_synced. eapply moves_synced; [|exact Hm]. split; [reflexivity|]. split; [exact M|reflexivity].
  Qed.

  (** So a training image at its own shape, where the shape model reproduces it, gives the training sample again. *)
  Theorem c95_training_sample : forall fr batches a pdm i ms i1 k im s,
    train_appearance sample align fr batches = Ok a -> aam_interface mean_of p_tgt pdm a = Ok i -> moves ms i = Ok i1 ->
    nth_error (concat (map (fun b => combine (fst b) (snd b)) batches)) k = Some (im, s) ->
    reproduces p_set_target p_sync p_tgt s ->
    exists i2 w, step (SetTarget s) i1 = Ok i2 /\ itf_warp sample align i2 im = Ok w /\ nth_error (ap_values a) k = Some (w_px w).
  Proof.
    intros fr batches a pdm i ms i1 k im s H Hi Hm Hk R.
    destruct (c95_current fr batches a pdm H) as (i0 & Hi0 & C). rewrite Hi in Hi0. injection Hi0 as <-.
    destruct (F2_nth _ _ _ _ _ (c95_training fr batches a H) Hk) as (v & Hv & Sv). cbn in Sv.
    destruct (reproduced p_set_target p_sync p_from_vector p_tgt s i1 R) as (i2 & H2 & T2).
    assert (Hm2 : moves (ms ++ [SetTarget s]) i = Ok i2).
    { clear -Hm H2. revert i Hm. induction ms as [|m ms IH]; intros i Hm; cbn [itf_moves app] in *.
      - injection Hm as ->. rewrite H2. reflexivity.
      - apply bind_ok in Hm. destruct Hm as (i' & -> & Hm). cbn [bind]. apply IH. exact Hm. }
    destruct (C _ _ Hm2 im v) as [_ C2]. rewrite T2 in C2. destruct (C2 Sv) as (w & Hw & Ew). exists i2, w. subst v. auto.
  Qed.

  (** The template of a template model: the same image at the same shape gives the template again, so a residual of zero. *)
  Theorem c95_template : forall fr t s wt pdm,
    warp_images sample align [t] [s] fr = Ok [wt] -> reproduces p_set_target p_sync p_tgt s ->
    exists i, holistic_interface p_tgt pdm wt = Ok i /\ i_template i = wt /\
    forall ms i1, moves ms i = Ok i1 ->
    exists i2 w, step (SetTarget s) i1 = Ok i2 /\ itf_warp sample align i2 t = Ok w /\ w_px w = w_px wt /\ w_mask w = w_mask wt.
  Proof.
    intros fr t s wt pdm H R. apply loop_ok in H; [|reflexivity]. inversion H as [|? ? ? ? [Sv [M Sr]] _]; subst. cbn [fst snd] in Sv.
    unfold holistic_interface. rewrite Sr. eexists. split; [reflexivity|]. split; [reflexivity|]. intros ms i1 Hm.
    assert (S1 : synced p_tgt fr i1) by (eapply moves_synced; [|exact Hm]; split; [reflexivity|split; [exact M|reflexivity]]).
    destruct (reproduced p_set_target p_sync p_from_vector p_tgt s i1 R) as (i2 & H2 & T2).
    pose proof (step_synced _ _ _ _ fr _ _ _ S1 H2) as S2.
    destruct (proj2 (warp_synced sample align p_tgt fr i2 t (w_px wt) S2)) as (w & Hw & Ew).
    { rewrite T2. exact Sv. }
    exists i2, w. split; [exact H2|]. split; [exact Hw|]. split; [exact Ew|]. apply to_mask in Hw. destruct Hw as (_ & _ & _ & -> & _).
    destruct S2 as (_ & -> & _). symmetry. exact M.
  Qed.

  (** warped_images, used to show a fit: one image per shape, each what is seen at that shape. *)
  Theorem c95_warped_images : forall fr i im shapes ws i',
    i_source i = fr_source fr -> w_mask (i_template i) = fr_mask fr -> md_warp (i_md i) = md_tgt p_tgt (i_md i) ->
    Forall (reproduces p_set_target p_sync p_tgt) shapes ->
    itf_warped_images sample align p_set_target p_sync p_from_vector p_tgt im shapes i = Ok (ws, i') ->
    Forall2 (fun s w => seen_at sample align fr im s (w_px w)) shapes ws.
  Proof.
    intros fr i im shapes ws i' A B C. assert (S0 : synced p_tgt fr i) by (split; auto). clear A B C. revert i ws i' S0.
    induction shapes as [|s r IH]; intros i ws i' S0 F H; cbn [itf_warped_images] in H.
    - injection H as <- _. constructor.
    - inversion F as [|? ? R F']; subst. apply bind_ok in H. destruct H as (i1 & H1 & H). apply bind_ok in H. destruct H as (w & Hw & H).
      apply bind_ok in H. destruct H as ([ws2 i2] & H2 & H). injection H as <- <-.
      destruct (reproduced p_set_target p_sync p_from_vector p_tgt s i R) as (i1' & H1' & T). rewrite H1 in H1'. injection H1' as <-.
      pose proof (step_synced _ _ _ _ fr _ _ _ S0 H1) as S1. constructor; [|eapply IH; eauto].
      rewrite <- T. apply (warp_synced sample align p_tgt fr i1 im (w_px w) S1). eauto.
  Qed.

  (** Patch-based models. *)
  Theorem c95_patch_training : forall ps f images shapes vs,
    extract_patches patches images shapes ps f = Ok vs ->
    Forall2 (fun q v => patches_at patches ps f (fst q) (snd q) v) (combine images shapes) vs.
  Proof.
    intros ps f images shapes. unfold extract_patches. generalize (combine images shapes). intros l.
    induction l as [|[i s] l IH]; intros vs H; cbn [extract_loop] in H; [injection H as <-; constructor|].
    apply bind_ok in H. destruct H as (parts & Hp & H). apply bind_ok in H. destruct H as (r & Hr & H). injection H as <-.
    constructor; [exists parts; auto|apply IH; exact Hr].
  Qed.
  Theorem c95_patch_fitting : forall ps f pdm ms i im v,
    pitf_moves p_set_target p_from_vector ms (mkPItf pdm ps f) = Ok i ->
    (pitf_warp patches p_tgt i im = Ok v <-> patches_at patches ps f im (p_tgt (pi_pdm i)) v).
  Proof.
    intros ps f pdm ms i im v H.
    assert (K : pi_shape i = ps /\ pi_normalise i = f).
    { assert (G : forall ms i0 i, pitf_moves p_set_target p_from_vector ms i0 = Ok i -> pi_shape i = @pi_shape Px Ps P i0 /\ pi_normalise i = pi_normalise i0).
      { clear. induction ms as [|m ms IH]; intros i0 i H; cbn [pitf_moves] in H; [injection H as <-; auto|].
        apply bind_ok in H. destruct H as (i1 & H1 & H). unfold pitf_move in H1. apply bind_ok in H1. destruct H1 as (p & _ & H1). injection H1 as <-.
        apply IH in H. exact H. }
      apply G in H. exact H. }
    destruct K as [K1 K2]. unfold pitf_warp, patches_at. rewrite K1, K2. split.
    - intros E. apply bind_ok in E. destruct E as (parts & E1 & E2). injection E2 as <-. eauto.
    - intros (parts & -> & ->). reflexivity.
  Qed.
  Theorem c95_patch_sample : forall ps f images shapes vs pdm ms i k im s,
    extract_patches patches images shapes ps f = Ok vs -> nth_error (combine images shapes) k = Some (im, s) ->
    pitf_moves p_set_target p_from_vector ms (mkPItf pdm ps f) = Ok i -> reproduces p_set_target p_sync p_tgt s ->
    exists i' v, pitf_move p_set_target p_from_vector (SetTarget s) i = Ok i' /\ pitf_warp patches p_tgt i' im = Ok v /\
      nth_error vs k = Some v.
  Proof.
    intros ps f images shapes vs pdm ms i k im s H Hk Hm [R _].
    destruct (F2_nth _ _ _ _ _ (c95_patch_training ps f images shapes vs H) Hk) as (v & Hv & Sv). cbn in Sv.
    destruct (R (pi_pdm i)) as (p' & Hp & T).
    assert (H2 : pitf_move p_set_target p_from_vector (SetTarget s) i = Ok (mkPItf p' (pi_shape i) (pi_normalise i))) by (unfold pitf_move; rewrite Hp; reflexivity).
    exists (mkPItf p' (pi_shape i) (pi_normalise i)), v. split; [exact H2|]. split; [|exact Hv].
    assert (Hm2 : pitf_moves p_set_target p_from_vector (ms ++ [SetTarget s]) (mkPItf pdm ps f) = Ok (mkPItf p' (pi_shape i) (pi_normalise i))).
    { clear -Hm H2. revert Hm. generalize (mkPItf pdm ps f). induction ms as [|m ms IH]; intros i0 Hm; cbn [pitf_moves app] in *.
      - injection Hm as ->. rewrite H2. reflexivity.
      - apply bind_ok in Hm. destruct Hm as (i' & -> & Hm). cbn [bind]. apply IH. exact Hm. }
    apply (c95_patch_fitting ps f pdm _ _ im v Hm2). cbn [pi_pdm]. rewrite T. exact Sv.
  Qed.

  (** warped_images of a patch-based model: the patches at each shape in turn. *)
  Theorem c95_patch_warped_images : forall ps f im shapes pdm ws i',
    Forall (reproduces p_set_target p_sync p_tgt) shapes ->
    pitf_warped_images patches p_set_target p_from_vector p_tgt im shapes (mkPItf pdm ps f) = Ok (ws, i') ->
    Forall2 (fun s w => patches_at patches ps f im s w) shapes ws.
  Proof.
    intros ps f im shapes. induction shapes as [|s r IH]; intros pdm ws i' F H; cbn [pitf_warped_images] in H.
    - injection H as <- _. constructor.
    - inversion F as [|? ? R F']; subst. apply bind_ok in H. destruct H as (i1 & H1 & H). apply bind_ok in H. destruct H as (w & Hw & H).
      apply bind_ok in H. destruct H as ([ws2 i2] & H2 & H). injection H as <- <-.
      unfold pitf_move in H1. apply bind_ok in H1. destruct H1 as (p & Hp & H1). cbn [pi_pdm pi_shape pi_normalise] in *. injection H1 as <-.
      destruct R as [R _]. destruct (R pdm) as (p' & Hp' & T). rewrite Hp in Hp'. injection Hp' as <-.
      constructor; [|eapply IH; eauto].
      unfold pitf_warp in Hw. cbn [pi_pdm pi_shape pi_normalise] in Hw. rewrite T in Hw. apply bind_ok in Hw. destruct Hw as (q & Hq & Hw).
      injection Hw as <-. exists q. auto.
  Qed.

  (** Linear models (one scale): the transform carries the pixels in its target; where the dense shape model reproduces the
      landmarks and the pixels, the interface sees what training saw. *)
  Theorem c95_linear_sample : forall fr batches a pdm reference ms i k im s,
    train_appearance sample align fr batches = Ok a -> length reference = length s ->
    nth_error (concat (map (fun b => combine (fst b) (snd b)) batches)) k = Some (im, s) ->
    litf_moves p_set_target p_from_vector ms (linear_interface_of pdm reference (pca_mean mean_of a)) = Ok i ->
    reproduces_dense align p_set_target p_tgt fr s ->
    exists i' w, litf_move p_set_target p_from_vector (SetTarget s) i = Ok i' /\ litf_warp sample p_tgt i' im = Ok w /\
      nth_error (ap_values a) k = Some (w_px w).
  Proof.
    intros fr batches a pdm reference ms i k im s H L Hk Hm R.
    destruct (F2_nth _ _ _ _ _ (c95_training fr batches a H) Hk) as (v & Hv & (pts & Sa & Ss)). cbn in Sa, Ss.
    assert (K : li_n i = length reference).
    { assert (G : forall ms i0 i, litf_moves p_set_target p_from_vector ms i0 = Ok i -> li_n i = @li_n Pt Px P i0).
      { clear. induction ms as [|m ms IH]; intros i0 i H; cbn [litf_moves] in H; [injection H as <-; auto|].
        apply bind_ok in H. destruct H as (i1 & H1 & H). unfold litf_move in H1. apply bind_ok in H1. destruct H1 as (p & _ & H1). injection H1 as <-.
        apply IH in H. exact H. }
      apply G in Hm. exact Hm. }
    destruct (R pts Sa (li_pdm i)) as (p' & Hp & T).
    exists (mkLItf p' (li_n i) (li_template i)). eexists. split; [unfold litf_move; rewrite Hp; reflexivity|].
    split.
    - unfold litf_warp, warp_to_mask. cbn [li_n li_pdm li_template bind]. rewrite T, K, L, skipn_app, skipn_all, Nat.sub_diag. cbn [skipn app].
      rewrite Ss. reflexivity.
    - exact Hv.
  Qed.
End C95.

(** A world: images are functions on the integers, a shape is a list of integers, the warp moves the frame by the displacement
    of the first landmark, and the shape model reproduces every shape of two landmarks. *)
Definition w_sample (im : Z -> Z) (pts : list Z) : res (list Z) := Ok (map im pts).
Definition w_align (src tgt pts : list Z) : res (list Z) :=
  match src, tgt with a :: _, b :: _ => Ok (map (fun x => x + (b - a))%Z pts) | _, _ => Err ValueError end.
Definition w_set (p s : list Z) : res (list Z) := Ok s.
Definition w_sync (p : list Z) : res (list Z) := Ok p.
Definition w_vec (p : list Z) (v : Z) : res (list Z) := Ok (map (Z.add v) p).
Definition w_frame := mkFrame [0; 1; 2]%Z [0; 2]%Z.
Definition w_square (x : Z) := (x * x)%Z.
Example c95_world : exists a,
  train_appearance w_sample w_align w_frame [([w_square; Z.opp], [[3; 5]; [1; 4]])]%Z = Ok a /\
  ap_values a = [[9; 16; 25]; [-1; -2; -3]]%Z /\
  reproduces w_set w_sync (fun p => p) [3; 5]%Z /\
  exists i i1 i2 w,
    aam_interface (@concat Z) (fun p => p) [7; 7]%Z a = Ok i /\
    itf_moves w_set w_sync w_vec (fun p => p) [FromVector 4%Z; SetTarget [8; 9]%Z] i = Ok i1 /\
    itf_move w_set w_sync w_vec (fun p => p) (SetTarget [3; 5]%Z) i1 = Ok i2 /\
    itf_warp w_sample w_align i2 w_square = Ok w /\ w_px w = [9; 16; 25]%Z.
Proof.
  eexists. split; [reflexivity|]. split; [reflexivity|]. split.
  - split; intros p; [eexists; split; reflexivity|]. intros ->. eexists. split; reflexivity.
  - eexists _, _, _, _. split; [reflexivity|]. split; [reflexivity|]. split; [reflexivity|]. split; reflexivity.
Qed.
(** A linear world: the model keeps the landmarks and the pixels they carry. *)
Definition l_set (p s : list Z) : res (list Z) := let? pts := w_align [0; 2]%Z s [0; 1; 2]%Z in Ok (s ++ pts).
Example c95_linear_world : exists a,
  train_appearance w_sample w_align w_frame [([w_square; Z.opp], [[3; 5]; [1; 4]])]%Z = Ok a /\
  reproduces_dense w_align l_set (fun p => p) w_frame [3; 5]%Z /\
  exists i i1 w,
    litf_moves l_set w_vec [FromVector 4%Z] (linear_interface_of [] [0; 0]%Z (pca_mean (@concat Z) a)) = Ok i /\
    litf_move l_set w_vec (SetTarget [3; 5]%Z) i = Ok i1 /\
    litf_warp w_sample (fun p => p) i1 w_square = Ok w /\ w_px w = [9; 16; 25]%Z.
Proof.
  eexists. split; [reflexivity|]. split.
  - intros pts H p. injection H as <-. eexists. split; reflexivity.
  - eexists _, _, _. split; [reflexivity|]. split; [reflexivity|]. split; reflexivity.
Qed.

Print Assumptions c95_training.
Print Assumptions c95_current.
Print Assumptions c95_training_sample.
Print Assumptions c95_template.
Print Assumptions c95_warped_images.
Print Assumptions c95_patch_training.
Print Assumptions c95_patch_fitting.
Print Assumptions c95_patch_sample.
Print Assumptions c95_patch_warped_images.
Print Assumptions c95_linear_sample.
