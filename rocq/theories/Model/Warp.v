(** What a model samples from an image at a shape, in training and in fitting: builder.py 225-309, the _warp_images /
    _warp_template methods and build_fitter_interfaces of aam/base.py, atm/base.py, aps/base.py and unified_aam_clm/base.py,
    and warp / warped_images of the interfaces (aam/algorithm/lk.py 112-152 and 504-548, aps/algorithm/gn.py 121-140 and
    229-252).  Pixel values, sampling and patch extraction (menpo) are external. *)
From Coq Require Import List Bool.
From Verif.Model Require Import Py SdAam.
Import ListNotations.

Section Warp.
  (** Images, points, the values sampled at a list of points, patch shapes. *)
  Context {Img Pt Px Ps P V : Type}.
  Notation shape := (list Pt).

  (** menpo: image.sample(points) *)
  Variable sample : Img -> list Pt -> res Px.
  (** The transform class: transform(source, target), then _apply on points (external; a piecewise affine transform raises
      for points outside its triangles). *)
  Variable align : shape -> shape -> list Pt -> res (list Pt).

  (** A reference frame (MaskedImage): the true indices of its mask, and its landmarks['source'].  Simplification: the
      mask is known by its true indices. *)
  Record frame := mkFrame { fr_mask : list Pt; fr_source : shape }.
  (** A warped image (MaskedImage): mask, values, landmarks['source'] if attached. *)
  Record warped := mkWarped { w_mask : list Pt; w_px : Px; w_source : option shape }.

  (** menpo's Image.warp_to_mask(mask, transform, warp_landmarks=False): sample at the transformed true indices. *)
  Definition warp_to_mask (im : Img) (mask : list Pt) (apply : list Pt -> res (list Pt)) : res warped :=
    let? pts := apply mask in
    let? px := sample im pts in
    Ok (mkWarped mask px None).

  (** A transform object: source and target.  set_target replaces the target (menpo's Alignment). *)
  Definition tr := (shape * shape)%type.
  Definition tr_set_target (t : tr) (s : shape) : tr := (fst t, s).
  Definition tr_apply (t : tr) : list Pt -> res (list Pt) := align (fst t) (snd t).

  (** warp_images, builder.py 258-270: one transform for all images, from the landmarks of the frame to themselves at
      first; the loop 260-269. *)
  Fixpoint warp_loop (t : tr) (fr : frame) (pairs : list (Img * shape)) : res (list warped) :=
    match pairs with
    | [] => Ok []
    | (i, s) :: r =>
        let t := tr_set_target t s in
        let? w := warp_to_mask i (fr_mask fr) (tr_apply t) in
        let w := mkWarped (w_mask w) (w_px w) (Some (fr_source fr)) in
        let? ws := warp_loop t fr r in Ok (w :: ws)
    end.
  Definition warp_images (images : list Img) (shapes : list shape) (fr : frame) : res (list warped) :=
    warp_loop (fr_source fr, fr_source fr) fr (combine images shapes).

  (** menpo: image.extract_patches(shape, patch_shape, as_single_array=True) *)
  Variable patches : Img -> shape -> Ps -> res Px.
  (** extract_patches, builder.py 303-309 *)
  Fixpoint extract_loop (patch_shape : Ps) (normalise : Px -> Px) (pairs : list (Img * shape)) : res (list Px) :=
    match pairs with
    | [] => Ok []
    | (i, s) :: r =>
        let? parts := patches i s patch_shape in
        let? ps := extract_loop patch_shape normalise r in Ok (normalise parts :: ps)
    end.
  Definition extract_patches (images : list Img) (shapes : list shape) (patch_shape : Ps) (normalise : Px -> Px) : res (list Px) :=
    extract_loop patch_shape normalise (combine images shapes).

  (** *** Appearance models.  menpo's PCAModel keeps the first sample as its template instance; mean() is the mean values in a
      copy of it, so with its mask and landmarks.  [mean_of] is the mean of the values. *)
  Variable mean_of : list Px -> Px.
  Record appearance := mkApp { ap_template : warped; ap_values : list Px }.
  (** PCAModel(warped_images): at least one sample (StopIteration is reported as ValueError here) *)
  Definition pca_new (ws : list warped) : res appearance :=
    match ws with [] => Err ValueError | w :: _ => Ok (mkApp w (map w_px ws)) end.
  (** increment keeps the template instance *)
  Definition pca_increment (a : appearance) (ws : list warped) : appearance := mkApp (ap_template a) (ap_values a ++ map w_px ws).
  Definition pca_mean (a : appearance) : warped := mkWarped (w_mask (ap_template a)) (mean_of (ap_values a)) (w_source (ap_template a)).

  (** The appearance model of one scale over the batches, aam/base.py 295-331: the frame is built from the scaled reference
      shape (403, 670-672), which is the same for all batches, or kept (linear models, one scale: 832-839). *)
  Fixpoint train_rest (fr : frame) (a : appearance) (batches : list (list Img * list shape)) : res appearance :=
    match batches with
    | [] => Ok a
    | (ims, ss) :: r => let? ws := warp_images ims ss fr in train_rest fr (pca_increment a ws) r
    end.
  Definition train_appearance (fr : frame) (batches : list (list Img * list shape)) : res appearance :=
    match batches with
    | [] => Err ValueError
    | (ims, ss) :: r => let? ws := warp_images ims ss fr in let? a := pca_new ws in train_rest fr a r
    end.

  (** *** Holistic and masked models: OrthoMDTransform over the shape model (Model/SdAam.v, transform/modeldriven.py 37-97). *)
  Variable p_set_target : P -> shape -> res P.
  Variable p_sync : P -> res P.
  Variable p_from_vector : P -> V -> res P.
  Variable p_tgt : P -> shape.
  (** A model-driven transform with the source of its warp. *)
  Record interface := mkItf { i_source : shape; i_md : @md shape P; i_template : warped }.
  (** build_fitter_interfaces, aam/base.py 518-528, unified_aam_clm/base.py 443-454 and atm/base.py 455-462: template and
      source come from the mean of the appearance model, or from the warped template.  Without landmarks['source']
      menpo raises KeyError. *)
  Definition holistic_interface (pdm : P) (template : warped) : res interface :=
    match w_source template with
    | None => Err KeyError
    | Some s => Ok (mkItf s (md_new p_tgt pdm) template)
    end.
  Definition aam_interface (pdm : P) (a : appearance) : res interface := holistic_interface pdm (pca_mean a).
  (** What an algorithm does to the transform of its interface. *)
  Inductive move := SetTarget (s : shape) | FromVector (v : V).
  Definition itf_move (m : move) (i : interface) : res interface :=
    let? d := match m with SetTarget s => md_set_target p_set_target p_sync p_tgt (i_md i) s
                         | FromVector v => md_from_vector p_from_vector p_tgt (i_md i) v end in
    Ok (mkItf (i_source i) d (i_template i)).
  Fixpoint itf_moves (ms : list move) (i : interface) : res interface :=
    match ms with [] => Ok i | m :: r => let? i' := itf_move m i in itf_moves r i' end.
  (** warp, 126-127 *)
  Definition itf_warp (i : interface) (im : Img) : res warped :=
    warp_to_mask im (w_mask (i_template i)) (tr_apply (i_source i, md_warp (i_md i))).
  (** warped_images, 148-152 *)
  Fixpoint itf_warped_images (im : Img) (shapes : list shape) (i : interface) : res (list warped * interface) :=
    match shapes with
    | [] => Ok ([], i)
    | s :: r =>
        let? i1 := itf_move (SetTarget s) i in
        let? w := itf_warp i1 im in
        let? (ws, i2) := itf_warped_images im r i1 in Ok (w :: ws, i2)
    end.

  (** *** Patch-based models: the transform is the shape model itself (aam/base.py 1207-1221, atm/base.py 1047-1059,
      aps/base.py and unified: patch shape and normalisation of the scale). *)
  Record patch_interface := mkPItf { pi_pdm : P; pi_shape : Ps; pi_normalise : Px -> Px }.
  Definition pitf_move (m : move) (i : patch_interface) : res patch_interface :=
    let? p := match m with SetTarget s => p_set_target (pi_pdm i) s | FromVector v => p_from_vector (pi_pdm i) v end in
    Ok (mkPItf p (pi_shape i) (pi_normalise i)).
  Fixpoint pitf_moves (ms : list move) (i : patch_interface) : res patch_interface :=
    match ms with [] => Ok i | m :: r => let? i' := pitf_move m i in pitf_moves r i' end.
  (** warp, 519-523; gn.py 136-140 *)
  Definition pitf_warp (i : patch_interface) (im : Img) : res Px :=
    let? parts := patches im (p_tgt (pi_pdm i)) (pi_shape i) in Ok (pi_normalise i parts).
  (** warped_images, 544-548; gn.py 248-252 *)
  Fixpoint pitf_warped_images (im : Img) (shapes : list shape) (i : patch_interface) : res (list Px * patch_interface) :=
    match shapes with
    | [] => Ok ([], i)
    | s :: r =>
        let? i1 := pitf_move (SetTarget s) i in
        let? w := pitf_warp i1 im in
        let? (ws, i2) := pitf_warped_images im r i1 in Ok (w :: ws, i2)
    end.

  (** *** Linear models: the transform is a LinearOrthoMDTransform (Model/Densify.v); here [p_tgt] is its dense target, the
      landmarks followed by the pixels, and _apply (modeldriven.py 594-595) ignores its argument. *)
  Record linear_interface := mkLItf { li_pdm : P; li_n : nat; li_template : warped }.
  (** aam/base.py 864-873, 1043-1052, atm/base.py 741-747, 905-911; n_landmarks is that of the reference shape. *)
  Definition linear_interface_of (pdm : P) (reference : shape) (template : warped) : linear_interface :=
    mkLItf pdm (length reference) template.
  Definition litf_move (m : move) (i : linear_interface) : res linear_interface :=
    let? p := match m with SetTarget s => p_set_target (li_pdm i) s | FromVector v => p_from_vector (li_pdm i) v end in
    Ok (mkLItf p (li_n i) (li_template i)).
  Fixpoint litf_moves (ms : list move) (i : linear_interface) : res linear_interface :=
    match ms with [] => Ok i | m :: r => let? i' := litf_move m i in litf_moves r i' end.
  Definition litf_warp (i : linear_interface) (im : Img) : res warped :=
    warp_to_mask im (w_mask (li_template i)) (fun _ => Ok (skipn (li_n i) (p_tgt (li_pdm i)))).
End Warp.
