(** The images the models of each scale are trained on: the beginning of the loops of _train_batch in
    menpofit/{aam,clm,aps,unified_aam_clm,atm}/base.py and {sdm,dlib}/fitter.py, with builder.py 59-90 and
    139-222.  Images are those of Model/Fitter.v.  Simplification: landmarks that the SDM and dlib training
    loops attach to images between scales (Model/Perturb.v) are left out, and exceptions are those of the
    first failing image. *)
From Coq Require Import String List ZArith QArith Qcanon Qcabs Bool.
From Verif.Model Require Import Py Dict Affine Result Fitter.
Import ListNotations.
Local Open Scope nat_scope.

(** A feature function: its identity (compared by [is]) and its equality class (compared by [==]; equal
    callables are taken to compute the same). *)
Record callable := mkFn { fn_id : nat; fn_eq : nat }.
(** menpo.feature.no_op *)
Definition no_op_eq : nat := 0.

Section TrainImages.
  Context {Px : Type}.
  Notation image := (@image Px).
  Variable rescale_to_pointcloud : image -> shape -> string -> res image.
  Variable feature : nat -> image -> res image.
  Variable rescale : image -> Qc -> res (image * aff).

  (** np.allclose(scale, 1): |scale - 1| <= 1e-8 + 1e-5 * 1. *)
  Definition close_to_one (s : Qc) : bool :=
    if Qclt_le_dec (Q2Qc (1 # 100000000) + Q2Qc (1 # 100000)) (Qcabs (s - 1)) then false else true.

  (** rescale_images_to_reference_shape, builder.py 84-90 *)
  Definition rescale_images_to_reference_shape (images : list image) (group : string) (reference : shape)
    : res (list image) :=
    mapM (fun i => rescale_to_pointcloud i reference group) images.
  (** compute_features, builder.py 160-164 *)
  Definition compute_features (images : list image) (f : callable) : res (list image) :=
    mapM (feature (fn_eq f)) images.
  (** scale_images, builder.py 197-222 *)
  Definition scale_images (images : list image) (s : Qc) : res (list image) :=
    if negb (close_to_one s) then mapM (fun i => let? r := rescale i s in Ok (fst r)) images else Ok images.

  (** Where the loops of the classes differ. *)
  Record variant := mkVariant {
    skips_no_op : bool;       (* [if j == 0 and self.holistic_features[j] == no_op] *)
    by_identity : bool;       (* [is not] rather than [!=] between consecutive features *)
    guards_scale : bool }.    (* [if self.scales[j] != 1] before scale_images *)
  (** aam/base.py 256-279, clm/base.py 247-269, aps/base.py 281-303, unified_aam_clm/base.py 234-256 *)
  Definition common_loop := mkVariant true true true.
  (** atm/base.py 235-255 *)
  Definition atm_loop := mkVariant false true true.
  (** sdm/fitter.py 267-288 *)
  Definition sdm_loop := mkVariant true false false.

  Definition same_features (v : variant) (f f' : callable) : bool :=
    if by_identity v then fn_id f =? fn_id f' else fn_eq f =? fn_eq f'.

  (** The loop over the scales: the images of each scale.  [prev] is None at the first scale. *)
  Fixpoint scale_loop (v : variant) (fs : list callable) (ss : list Qc) (batch : list image)
           (prev : option (callable * list image)) : res (list (list image)) :=
    match fs, ss with
    | [], [] => Ok []
    | f :: fs', s :: ss' =>
        let? feature_images :=
          match prev with
          | None => if skips_no_op v && (fn_eq f =? no_op_eq) then Ok batch else compute_features batch f
          | Some (f', ims) => if same_features v f f' then Ok ims else compute_features batch f
          end in
        let? scaled_images :=
          if guards_scale v && Qc_eq_bool s 1 then Ok feature_images else scale_images feature_images s in
        let? rest := scale_loop v fs' ss' batch (Some (f, feature_images)) in
        Ok (scaled_images :: rest)
    | _, _ => Err IndexError
    end.

  (** The images per scale of a batch: aam/base.py 235-279 and the like; [smooth] is what
      unified_aam_clm/base.py 214-215 applies when sigma is given (fsmooth), the identity otherwise. *)
  Definition training_images (v : variant) (smooth : image -> res image) (fs : list callable) (ss : list Qc)
             (reference : shape) (group : string) (images : list image) : res (list (list image)) :=
    let? batch := rescale_images_to_reference_shape images group reference in
    let? batch := mapM smooth batch in
    scale_loop v fs ss batch None.

  (** dlib/fitter.py 284-326: the image is rescaled by its ground truth bounding box; no features. *)
  Definition dlib_training_images (ss : list Qc) (reference : shape) (bb_group : string) (images : list image)
    : res (list (list image)) :=
    let? batch := rescale_images_to_reference_shape images bb_group reference in
    mapM (scale_images batch) ss.
End TrainImages.
