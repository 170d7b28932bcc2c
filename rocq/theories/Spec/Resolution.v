(** The same picture at another resolution: every coordinate is multiplied by one factor. *)
From Coq Require Import String List ZArith QArith Qcanon.
From Verif.Model Require Import Py Dict Affine Result Fitter.
Import ListNotations.
Local Open Scope nat_scope.

Definition enlarge (c : Qc) (s : shape) : shape := map (fun p => (c * fst p, c * snd p)%Qc) s.
(** All the landmarks of an image. *)
Definition enlarge_all (c : Qc) (d : dict shape) : dict shape := map (fun kv => (fst kv, enlarge c (snd kv))) d.

(** [p'] shows what [p] shows, [c] times as large: brought to any given size the two are the same image. *)
Definition same_picture {Px} (rescale_to_pointcloud : image Px -> shape -> string -> res (image Px)) (c : Qc) (p p' : Px) : Prop :=
  forall d reference group,
    rescale_to_pointcloud (mkImage p' (enlarge_all c d)) reference group = rescale_to_pointcloud (mkImage p d) reference group.

(** An affine map followed by the enlargement. *)
Definition enlarge_map (c : Qc) (t : aff) : aff :=
  mkAff (c * fa t) (c * fb t) (c * fc t) (c * fd t) (c * ftx t) (c * fty t).
(** What is assumed of menpo: the least squares affine map to an enlarged shape is the one to the shape, enlarged; rescaling
    an image returns a map that fixes the origin. *)
Definition aligns_to_enlarged (alignment_affine : shape -> shape -> res aff) (c : Qc) : Prop :=
  forall s t, alignment_affine s (enlarge c t) = match alignment_affine s t with Ok a => Ok (enlarge_map c a) | Err e => Err e end.
Definition rescales_about_origin {Px} (rescale : image Px -> Qc -> res (image Px * aff)) : Prop :=
  forall im q im' t, rescale im q = Ok (im', t) -> ftx t = 0%Qc /\ fty t = 0%Qc.

(** The same result in the coordinates of the enlarged image: parameters, costs and numbers of iterations stay. *)
Definition enlarge_iresult {P A C} (c : Qc) (r : iresult shape P A C) : iresult shape P A C :=
  mkResult (enlarge c (r_final r)) (option_map (enlarge c) (r_initial r)) (option_map (enlarge c) (r_gt r))
    (map (enlarge c) (r_shapes r)) (r_n_iters r) (r_costs r) (r_params r) (r_app r).
Definition enlarge_result {P A C} (c : Qc) (m : mresult shape P A C) : mresult shape P A C :=
  mkMulti (enlarge_iresult c (m_res m)) (m_n_iters_per_scale m) (m_n_scales m).
Definition enlarged_outcome {P A C} (c : Qc) (o : res (mresult shape P A C) * dict shape) : res (mresult shape P A C) * dict shape :=
  (match fst o with Ok m => Ok (enlarge_result c m) | Err e => Err e end, enlarge_all c (snd o)).

(** A result class that only looks at shapes through the maps to the user's image. *)
Definition follows_enlarging {P A C} (build : list (iresult shape P A C) -> nat -> list (shape -> shape) ->
    list (shape -> shape) -> option shape -> res (mresult shape P A C)) : Prop :=
  forall c rs n affs affs' scs gt, Forall2 (fun a a' => forall s, a' s = enlarge c (a s)) affs affs' ->
    build rs n affs' scs (option_map (enlarge c) gt) =
    match build rs n affs scs gt with Ok m => Ok (enlarge_result c m) | Err e => Err e end.
