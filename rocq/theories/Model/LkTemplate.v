(** A Lucas-Kanade fitter and its template: menpofit/lk/fitter.py 85-158 with lk/algorithm.py 104-161, 236-288 and
    368-413.  Images, the preparation of images and the multi-scale fit are those of Model/Fitter.v; the loop is that of
    Model/RunLoop.v.  Simplifications: the template's mask covers the whole template (as_masked), so that a template is its
    pixels; the numbers [cost] of a turn do not raise. *)
From Coq Require Import String List ZArith QArith Qcanon Bool.
From Verif.Model Require Import Py Dict Affine Result Checks Fitter RunLoop.
Import ListNotations.
Local Open Scope nat_scope.

Section LkTemplate.
  Context {Px P A C T V : Type}.
  Variable rescale_to_pointcloud : image Px -> shape -> string -> res (image Px).
  Variable feature : nat -> image Px -> res (image Px).
  Variable rescale : image Px -> Qc -> res (image Px * aff).
  Variable alignment_affine : shape -> shape -> res aff.
  (** Image.rescale_landmarks_to_diagonal_range(diagonal, group) *)
  Variable to_diagonal : image Px -> Qc -> string -> res (image Px).
  (** transform_cls(source, target), set_target, target and as_vector *)
  Variable new_transform : shape -> shape -> res T.
  Variable set_target : T -> shape -> res T.
  Variable target : T -> shape.
  Variable as_vector : T -> P.
  (** image.warp_to_mask(template.mask, transform) *)
  Variable warp : image Px -> Px -> T -> res Px.
  (** The increment computed from the template, the image, the transform and the warped image
      (Model/Residual.v: additive_step, compositional_step, inverse_step). *)
  Variable increment : Px -> image Px -> T -> Px -> res V.
  Variable cost : Px -> image Px -> T -> C.
  (** from_vector_inplace(as_vector() + dp), or compose_after_from_vector_inplace *)
  Variable update : T -> V -> res T.
  (** norm(dp) > self.eps *)
  Variable exceeds : V -> bool.

  (** One turn: lk/algorithm.py 118-155, 251-282, 377-407. *)
  Definition lk_step (tpl : Px) (im : image Px) (t : T) : res (T * V) :=
    let? w := warp im tpl t in
    let? dp := increment tpl im t w in
    let? t' := update t dp in
    Ok (t', dp).

  (** run: lk/algorithm.py 104-161, 236-288, 368-413. *)
  Definition lk_algorithm (tpl : Px) (tr : T) (im : image Px) (initial : shape) (gt : option shape)
             (max_iters : Z) (return_costs : bool) : res (iresult shape P A C) :=
    let? t0 := set_target tr initial in
    let? (p_list, shapes, costs) :=
      lk_run (lk_step tpl im) exceeds as_vector target (cost tpl im) max_iters return_costs t0 in
    parametric_result shapes p_list None (Some initial) gt costs.

  Record lk_fitter := mkLk {
    lk_base : fitter;
    lk_templates : list (image Px);
    lk_sources : list shape;
    lk_transforms : list T }.

  (** LucasKanadeFitter.__init__, lk/fitter.py 85-127; [fs] and [ss] have passed the checks of 90-93 ([diagonal] is
      positive there, so that [if self.diagonal] is [is not None]). *)
  Definition lk_init (template : image Px) (group : string) (fs : list nat) (diagonal : option Qc) (ss : list Qc)
    : res lk_fitter :=
    let? template := match diagonal with
                     | Some q => to_diagonal template q group
                     | None => Ok template
                     end in
    let? reference := dict_at group (lms template) in
    let F := mkFitter reference fs ss in
    let? (templates, _, gts, _, _) :=
      fst (prepare_image rescale_to_pointcloud feature rescale alignment_affine F
                         (px template) reference (Some reference) (lms template)) in
    match gts with
    | Some sources =>
        let? transforms := mapM (fun s => new_transform s s) sources in
        Ok (mkLk F templates sources transforms)
    | None => Err TypeError
    end.

  (** self.algorithms[i], lk/fitter.py 117-121 *)
  Definition lk_algorithms (L : lk_fitter) (i : nat) (im : image Px) (initial : shape) (gt : option shape)
             (max_iters : Z) (return_costs : bool) : res (iresult shape P A C) :=
    match nth_error (lk_templates L) i, nth_error (lk_transforms L) i with
    | Some t, Some tr => lk_algorithm (px t) tr im initial gt max_iters return_costs
    | _, _ => Err IndexError
    end.

  (** fit_from_shape of the fitter (fitter.py 548-609 with lk/fitter.py 129-158). *)
  Definition lk_fit (L : lk_fitter) (user_px : Px) (initial : shape) (max_iters : pyval) (gt : option shape)
             (return_costs : bool) : M (mresult shape P A C) :=
    fit_from_shape rescale_to_pointcloud feature rescale alignment_affine (lk_algorithms L) lucas_kanade_result
                   (lk_base L) user_px initial max_iters gt return_costs.
End LkTemplate.
Arguments lk_fitter : clear implicits.
