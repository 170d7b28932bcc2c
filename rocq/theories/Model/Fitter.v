(** Multi-scale fitting: menpofit/fitter.py 298-651 (_prepare_image, _fit, fit_from_shape).

    The user's image is what can be changed by a call; its landmark groups are the state.  Images made by
    menpo on the way are values: their pixels are opaque, their landmarks a dictionary.  Resizing, feature
    functions, alignments and the per-scale algorithms are external and may raise. *)
From Coq Require Import String List ZArith QArith Qcanon Bool.
From Verif.Model Require Import Py Dict Affine Result Checks.
Import ListNotations.
Local Open Scope nat_scope.

Section Fitter.
  Context {Px P A C : Type}.

  Record image := mkImage { px : Px; lms : dict shape }.

  (** Image.rescale_to_pointcloud(reference_shape, group) *)
  Variable rescale_to_pointcloud : image -> shape -> string -> res image.
  (** Feature functions; two of them are equal in Python exactly when their numbers are. *)
  Variable feature : nat -> image -> res image.
  (** Image.rescale(scale, return_transform=True) *)
  Variable rescale : image -> Qc -> res (image * aff).
  (** AlignmentAffine(source, target) *)
  Variable alignment_affine : shape -> shape -> res aff.
  (** algorithms[i].run(image, initial_shape, gt_shape, max_iters, return_costs) *)
  Variable algorithm : nat -> image -> shape -> option shape -> Z -> bool -> res (iresult shape P A C).

  (** The fitter (fitter.py 252-296). *)
  Record fitter := mkFitter {
    reference_shape : shape;
    holistic_features : list nat;
    scales : list Qc }.

  (** A call that may raise, and the landmarks of the user's image after it. *)
  Definition M (X : Type) := dict shape -> res X * dict shape.
  Definition ret {X} (x : res X) : M X := fun d => (x, d).
  Definition andThen {X Y} (m : M X) (f : X -> M Y) : M Y :=
    fun d => match m d with (Ok x, d') => f x d' | (Err e, d') => (Err e, d') end.
  Notation "'do' x <- a ; b" := (andThen a (fun x => b)) (at level 200, x pattern, a at level 100, b at level 200).

  Definition set_lm (k : string) (s : shape) : M unit := fun d => (Ok tt, dict_set k s d).
  Definition del_lm (k : string) : M unit :=
    fun d => match dict_del k d with Ok d' => (Ok tt, d') | Err e => (Err e, d) end.

  Definition initial_group : string := "__initial_shape".
  Definition gt_group : string := "__gt_shape".

  (** The loop of lines 353-394; returns images, affine transforms and scale transforms. *)
  Fixpoint prepare_scales (fs : list nat) (ss : list Qc) (tmp_image : image) (initial_shape : shape)
           (prev : option (nat * image * aff)) : res (list (image * aff * aff)) :=
    match fs, ss with
    | [], [] => Ok []
    | f :: fs', s :: ss' =>
        let? (feature_image, affine, first) :=
          match prev with
          | Some (f', im, a0) =>
              if negb (f =? f')
              then let? im' := feature f tmp_image in
                   let? l := dict_at initial_group (lms im') in
                   let? a := alignment_affine l initial_shape in Ok (im', a, a0)
              else Ok (im, a0, a0)
          | None => let? im' := feature f tmp_image in
                    let? l := dict_at initial_group (lms im') in
                    let? a := alignment_affine l initial_shape in Ok (im', a, a)
          end in
        let? (scaled, st) :=
          if negb (Qc_eq_bool s 1) then rescale feature_image s else Ok (feature_image, scale_aff 1) in
        let? rest := prepare_scales fs' ss' tmp_image initial_shape (Some (f, feature_image, first)) in
        Ok ((scaled, affine, st) :: rest)
    | _, _ => Err IndexError
    end.

  (** _prepare_image, fitter.py 298-411.  [user_px] are the pixels of the user's image. *)
  Definition prepare_image (F : fitter) (user_px : Px) (initial_shape : shape) (gt_shape : option shape)
    : M (list image * list shape * option (list shape) * list aff * list aff) :=
    do _ <- set_lm initial_group initial_shape;
    do _ <- (match gt_shape with Some g => set_lm gt_group g | None => ret (Ok tt) end);
    do l <- (fun d =>
      (let? tmp_image := rescale_to_pointcloud (mkImage user_px d) (reference_shape F) initial_group in
       prepare_scales (holistic_features F) (scales F) tmp_image initial_shape None, d));
    let images := map (fun x => fst (fst x)) l in
    do initial_shapes <- ret (mapM (fun i => dict_at initial_group (lms i)) images);
    do gt_shapes <- ret (match gt_shape with
                         | Some _ => let? g := mapM (fun i => dict_at gt_group (lms i)) images in Ok (Some g)
                         | None => Ok None
                         end);
    do _ <- del_lm initial_group;
    do _ <- (match gt_shape with Some _ => del_lm gt_group | None => ret (Ok tt) end);
    ret (Ok (images, initial_shapes, gt_shapes, map (fun x => snd (fst x)) l, map snd l)).

  (** The shape handed to the next scale, lines 480-512. *)
  Definition next_shape (f f' : nat) (s s' : Qc) (af af' sc sc' : aff) (final : shape) : res shape :=
    if negb (f' =? f)
    then let t1 := compose_after sc af in
         let? ai := pseudoinverse af' in
         let t2 := compose_after ai t1 in
         let? si := pseudoinverse sc' in
         Ok (apply (compose_after si t2) final)
    else if negb (Qc_eq_bool s s')
    then let? si := pseudoinverse sc' in Ok (apply (compose_after si sc) final)
    else Ok final.

  (** One scale's data. *)
  Record level := mkLevel {
    l_feature : nat; l_scale : Qc; l_image : image; l_affine : aff; l_scaling : aff;
    l_gt : option shape; l_max_iters : Z }.

  (** The loop of _fit, lines 458-515. *)
  Fixpoint fit_levels (i : nat) (levels : list level) (return_costs : bool) (sh : shape)
    : res (list (iresult shape P A C)) :=
    match levels with
    | [] => Ok []
    | lv :: rest =>
        let? r := algorithm i (l_image lv) sh (l_gt lv) (l_max_iters lv) return_costs in
        match rest with
        | [] => Ok [r]
        | nx :: _ =>
            let? sh' := next_shape (l_feature lv) (l_feature nx) (l_scale lv) (l_scale nx)
                                   (l_affine lv) (l_affine nx) (l_scaling lv) (l_scaling nx) (r_final r) in
            let? rs := fit_levels (S i) rest return_costs sh' in
            Ok (r :: rs)
        end
    end.

  (** Zips the per-scale lists (all of length n_scales). *)
  Fixpoint zip_levels (fs : list nat) (ss : list Qc) (images : list image) (affs scs : list aff)
           (gts : option (list shape)) (its : list Z) : list level :=
    match fs, ss, images, affs, scs, its with
    | f :: fs, s :: ss, im :: images, a :: affs, t :: scs, k :: its =>
        mkLevel f s im a t (match gts with Some (g :: _) => Some g | _ => None end) k
        :: zip_levels fs ss images affs scs (option_map (@tl shape) gts) its
    | _, _, _, _, _, _ => []
    end.

  (** _fit, fitter.py 413-515. *)
  Definition fit (F : fitter) (images : list image) (initial_shape : shape) (affs scs : list aff)
             (gts : option (list shape)) (max_iters : pyval) (return_costs : bool)
    : res (list (iresult shape P A C)) :=
    let? its := check_max_iters max_iters (length (scales F)) in
    fit_levels 0 (zip_levels (holistic_features F) (scales F) images affs scs gts its)
               return_costs initial_shape.

  (** fit_from_shape, fitter.py 548-609; [build] is the result class used by _fitter_result
      (543-546 and the overriding methods). *)
  Definition fit_from_shape
      (build : list (iresult shape P A C) -> nat -> list (shape -> shape) -> list (shape -> shape) ->
               option shape -> res (mresult shape P A C))
      (F : fitter) (user_px : Px) (initial_shape : shape) (max_iters : pyval) (gt_shape : option shape)
      (return_costs : bool) : M (mresult shape P A C) :=
    do (images, initial_shapes, gts, affs, scs) <- prepare_image F user_px initial_shape gt_shape;
    do s0 <- ret (nth_res initial_shapes 0);
    do rs <- ret (fit F images s0 affs scs gts max_iters return_costs);
    ret (build rs (length (scales F)) (map apply affs) (map apply scs) gt_shape).
End Fitter.
Arguments image : clear implicits.
Arguments level : clear implicits.
