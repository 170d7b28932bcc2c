(** Where a fit from a bounding box starts: fitter.py 206-229 and 611-651, the rescaling of _prepare_image, 298-411, and what
    supervised descent training does with the same box, sdm/fitter.py 241-313.  Shapes are matrices over a real closed field
    (exact arithmetic).  Simplification: rescaling an image multiplies the coordinates by the factor (menpo corrects the factor
    by the rounding of the image to whole pixels), and the features do not move points. *)
From Verif.Model Require Import Py ModelInstance SimilarityModel.
From mathcomp Require Import all_ssreflect all_algebra.
Set Implicit Arguments.
Unset Strict Implicit.
Unset Printing Implicit Defensive.
Import GRing.Theory Num.Theory.
Local Open Scope ring_scope.

Section Boxes.
Variable F : rcfType.
Variable N : nat.
Notation shape := 'M[F]_(N.+1, 2).
(** menpo PointCloud.bounds: the least and the greatest coordinates (a shape has at least one point). *)
Definition least (s : shape) (j : 'I_2) : F := \big[Num.min/s 0 j]_i s i j.
Definition greatest (s : shape) (j : 'I_2) : F := \big[Num.max/s 0 j]_i s i j.
(** menpo's bounding_box(closest_to_origin, opposite_corner): the corners in this order. *)
Definition corners (lo hi : 'I_2 -> F) : 'M[F]_(4, 2) :=
  \matrix_(i, j) (if j == 0 then (if (i == 1%N :> nat) || (i == 2%N :> nat) then hi 0 else lo 0)
                  else (if (2 <= i)%N then hi 1 else lo 1)).
(** PointCloud.bounding_box() *)
Definition bounding_box (s : shape) : 'M[F]_(4, 2) := corners (least s) (greatest s).

(** align_shape_with_bounding_box, fitter.py 227-229 *)
Definition align_shape_with_bounding_box (s : shape) (box : 'M[F]_(4, 2)) : shape :=
  sim_apply (procrustes (bounding_box s) box) s.

(** menpo Image.rescale_to_pointcloud(reference, group): the factor of AlignmentUniformScale *)
Definition factor (reference s : shape) : F := norm reference / norm s.

(** fit_from_bb, fitter.py 648-651: the initial shape that fit_from_shape is given; then _prepare_image, 344-345 and 379-390,
    brings the image and the initial shape to the size of the reference shape and then to the lowest scale.  The factor by
    which the image is rescaled at the lowest scale, and the shape at which its algorithm starts. *)
Definition fit_from_bb_start (reference : shape) (scale : F) (box : 'M[F]_(4, 2)) : F * shape :=
  let initial := align_shape_with_bounding_box reference box in
  let k := scale * factor reference initial in (k, k *: initial).

(** The same box attached to a training image with ground truth [gt]: the image is rescaled by the ground truth shape
    (sdm/fitter.py 245-247), then to the lowest scale (286-288); the box goes along, and the reference shape is aligned with
    it (308-313). *)
Definition sdm_training_start (reference : shape) (scale : F) (gt : shape) (box : 'M[F]_(4, 2)) : F * shape :=
  let k := scale * factor reference gt in (k, align_shape_with_bounding_box reference (k *: box)).
End Boxes.
