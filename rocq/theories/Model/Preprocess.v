(** The preprocessing of pretrained fitters: image_greyscale_crop_preprocess, menpofit/io.py 23-60. *)
From Coq Require Import List Arith Bool ZArith Reals.
From Verif.Model Require Import Py Dict Result Io.
Import ListNotations.
Local Open Scope R_scope.

(** An image: its channels and, for rows and columns inside its size, its pixels.  Points are (row, column). *)
Record picture (V : Type) := mk_picture { n_channels : nat; rows : Z; cols : Z; pixel_at : Z -> Z -> V }.
Arguments mk_picture {V}. Arguments n_channels {V}. Arguments rows {V}. Arguments cols {V}. Arguments pixel_at {V}.
Notation cloud := (list (R * R)) (only parsing).

(** np.floor, np.ceil, np.clip; np.min and np.max of a non-empty array. *)
Definition floor (x : R) : Z := Int_part x.
Definition ceil (x : R) : Z := (- Int_part (- x))%Z.
Definition clip (x lo hi : Z) : Z := Z.min (Z.max x lo) hi.
Definition lowest (x : R) (r : list R) : R := fold_right Rmin x r.
Definition highest (x : R) (r : list R) : R := fold_right Rmax x r.

(** menpo's Translation. *)
Definition translation (o : R * R) : transform (list (R * R)) :=
  mk_transform (map (fun p => (fst p + fst o, snd p + snd o))) (map (fun p => (fst p - fst o, snd p - snd o))).

Section Preprocess.
  Context {V : Type}.
  (** image.as_greyscale(mode='luminosity') (external). *)
  Variable as_greyscale : picture V -> picture V.
  (** menpo's Image.crop with constrain_to_boundary=True (not in /repo, an assumption): bounds are rounded outwards,
      an empty box is refused, the box is cut at the borders of the image; the pixels are taken over unchanged, and the
      transform maps the new image to the old one.  Simplification: a box outside the image gives an image without pixels. *)
  Definition crop (im : picture V) (low high : R * R) : res (picture V * transform (list (R * R))) :=
    let l0 := floor (fst low) in let l1 := floor (snd low) in
    let h0 := ceil (fst high) in let h1 := ceil (snd high) in
    if (h0 <=? l0)%Z || (h1 <=? l1)%Z then Err ValueError
    else
      let a0 := clip l0 0 (rows im) in let a1 := clip l1 0 (cols im) in
      let b0 := clip h0 0 (rows im) in let b1 := clip h1 0 (cols im) in
      Ok (mk_picture (n_channels im) (b0 - a0) (b1 - a1) (fun i j => pixel_at im (i + a0)%Z (j + a1)%Z), translation (IZR a0, IZR a1)).
  (** menpo's crop_to_pointcloud_proportion (not in /repo, an assumption) with minimum=True: the boundary is the proportion of the smaller side
      of the bounding box.  An empty point cloud raises. *)
  Definition crop_to_pointcloud_proportion (im : picture V) (pc : cloud) (proportion : R) : res (picture V * transform (list (R * R))) :=
    match pc with
    | [] => Err ValueError
    | p :: r =>
        let y0 := lowest (fst p) (map fst r) in let y1 := highest (fst p) (map fst r) in
        let x0 := lowest (snd p) (map snd r) in let x1 := highest (snd p) (map snd r) in
        let boundary := proportion * Rmin (y1 - y0) (x1 - x0) in
        crop im (y0 - boundary, x0 - boundary) (y1 + boundary, x1 + boundary)
    end.
  (** 50-60, with crop_proportion. *)
  Definition image_greyscale_crop_preprocess (proportion : R) (image : picture V) (pc : cloud) : res (picture V * transform (list (R * R))) :=
    let new_image := if (n_channels image =? 3)%nat then as_greyscale image else image in
    crop_to_pointcloud_proportion new_image pc proportion.
End Preprocess.
