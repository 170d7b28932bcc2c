(** Noisy alignments, menpofit/fitter.py 34-229, over the reals. *)
From Coq Require Import String List Reals Bool.
From Verif.Model Require Import Py.
Import ListNotations.
Local Open Scope R_scope.

Notation pt := (R * R)%type.
(** A planar transform of menpo; compose_after(a, b) applies b first. *)
Notation tr := (pt -> pt).
Definition compose_after (a b : tr) : tr := fun p => a (b p).
Definition add (p q : pt) : pt := (fst p + fst q, snd p + snd q).
Definition sub (p q : pt) : pt := (fst p - fst q, snd p - snd q).
Definition scal (k : R) (p : pt) : pt := (k * fst p, k * snd p).
(** Similarity with linear part [[a, -b], [b, a]] and translation t: what AlignmentSimilarity of menpo is (b = 0 without
    rotation). *)
Record similarity := Sim { sa : R; sb : R; st : pt }.
Definition linear (s : similarity) (p : pt) : pt := (sa s * fst p - sb s * snd p, sb s * fst p + sa s * snd p).
Definition apply_sim (s : similarity) : tr := fun p => add (linear s p) (st s).

(** PointCloud.centre(): the mean point; PointCloud.range(): maximum minus minimum per axis. *)
Definition centre (l : list pt) : pt := scal (/ INR (length l)) (fold_right add (0, 0) l).
Definition extent (f : pt -> R) (l : list pt) : R :=
  match l with [] => 0 | p :: r => fold_left (fun m q => Rmax m (f q)) r (f p) - fold_left (fun m q => Rmin m (f q)) r (f p) end.
Definition range (l : list pt) : pt := (extent fst l, extent snd l).

(** menpo's scale_about_centre and rotate_ccw_about_centre (degrees). *)
Definition scale_about (c : pt) (k : R) : tr := fun p => add c (scal k (sub p c)).
Definition rotate_about (c : pt) (deg : R) : tr :=
  fun p => let d := sub p c in let th := deg * (PI / 180) in
    add c (cos th * fst d - sin th * snd d, sin th * fst d + cos th * snd d).
Definition translate (t : pt) : tr := fun p => add p t.

(** A noise percentage as given by the user: a float, a list, a tuple, or an int (which has no len). *)
Inductive percentage := PFloat (x : R) | PList (l : list R) | PTuple (l : list R) | PInt.
(** 65-68: the three values and what the caller's object holds afterwards ([l *= 3] changes a list in place). *)
Definition three_of (p : percentage) : res (list R * percentage) :=
  match p with
  | PFloat x => Ok ([x; x; x], p)
  | PList [x] => Ok ([x; x; x], PList [x; x; x])
  | PList l => Ok (l, p)
  | PTuple [x] => Ok ([x; x; x], p)
  | PTuple l => Ok (l, p)
  | PInt => Err TypeError
  end.
(** noise_percentage[k] *)
Definition pct (l : list R) (k : nat) : res R := match nth_error l k with Some x => Ok x | None => Err IndexError end.

(** The string given as noise_type, compared by identity: only the interned object of the same text is the literal. *)
Record pystr := PyStr { text : string; interned : bool }.
Definition is_literal (s : pystr) (t : string) : bool := interned s && String.eqb (text s) t.

(** The random draws of one call: randn(1), randn(1), randn(2) for gaussian noise; randn(1), rand(1), rand(2) for uniform. *)
Record draws := Draws { d_s : R; d_r : R; d_t : pt }.

Definition mul (p q : pt) : pt := (fst p * fst q, snd p * snd q).
(** Amounts of noise, 73-88: the scale factor minus one, the angle in degrees and the translation. *)
Definition gaussian_noise (l : list R) (target : list pt) (d : draws) : res (R * R * pt) :=
  let? p0 := pct l 0 in let? p1 := pct l 1 in let? p2 := pct l 2 in
  Ok (p0 * (0.5 / 3) * d_s d, p1 * (180 / 3) * d_r d, mul (scal p2 (scal (/ 3) (range target))) (d_t d)).
Definition uniform_noise (l : list R) (target : list pt) (d : draws) : res (R * R * pt) :=
  let? p0 := pct l 0 in let? p1 := pct l 1 in let? p2 := pct l 2 in
  Ok (p0 * 0.5 * (2 * d_s d - 1), p1 * 180 * (2 * d_r d - 1),
      mul (scal p2 (range target)) (2 * fst (d_t d) - 1, 2 * snd (d_t d) - 1)).

Section Noise.
  (** AlignmentSimilarity(source, target, rotation=...) of menpo. *)
  Variable align : list pt -> list pt -> bool -> res similarity.

  (** noisy_alignment_similarity_transform, 34-93: the transform and the caller's noise object afterwards. *)
  Definition noisy_alignment (source target : list pt) (noise_type : pystr) (noise_percentage : percentage) (rotation : bool) (d : draws)
    : res (tr * percentage) :=
    let? (l, after) := three_of noise_percentage in
    let? sim := align source target rotation in
    let? (s, r, t) :=
      if is_literal noise_type "gaussian" then gaussian_noise l target d
      else if is_literal noise_type "uniform" then uniform_noise l target d
      else Err ValueError in
    let c := centre target in
    Ok (compose_after (apply_sim sim) (compose_after (translate t) (compose_after (scale_about c (1 + s)) (rotate_about c r))), after).

  (** PointCloud.bounding_box() as four corners, menpo. *)
  Variable box_of : list pt -> list pt.
  (** noisy_shape_from_bounding_box, 127-164 *)
  Definition noisy_shape_from_bounding_box (shape box : list pt) (noise_type : pystr) (p : percentage) (rotation : bool) (d : draws) : res (list pt) :=
    let? (T, _) := noisy_alignment (box_of shape) box noise_type p rotation d in Ok (map T shape).
  (** noisy_shape_from_shape, 167-203 *)
  Definition noisy_shape_from_shape (reference shape : list pt) (noise_type : pystr) (p : percentage) (rotation : bool) (d : draws) : res (list pt) :=
    let? (T, _) := noisy_alignment reference shape noise_type p rotation d in Ok (map T reference).
  (** align_shape_with_bounding_box with AlignmentSimilarity, 206-229 *)
  Definition align_shape_with_bounding_box (shape box : list pt) (rotation : bool) : res (list pt) :=
    let? sim := align (box_of shape) box rotation in Ok (map (apply_sim sim) shape).
End Noise.
