(** Errors for facial annotations: menpofit/error/human/face.py. *)
From Coq Require Import String List Arith Reals.
From Verif.Model Require Import Py ErrorR.
Import ListNotations.
Local Open Scope nat_scope.

(** np.delete(points, i, 0): the other points in their order; an index out of bounds raises. *)
Definition np_delete {A} (i : nat) (l : list A) : res (list A) :=
  if i <? length l then Ok (firstn i l ++ skipn (S i) l) else Err IndexError.

(** _convert_68_to_51, 14-15. *)
Definition convert_68_to_51 {A} (points : list A) : res (list A) := Ok (skipn 17 points).
(** _convert_68_to_49, 18-23. *)
Definition convert_68_to_49 {A} (points : list A) : res (list A) :=
  let? sp := np_delete 64 points in
  let? sp := np_delete 60 sp in
  Ok (skipn 17 sp).
(** _convert_66_to_49, 26-27. *)
Definition convert_66_to_49 {A} (points : list A) : res (list A) := Ok (skipn 17 points).
(** _convert_51_to_49, 30-34. *)
Definition convert_51_to_49 {A} (points : list A) : res (list A) :=
  let? sp := np_delete 47 points in
  let? sp := np_delete 43 sp in
  Ok sp.

(** The conversions at the beginning of the 49-point errors, 140-151, 301-312 and 411-416. *)
Definition to_49 {A} (s : list A) : res (list A) :=
  if length s =? 68 then convert_68_to_49 s
  else if length s =? 66 then convert_66_to_49 s
  else if length s =? 51 then convert_51_to_49 s
  else Ok s.
Definition to_51 {A} (s : list A) : res (list A) := if length s =? 68 then convert_68_to_51 s else Ok s.

Definition allowed (ns : list nat) {A} (s : list A) : bool := existsb (Nat.eqb (length s)) ns.

Section Errors.
  (** The index groups of the two eyes given by menpo's labellers: face_ibug_68_to_face_ibug_68 and
      face_ibug_49_to_face_ibug_49 (external). *)
  Variables (left68 right68 left49 right49 : list nat).

  (** s[indices] *)
  Definition take (idx : list nat) (s : shape) : res (list pt) := mapM (fun i => match nth_error s i with Some p => Ok p | None => Err IndexError end) idx.
  (** np.mean(points, axis=0) *)
  Definition centre (l : list pt) : pt := (mean (map fst l), mean (map snd l)).
  (** pupil_dist, 82-85 and 136-139: it ignores its first argument; the distance of the two means. *)
  Definition pupil_dist (left right : list nat) (_ s : shape) : res R :=
    let? l := take left s in
    let? r := take right s in
    Ok (pnorm (psub (centre l) (centre r))).

  (** distance_normalised_error, error/base.py 266-295. *)
  Definition distance_normalised_error (shape_error_f dist : shape -> shape -> res R) (s g : shape) : res R :=
    let? e := shape_error_f s g in
    let? n := dist s g in
    Ok (e / n)%R.

  (** mean_pupil_68_error, 37-87. *)
  Definition mean_pupil_68_error (s g : shape) : res R :=
    if negb (length s =? 68) then Err ValueError
    else if negb (length g =? 68) then Err ValueError
    else distance_normalised_error euclidean_error (pupil_dist left68 right68) s g.
  (** mean_pupil_49_error, 90-153. *)
  Definition mean_pupil_49_error (s g : shape) : res R :=
    if negb (allowed [68; 66; 51; 49] s) then Err ValueError
    else if negb (allowed [68; 66; 51; 49] g) then Err ValueError
    else let? s := to_49 s in
         let? g := to_49 g in
         distance_normalised_error euclidean_error (pupil_dist left49 right49) s g.
  (** outer_eye_corner_68_euclidean_error, 156-201. *)
  Definition outer_eye_corner_68_error (s g : shape) : res R :=
    if negb (length s =? 68) then Err ValueError
    else if negb (length g =? 68) then Err ValueError
    else distance_indexed_normalised_error euclidean_error 36 45 s g.
  (** outer_eye_corner_51_euclidean_error, 204-253. *)
  Definition outer_eye_corner_51_error (s g : shape) : res R :=
    if negb (allowed [68; 51] s) then Err ValueError
    else if negb (allowed [68; 51] g) then Err ValueError
    else let? s := to_51 s in
         let? g := to_51 g in
         distance_indexed_normalised_error euclidean_error 19 28 s g.
  (** outer_eye_corner_49_euclidean_error, 256-314. *)
  Definition outer_eye_corner_49_error (s g : shape) : res R :=
    if negb (allowed [68; 66; 51; 49] s) then Err ValueError
    else if negb (allowed [68; 66; 51; 49] g) then Err ValueError
    else let? s := to_49 s in
         let? g := to_49 g in
         distance_indexed_normalised_error euclidean_error 19 28 s g.
  (** bb_avg_edge_length_68_euclidean_error, 317-363. *)
  Definition bb_avg_edge_length_68_error (s g : shape) : res R :=
    if negb (length s =? 68) then Err ValueError
    else if negb (length g =? 68) then Err ValueError
    else bb_normalised_error euclidean_error s g (Some g) "avg_edge_length".
  (** bb_avg_edge_length_49_euclidean_error, 366-421. *)
  Definition bb_avg_edge_length_49_error (s g : shape) : res R :=
    if negb (allowed [68; 66; 51; 49] s) then Err ValueError
    else if negb (length g =? 68) then Err ValueError
    else let? s := to_49 s in
         let? g49 := convert_68_to_49 g in
         bb_normalised_error euclidean_error s g49 (Some g) "avg_edge_length".
End Errors.
