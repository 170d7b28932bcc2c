(** Shape errors over the reals: menpofit/error/base.py, displacements of menpofit/result.py 970-1012 and
    compute_reference_shape of menpofit/builder.py 23-56.  Shapes are lists of 2D points (y, x). *)
From Coq Require Import String List Reals.
From Verif.Model Require Import Py.
Import ListNotations.
Local Open Scope R_scope.

Notation pt := (R * R)%type (only parsing).
Notation shape := (list (R * R)) (only parsing).

Definition psub (p q : pt) : pt := (fst p - fst q, snd p - snd q).
(** np.sqrt(np.sum(v ** 2, axis=-1)) of one point. *)
Definition pnorm (v : pt) : R := sqrt (fst v ^ 2 + snd v ^ 2).

Definition rsum (l : list R) : R := fold_right Rplus 0 l.
Definition mean (l : list R) : R := rsum l / INR (length l).

(** [shape - gt_shape]: numpy broadcasting along the points: equal numbers, or a single point on one side. *)
Definition broadcast_sub (s g : shape) : res (list pt) :=
  if Nat.eqb (length s) (length g) then Ok (map (fun pq => psub (fst pq) (snd pq)) (combine s g))
  else match s, g with
       | _, [q] => Ok (map (fun p => psub p q) s)
       | [p], _ => Ok (map (fun q => psub p q) g)
       | _, _ => Err ValueError
       end.
(** euclidean_error 157-181.  No point at all gives NaN in the code, 0 / 0 here. *)
Definition euclidean_error (s g : shape) : res R :=
  let? d := broadcast_sub s g in Ok (mean (map pnorm d)).

Definition ravel (s : shape) : list R := flat_map (fun p => [fst p; snd p]) s.
(** root_mean_square_error 130-153: the flattened arrays have even lengths, so they must be equal. *)
Definition root_mean_square_error (s g : shape) : res R :=
  if Nat.eqb (length s) (length g)
  then Ok (sqrt (mean (map (fun ab => (fst ab - snd ab) ^ 2) (combine (ravel s) (ravel g)))))
  else Err ValueError.

(** np.max(shape, axis=0), np.min(shape, axis=0); an empty array raises. *)
Definition maxl (l : list R) : R := match l with [] => 0 | x :: r => fold_left Rmax r x end.
Definition minl (l : list R) : R := match l with [] => 0 | x :: r => fold_left Rmin r x end.
Definition height (s : shape) : R := maxl (map fst s) - minl (map fst s).
Definition width (s : shape) : R := maxl (map snd s) - minl (map snd s).

(** Bounding box normalisers, 22-117. *)
Definition bb_area (s : shape) : R := height s * width s.
Definition bb_perimeter (s : shape) : R := 2 * (height s + width s).
Definition bb_avg_edge_length (s : shape) : R := 1 / 2 * (height s + width s).
Definition bb_diagonal (s : shape) : R := sqrt (width s ^ 2 + height s ^ 2).

(** bb_norm_types, 120-125. *)
Definition bb_norm_types (norm_type : string) : option (shape -> R) :=
  if String.eqb norm_type "avg_edge_length" then Some bb_avg_edge_length
  else if String.eqb norm_type "perimeter" then Some bb_perimeter
  else if String.eqb norm_type "diagonal" then Some bb_diagonal
  else if String.eqb norm_type "area" then Some bb_area
  else None.

(** bb_normalised_error, 215-263.  A division by zero gives an infinity or NaN in the code. *)
Definition bb_normalised_error (shape_error_f : shape -> shape -> res R) (s g : shape)
    (norm_shape : option shape) (norm_type : string) : res R :=
  match bb_norm_types norm_type with
  | None => Err ValueError
  | Some norm =>
      let n := match norm_shape with None => g | Some n => n end in
      let? e := shape_error_f s g in
      match n with [] => Err ValueError | _ => Ok (e / norm n) end
  end.

(** distance_two_indices, 185-210: the Euclidean distance of two points of the shape. *)
Definition distance_two_indices (i j : nat) (s : shape) : res R :=
  match nth_error s i, nth_error s j with
  | Some p, Some q => Ok (pnorm (psub p q))
  | _, _ => Err IndexError
  end.
(** distance_indexed_normalised_error, 299-332. *)
Definition distance_indexed_normalised_error (shape_error_f : shape -> shape -> res R) (i j : nat) (s g : shape) : res R :=
  let? e := shape_error_f s g in
  let? n := distance_two_indices i j g in
  Ok (e / n).

(** One entry of [displacements], result.py 977-979: np.linalg.norm(s1.points - s2.points, axis=1). *)
Definition point_displacements (s1 s2 : shape) : list R := map (fun pq => pnorm (psub (fst pq) (snd pq))) (combine s1 s2).

(** Scale(scale).apply and mean_pointcloud of menpo. *)
Definition scale_shape (k : R) (s : shape) : shape := map (fun p => (k * fst p, k * snd p)) s.
Definition padd (p q : pt) : pt := (fst p + fst q, snd p + snd q).
Definition add_shapes (s t : shape) : shape := map (fun pq => padd (fst pq) (snd pq)) (combine s t).
Definition mean_pointcloud (shapes : list shape) : res shape :=
  match shapes with
  | [] => Err IndexError
  | s :: r => if forallb (fun t => Nat.eqb (length t) (length s)) r
              then Ok (scale_shape (/ INR (length shapes)) (fold_left add_shapes r s))
              else Err ValueError
  end.
(** compute_reference_shape, builder.py 44-56: [if diagonal] is false for None and 0; [range()] is the
    size of the bounding box. *)
Definition compute_reference_shape (shapes : list shape) (diagonal : option R) : res shape :=
  let? reference_shape := mean_pointcloud shapes in
  match diagonal with
  | None => Ok reference_shape
  | Some d =>
      if Req_EM_T d 0 then Ok reference_shape
      else match reference_shape with
           | [] => Err ValueError
           | _ => Ok (scale_shape (d / sqrt (height reference_shape ^ 2 + width reference_shape ^ 2)) reference_shape)
           end
  end.
