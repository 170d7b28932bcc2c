(** Specifications about shapes of the plane. *)
From Coq Require Import List Reals.
Import ListNotations.
Local Open Scope R_scope.

Definition translate (v : R * R) (s : list (R * R)) : list (R * R) := map (fun p => (fst p + fst v, snd p + snd v)) s.
Definition dilate (k : R) (s : list (R * R)) : list (R * R) := map (fun p => (k * fst p, k * snd p)) s.
(** The rotation of cosine [a] and sine [b]. *)
Definition rotate (a b : R) (s : list (R * R)) : list (R * R) := map (fun p => (a * fst p - b * snd p, b * fst p + a * snd p)) s.

(** [d] behaves as a distance between shapes of the same positive number of points. *)
Definition shape_metric (d : list (R * R) -> list (R * R) -> R -> Prop) : Prop :=
  forall s t u, s <> [] -> length s = length t -> length t = length u ->
    exists st ts tu su, d s t st /\ d t s ts /\ d t u tu /\ d s u su /\
      0 <= st /\ (st = 0 <-> s = t) /\ ts = st /\ su <= st + tu.

(** The size of the bounding box along an axis: the largest difference of two coordinates. *)
Definition extent (axis : R * R -> R) (s : list (R * R)) (e : R) : Prop :=
  (forall p q, In p s -> In q s -> axis p - axis q <= e) /\ (exists p q, In p s /\ In q s /\ axis p - axis q = e).

(** [m] is the mean of [shapes], point by point. *)
Definition mean_of (shapes : list (list (R * R))) (m : list (R * R)) : Prop :=
  Forall (fun s => length s = length m) shapes /\
  forall i p, nth_error m i = Some p ->
    INR (length shapes) * fst p = fold_right (fun s a => fst (nth i s (0, 0)) + a) 0 shapes /\
    INR (length shapes) * snd p = fold_right (fun s a => snd (nth i s (0, 0)) + a) 0 shapes.
