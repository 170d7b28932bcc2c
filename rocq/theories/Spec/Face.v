(** The facial landmark layouts: 68 points, of which 0-16 are the jaw and 60 and 64 the inner mouth corners. *)
From Coq Require Import List Arith Bool Reals.
Import ListNotations.

(** [t] consists of the points of [s] with these numbers, in this order. *)
Definition selects {A} (numbers : list nat) (s t : list A) : Prop := Forall2 (fun i p => nth_error s i = Some p) numbers t.

Definition inner_mouth_corner (i : nat) : bool := (i =? 60) || (i =? 64).
Definition all_but_inner_corners : list nat := filter (fun i => negb (inner_mouth_corner i)) (seq 0 68).
Definition face_without_jaw : list nat := seq 17 51.
Definition face_49 : list nat := filter (fun i => negb (inner_mouth_corner i)) (seq 17 51).

(** [s'] annotates the same face as the 68 points [s], in one of the layouts of 68, 66, 51 or 49 points. *)
Definition annotation_of {A} (s s' : list A) : Prop :=
  length s = 68 /\ (s' = s \/ selects all_but_inner_corners s s' \/ selects face_without_jaw s s' \/ selects face_49 s s').

(** The distance between the centres of two groups of points. *)
Definition average (l : list R) : R := (fold_right Rplus 0 l / INR (length l))%R.
Definition centre_distance (l r : list (R * R)) : R :=
  sqrt ((average (map fst l) - average (map fst r)) ^ 2 + (average (map snd l) - average (map snd r)) ^ 2).
