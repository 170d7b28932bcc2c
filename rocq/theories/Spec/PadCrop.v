(** Arrays as functions of the row and the column. *)
From Coq Require Import List.
Import ListNotations.

(** The pixel at row [i], column [j]. *)
Definition pixel {A} (rows : list (list A)) (i j : nat) : option A :=
  match nth_error rows i with Some r => nth_error r j | None => None end.
(** An h by w array. *)
Definition is_size {A} (h w : nat) (rows : list (list A)) : Prop := length rows = h /\ Forall (fun r => length r = w) rows.
(** [big] is [small] with its corner at (top, left) and [fill] elsewhere. *)
Definition framed {A} (fill : A) (top left hs ws : nat) (small big : list (list A)) : Prop :=
  forall i j p, pixel big i j = Some p ->
    (forall i' j', i = top + i' -> j = left + j' -> i' < hs -> j' < ws -> pixel small i' j' = Some p) /\
    (i < top \/ top + hs <= i \/ j < left \/ left + ws <= j -> p = fill).
