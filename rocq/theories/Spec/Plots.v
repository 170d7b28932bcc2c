(** Points of a figure. *)
From Coq Require Import List.

(** A figure with abscissae [xs] and a curve [ys] shows the value [y] at [x]. *)
Definition shows {X Y} (xs : list X) (ys : list Y) (x : X) (y : Y) : Prop :=
  exists i, nth_error xs i = Some x /\ nth_error ys i = Some y.
