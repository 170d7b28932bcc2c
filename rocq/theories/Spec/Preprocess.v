(** Boxes around point clouds and windows of images (C115). *)
From Coq Require Import List ZArith Reals.
Import ListNotations.
Local Open Scope R_scope.

(** [lo] and [hi] are the least and the greatest of some numbers. *)
Definition spans (l : list R) (lo hi : R) : Prop := In lo l /\ In hi l /\ forall x, In x l -> lo <= x <= hi.
(** A point cloud moved by whole pixels. *)
Definition moved (a b : Z) (s : list (R * R)) : list (R * R) := map (fun p => (fst p + IZR a, snd p + IZR b)) s.
