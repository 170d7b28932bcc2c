(** The vectors the supervised descent algorithms add predictions to: the points of a shape (base.py 636-651, menpo
    PointCloud.as_vector and from_vector) and the parameters of a shape model (base.py 573-595). *)
From Verif.Model Require Import Py ModelInstance Updates.
From mathcomp Require Import all_ssreflect all_algebra.
Set Implicit Arguments.
Unset Strict Implicit.
Unset Printing Implicit Defensive.
Local Open Scope ring_scope.

Section Vectors.
Variable F : realFieldType.
Variable N : nat.
Notation shape := 'M[F]_(N, 2).
(** PointCloud.from_vector: the vector reshaped to N rows of 2; [as_vector] (Model/Updates.v) flattens them. *)
Definition reshape_points (s : shape) (v : 'cV[F]_(N * 2)) : shape :=
  \matrix_(i, j) (if insub (i * 2 + j)%N is Some r then v r 0 else 0).
(** current + dx, base.py 590 and 648.  Simplification: vectors of different lengths give the empty vector, which
    ortho_from_vector refuses with the ValueError numpy raises at the sum. *)
Definition add_params (p dx : seq F) : seq F :=
  if size p == size dx then [seq nth 0 p i + nth 0 dx i | i <- iota 0 (size p)] else [::].
End Vectors.
