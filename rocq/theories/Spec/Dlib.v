(** Specification of the dlib conversions. *)
From Coq Require Import List ZArith QArith Qcanon.
Import ListNotations.
Local Open Scope Qc_scope.
Definition int (z : Z) : Qc := Q2Qc (inject_Z z).
(** [z] is [q] without its fractional part. *)
Definition truncates (q : Qc) (z : Z) : Prop := (0 <= q -> int z <= q /\ q < int (z + 1)) /\ (q <= 0 -> q <= int z /\ int (z - 1) < q).
(** [m] is the least (greatest) of the values of [f] over the points. *)
Definition least {A} (f : A -> Qc) (l : list A) (m : Qc) : Prop := (exists p, In p l /\ f p = m) /\ forall p, In p l -> m <= f p.
Definition greatest {A} (f : A -> Qc) (l : list A) (m : Qc) : Prop := (exists p, In p l /\ f p = m) /\ forall p, In p l -> f p <= m.
(** The corners of a box in menpo's order, (row, column) each. *)
Definition box (top left bottom right : Qc) : list (Qc * Qc) := [(top, left); (bottom, left); (bottom, right); (top, right)].
