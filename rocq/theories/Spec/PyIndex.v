(** Which scale a possibly negative index names. *)
From Coq Require Import ZArith.
Local Open Scope nat_scope.

(** The [k]-th of [n] scales is meant by [k] and, counting from the end, by [k - n]; in particular [-1] is
    the last one. *)
Definition names_scale (n : nat) (i : Z) (k : nat) : Prop :=
  k < n /\ (i = Z.of_nat k \/ i = (Z.of_nat k - Z.of_nat n)%Z).
