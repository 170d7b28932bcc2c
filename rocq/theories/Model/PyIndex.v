(** Indexing of Python lists by possibly negative integers. *)
From Coq Require Import List ZArith.
From Verif.Model Require Import Py.
Import ListNotations.
Local Open Scope nat_scope.

(** [l[i]]: negative indices count from the end; anything else out of range raises [IndexError].
    Used by [self.shape_models[scale_index]] and its like, aam/base.py 453-454, 475-476. *)
Definition py_at {A} (l : list A) (i : Z) : res A :=
  let n := Z.of_nat (length l) in
  let j := if (i <? 0)%Z then (i + n)%Z else i in
  if (j <? 0)%Z then Err IndexError
  else match nth_error l (Z.to_nat j) with Some a => Ok a | None => Err IndexError end.
