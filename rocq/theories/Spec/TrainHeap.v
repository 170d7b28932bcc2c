(** What it means that objects are left alone (C97). *)
From Coq Require Import List.
Import ListNotations.

(** Every object that existed before is as it was. *)
Definition untouched {A : Type} (before after : list A) : Prop :=
  forall a, a < length before -> nth_error after a = nth_error before a.
