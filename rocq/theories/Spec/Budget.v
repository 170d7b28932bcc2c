(** What it means that one run is another one cut short. *)
From Coq Require Import List.
From Verif.Model Require Import Py.
Import ListNotations.

Definition prefix {A} (l l' : list A) : Prop := exists r, l' = l ++ r.
(** Costs are compared when both runs were asked for them. *)
Definition prefix_costs {A} (l l' : option (list A)) : Prop :=
  match l, l' with Some a, Some b => prefix a b | _, _ => True end.
(** The longer run gets at least as far: if the short run raises so does the long one, with the same exception; if both
    return, the results are related by [R]. *)
Definition cut_short {A B} (R : A -> B -> Prop) (short : res A) (long : res B) : Prop :=
  match short, long with
  | Ok a, Ok b => R a b
  | Ok _, Err _ => True
  | Err e, Err e' => e = e'
  | Err _, Ok _ => False
  end.
