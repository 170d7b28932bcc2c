(** Training does not depend on the order in which the training images are given. *)
From Coq Require Import List Permutation.
From Verif.Model Require Import Py.
Import ListNotations.

(** The same value, or the same exception. *)
Definition order_free {A B} (f : list A -> res B) : Prop := forall l l', Permutation l l' -> f l = f l'.

(** A regressor that only sees the set of its samples: pairs of features and targets. *)
Definition sample_order_free {X D R} (train : list X -> list D -> R) : Prop :=
  forall f d f' d', length f = length d -> length f' = length d' ->
    Permutation (combine f d) (combine f' d') -> train f d = train f' d'.

Section Cascade.
  (** A training image, its ground truth shape and the shapes that training starts from. *)
  Context {I S St R : Type}.
  Notation item := (I * S * list S)%type.
  (** Two cascades trained on the items in two orders: the same regressors, and the shapes of every item end in the
      same place; or the same exception. *)
  Definition same_cascade (T T' : list item) (o o' : res (list St * list R * list (list S))) : Prop :=
    match o, o' with
    | Ok (_, regs, final), Ok (_, regs', final') =>
        regs = regs' /\ exists h : item -> list S, final = map h T /\ final' = map h T'
    | Err e, Err e' => e = e'
    | _, _ => False
    end.
End Cascade.
