(** What is expected of supervised descent with a model-driven transform. *)
From Coq Require Import List.
From Verif.Model Require Import Py.
Import ListNotations.
Set Implicit Arguments.

Section Spec.
  Variables S M : Type.
  Variable set_target : M -> S -> res M.
  Variable tgt : M -> S.
  (** Setting as target the shape the model has just settled on changes nothing. *)
  Definition settles (same : M -> M -> Prop) (m0 : M) (s : S) : Prop :=
    forall m m', same m0 m -> set_target m s = Ok m' -> set_target m' (tgt m') = Ok m'.
  (** The shape the model settles on when the shape is set as target. *)
  Definition settled_on (m0 : M) (s t : S) : Prop := exists m, set_target m0 s = Ok m /\ t = tgt m.
End Spec.
