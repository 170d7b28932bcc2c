(** What is meant by resizing exactly and by being at rest. *)
From Coq Require Import String List QArith Qcanon.
From Verif.Model Require Import Py Dict Affine Result Fitter.
From Verif.Spec Require Import TrainImages.
Import ListNotations.

Section Spec.
  Context {Px T V : Type}.
  Variable to_pointcloud : Px -> shape -> shape -> res (Px * (shape -> shape)).
  (** Rescaling to a diagonal: new pixels and how every landmark moves. *)
  Variable diagonal_of : Px -> shape -> Qc -> res (Px * (shape -> shape)).
  Variable to_diagonal : image Px -> Qc -> string -> res (image Px).

  (** Resizing an image to the size it has leaves it alone; resizing it so that its landmarks have a given diagonal is
      resizing it to the landmarks this gives. *)
  Definition exact_resizing : Prop :=
    (forall p s, to_pointcloud p s s = Ok (p, fun x => x)) /\
    (forall p s q p' t, diagonal_of p s q = Ok (p', t) -> to_pointcloud p s (t s) = Ok (p', t)) /\
    (forall im q g, to_diagonal im q g =
       let? s := dict_at g (lms im) in
       let? (p, t) := diagonal_of (px im) s q in Ok (mkImage p (moved t (lms im)))).

  Variable new_transform : shape -> shape -> res T.
  Variable set_target : T -> shape -> res T.
  Variable target : T -> shape.
  Variable warp : image Px -> Px -> T -> res Px.
  Variable increment : Px -> image Px -> T -> Px -> res V.
  Variable update : T -> V -> res T.
  (** The zero increment. *)
  Variable none : V.

  (** A transform from a shape to itself moves nothing; an image that matches the template gives the zero increment (C61);
      the zero increment does not change a transform. *)
  Definition at_rest : Prop :=
    (forall s tr t0, new_transform s s = Ok tr -> set_target tr s = Ok t0 ->
       target t0 = s /\ forall im w, warp im (px im) t0 = Ok w -> w = px im) /\
    (forall im t dp, increment (px im) im t (px im) = Ok dp -> dp = none) /\
    (forall t t', update t none = Ok t' -> t' = t).
End Spec.
