(** A model is fitted to what it was trained on. *)
From Coq Require Import String List QArith Qcanon.
From Verif.Model Require Import Py Dict Affine Result Fitter TrainImages.
Import ListNotations.

Section Spec.
  Context {Px : Type}.
  Notation image := (@image Px).
  (** What menpo computes from the pixels: new pixels and how every landmark moves. *)
  Variable to_pointcloud : Px -> shape -> shape -> res (Px * (shape -> shape)).
  Variable features_of : nat -> Px -> res (Px * (shape -> shape)).
  Variable resized : Px -> Qc -> res (Px * (shape -> shape) * aff).

  (** All landmark groups ride along, whatever their names. *)
  Definition moved (t : shape -> shape) (d : dict shape) : dict shape := map (fun kv => (fst kv, t (snd kv))) d.
  Definition ride_along
             (rescale_to_pointcloud : image -> shape -> string -> res image)
             (feature : nat -> image -> res image) (rescale : image -> Qc -> res (image * aff)) : Prop :=
    (forall im ref g, rescale_to_pointcloud im ref g =
       let? s := dict_at g (lms im) in
       let? (p, t) := to_pointcloud (px im) s ref in Ok (mkImage p (moved t (lms im)))) /\
    (forall n im, feature n im = let? (p, t) := features_of n (px im) in Ok (mkImage p (moved t (lms im)))) /\
    (forall im s, rescale im s = let? (p, t, a) := resized (px im) s in Ok (mkImage p (moved t (lms im)), a)) /\
    (forall p, features_of no_op_eq p = Ok (p, fun s => s)).

  (** The same pixels with the same shape, whatever the name of its group. *)
  Definition alike (g : string) (im : image) (g' : string) (im' : image) : Prop :=
    px im = px im' /\ dict_get g (lms im) = dict_get g' (lms im').

  (** One object is equal to itself. *)
  Definition objects (fs : list callable) : Prop :=
    forall f f', In f fs -> In f' fs -> fn_id f = fn_id f' -> fn_eq f = fn_eq f'.
  (** No scale that counts as 1 for one and not for the other. *)
  Definition clear_scales (ss : list Qc) : Prop := forall s, In s ss -> close_to_one s = true -> s = 1%Qc.
End Spec.
