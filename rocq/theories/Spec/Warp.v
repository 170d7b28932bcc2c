(** What a model sees of an image at a shape. *)
From Coq Require Import List.
From Verif.Model Require Import Py Warp.
Import ListNotations.

Section Sees.
  Context {Img Pt Px Ps P : Type}.
  Variable sample : Img -> list Pt -> res Px.
  Variable align : list Pt -> list Pt -> list Pt -> res (list Pt).
  Variable patches : Img -> list Pt -> Ps -> res Px.
  (** The values of the image at the pixels of the frame, carried to the shape. *)
  Definition seen_at (fr : @frame Pt) (im : Img) (s : list Pt) (v : Px) : Prop :=
    exists pts, align (fr_source fr) s (fr_mask fr) = Ok pts /\ sample im pts = Ok v.
  (** The normalised patches around the shape. *)
  Definition patches_at (ps : Ps) (normalise : Px -> Px) (im : Img) (s : list Pt) (v : Px) : Prop :=
    exists parts, patches im s ps = Ok parts /\ v = normalise parts.

  Variable p_set_target : P -> list Pt -> res P.
  Variable p_sync : P -> res P.
  Variable p_tgt : P -> list Pt.
  (** The shape model reproduces a shape: given it as a target, whatever its state, it has it as its target, and keeps it. *)
  Definition reproduces (s : list Pt) : Prop :=
    (forall p, exists p', p_set_target p s = Ok p' /\ p_tgt p' = s) /\
    (forall p, p_tgt p = s -> exists p', p_sync p = Ok p' /\ p_tgt p' = s).
  (** A linear model reproduces a shape with its pixels. *)
  Definition reproduces_dense (fr : @frame Pt) (s : list Pt) : Prop :=
    forall pts, align (fr_source fr) s (fr_mask fr) = Ok pts ->
    forall p, exists p', p_set_target p s = Ok p' /\ p_tgt p' = s ++ pts.
End Sees.
