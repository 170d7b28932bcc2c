(** Specification of batched and incremental training. *)
From Coq Require Import List ZArith.
From Verif.Model Require Import Py.
From Verif.Spec Require Import Base.
Import ListNotations.
Local Open Scope nat_scope.

Section Spec.
  Context {Img D Ref : Type}.
  (** [data kind j ref b = Ok d]: the data of this kind at scale [j] of the batch [b] is [d]. *)
  Variable data : nat -> nat -> Ref -> list Img -> res (list D).

  (** How a call cuts its items: a single batch, or consecutive chunks of a positive size. *)
  Definition cut (items : list Img) (batch_size : option Z) (chunks : list (list Img)) : Prop :=
    match batch_size with
    | None => chunks = [items]
    | Some n => (1 <= n)%Z /\ chunks_of (Z.to_nat n) items chunks
    end.

  (** The model was built from the data of the first batch and incremented with the data of the others,
      in this order, all with the same reference shape. *)
  Definition trained_on (kind j : nat) (ref : Ref) (batches : list (list Img)) (m : list (list D)) : Prop :=
    Forall2 (fun b d => data kind j ref b = Ok d) batches m.

  (** Exactly one model per scale, each trained on the batches. *)
  Definition one_model_per_scale (n_scales n_kinds : nat) (models : nat -> list (list (list D)))
      (ref : Ref) (batches : list (list Img)) : Prop :=
    forall kind, kind < n_kinds ->
      length (models kind) = n_scales /\
      forall j m, nth_error (models kind) j = Some m -> trained_on kind j ref batches m.
End Spec.
