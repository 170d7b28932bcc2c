(** Training that is interrupted by an exception. *)
From Coq Require Import List Arith Bool ZArith.
From Verif.Model Require Import Py.
From Verif.Spec Require Import Train.
Import ListNotations.
Local Open Scope nat_scope.

Section Spec.
  Context {Img D Ref : Type}.
  Variable data : nat -> nat -> Ref -> list Img -> res (list D).
  Variables n_scales n_kinds : nat.
  Variable ref : Ref.

  (** One model per kind and scale, the model of each kind and scale trained on its own list of batches. *)
  Definition each_trained (models : nat -> list (list (list D))) (batches : nat -> nat -> list (list Img)) : Prop :=
    forall kind, kind < n_kinds -> length (models kind) = n_scales /\
      forall j, j < n_scales -> exists m, nth_error (models kind) j = Some m /\ trained_on data kind j ref (batches kind j) m.

  (** Training goes through the scales, and at every scale through the kinds of models. *)
  Definition before (kind j kind0 j0 : nat) : bool := (j <? j0) || ((j =? j0) && (kind <? kind0)).

  (** What the models take from a call whose items are cut into [chunks]: all of the batches, or, when the data of some kind at
      some scale cannot be computed for one of them, the batches before it, and of that batch what comes before this point. *)
  Inductive absorbed (chunks : list (list Img)) : option exn -> (nat -> nat -> list (list Img)) -> Prop :=
  | Absorbed : absorbed chunks None (fun _ _ => chunks)
  | Interrupted done b rest kind0 j0 e : chunks = done ++ b :: rest -> kind0 < n_kinds -> j0 < n_scales -> data kind0 j0 ref b = Err e ->
      absorbed chunks (Some e) (fun kind j => done ++ (if before kind j kind0 j0 then [b] else [])).

  (** A history of calls, of which some raised (and the caller carried on). *)
  Inductive history : list (list Img * option Z) -> list (option exn) -> (nat -> nat -> list (list Img)) -> Prop :=
  | NoCalls : history [] [] (fun _ _ => [])
  | Call items bs chunks e now calls es later : cut items bs chunks -> absorbed chunks e now -> history calls es later ->
      history ((items, bs) :: calls) (e :: es) (fun kind j => now kind j ++ later kind j).
End Spec.
