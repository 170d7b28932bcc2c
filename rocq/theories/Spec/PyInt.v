(** The regularised normal equations, with vectors as lists. *)
From Coq Require Import List.
From Verif.Model Require Import Py.
Import ListNotations.

Section Spec.
  Context {A : Type}.
  Variables (add mul : A -> A -> A) (opp : A -> A).
  Variable solve : list (list A) -> list A -> res (list A).
  Definition zip (f : A -> A -> A) (x y : list A) : list A := map (fun p => f (fst p) (snd p)) (combine x y).
  (** [H'] is [H] with [w] added on the diagonal. *)
  Definition plus_diagonal (H : list (list A)) (w : list A) (H' : list (list A)) : Prop :=
    length H' = length H /\
    forall i row, nth_error H i = Some row -> exists row', nth_error H' i = Some row' /\ length row' = length row /\
      forall j x, nth_error row j = Some x ->
        nth_error row' j = Some (if Nat.eqb i j then match nth_error w i with Some d => add x d | None => x end else x).
  (** The increment minus the solution of (H + diag w) x = w * p + J^T e. *)
  Definition regularised (H : list (list A)) (Jte w p : list A) (r : res (list A)) : Prop :=
    exists H', plus_diagonal H w H' /\
      r = match solve H' (zip add (zip mul w p) Jte) with Ok x => Ok (map opp x) | Err e => Err e end.
End Spec.
