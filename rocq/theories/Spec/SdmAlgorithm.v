(** What is expected of a supervised descent algorithm as an object with models of its own. *)
From Coq Require Import List.
From Verif.Model Require Import Py.
Import ListNotations.
Set Implicit Arguments.

Section Spec.
  Variables S V M X R : Type.
  Variable set_target : M -> S -> res M.
  Variable from_vector : M -> V -> res M.
  Variable tgt : M -> S.

  (** Two states of one shape model: what setting a target gives does not depend on the state it is set in. *)
  Record stateless (same : M -> M -> Prop) : Prop := {
    same_refl : forall m, same m m;
    same_sym : forall m n, same m n -> same n m;
    same_trans : forall m n p, same m n -> same n p -> same m p;
    same_set : forall m s m', set_target m s = Ok m' -> same m m';
    same_from : forall m v m', from_vector m v = Ok m' -> same m m';
    set_forgets : forall m n s, same m n -> set_target m s = set_target n s }.

  (** The model m0 can represent the shape. *)
  Definition in_model (same : M -> M -> Prop) (m0 : M) (s : S) : Prop :=
    forall m m', same m0 m -> set_target m s = Ok m' -> tgt m' = s.
  (** Setting the shape as target, when the model has generated it, finds the parameters it was generated from. *)
  Definition recovered (same : M -> M -> Prop) (m0 : M) (s : S) : Prop :=
    forall m v m', same m0 m -> from_vector m v = Ok m' -> tgt m' = s -> set_target m' s = Ok m'.

  (** Predicting for many rows at once is predicting for each. *)
  Definition rowwise (predict : R -> list X -> res (list V)) (predict1 : R -> X -> res V) : Prop :=
    forall r f p, predict r f = Ok p -> length p = length f /\
      forall j x, nth_error f j = Some x -> exists v, nth_error p j = Some v /\ predict1 r x = Ok v.

  (** Perturbation l of image i. *)
  Definition sample (c : list (list S)) (i l : nat) : option S :=
    match nth_error c i with Some ss => nth_error ss l | None => None end.
  (** The shapes of a fit are the estimates training had of that sample after each of its iterations. *)
  Definition retraces (currents : list (list (list S))) (final : list (list S)) (i l : nat) (shapes : list S) : Prop :=
    length shapes = length currents /\
    forall k s, nth_error shapes k = Some s -> exists c, nth_error (currents ++ [final]) (Datatypes.S k) = Some c /\
      sample c i l = Some s.
End Spec.
