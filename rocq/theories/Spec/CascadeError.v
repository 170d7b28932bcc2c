(** How far the estimates of a training set are from the annotations. *)
From mathcomp Require Import all_ssreflect all_algebra.
Set Implicit Arguments.
Unset Strict Implicit.
Unset Printing Implicit Defensive.
Import GRing.Theory Num.Theory.
Local Open Scope ring_scope.

(** The i-th element of a sequence, if there is one. *)
Fixpoint onth (T : Type) (l : seq T) (i : nat) : option T :=
  match l, i with [::], _ => None | x :: _, 0 => Some x | _ :: l, i.+1 => onth l i end.

Section Spec.
Variable F : realFieldType.
Variable S : Type.
Variable k : nat.
(** The vector in which the algorithm measures a shape: its coordinates, or its parameters. *)
Variable vector : S -> 'rV[F]_k.
(** Squared distance of two shapes. *)
Definition distance2 (s t : S) : F := \sum_j (vector s 0 j - vector t 0 j) ^+ 2.
(** The squared distance to the annotation, summed over all images and all their perturbations. *)
Definition total_error (annotations : seq S) (estimates : seq (seq S)) : F :=
  \sum_(p <- zip annotations estimates) \sum_(s <- p.2) distance2 p.1 s.
(** How far one iteration moved all of them. *)
Definition total_move (before after : seq (seq S)) : F :=
  \sum_(p <- zip before after) \sum_(q <- zip p.1 p.2) distance2 q.1 q.2.
(** Every iteration of a history of estimates brings the total error down by at least what it moved. *)
Definition descends (annotations : seq S) (history : seq (seq (seq S))) : Prop :=
  forall i c c', onth history i = Some c -> onth history i.+1 = Some c' ->
    total_error annotations c' + total_move c c' <= total_error annotations c.
End Spec.
