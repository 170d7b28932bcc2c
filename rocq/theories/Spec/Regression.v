(** Ridge regression and the data of a training history. *)
From Verif.Model Require Import Regression.
From Verif.Spec Require Import LinAlg.
From mathcomp Require Import all_ssreflect all_algebra.
Set Implicit Arguments.
Unset Strict Implicit.
Unset Printing Implicit Defensive.
Import GRing.Theory Num.Theory.
Local Open Scope ring_scope.

Section Spec.
Variable F : realFieldType.
(** All samples of two batches, one below the other. *)
Definition stack d k (a b : batch F d k) : batch F d k := mk_batch (col_mx (b_X a) (b_X b)) (col_mx (b_Y a) (b_Y b)).
Definition stack_all d k (b : batch F d k) (bs : seq (batch F d k)) : batch F d k := foldl (@stack d k) b bs.
(** [W] is the ridge regression of [Y] on [X]: every column of [W] is the only minimum of the squared prediction error of
    its target plus alpha times its squared norm. *)
Definition is_ridge (alpha : F) n d k (X : 'M[F]_(n, d)) (Y : 'M[F]_(n, k)) (W : 'M[F]_(d, k)) : Prop :=
  forall j, unique_minimum (fun w => sqn (X *m w - col j Y) + alpha * sqn w) (col j W).
End Spec.
