(** Boxes of shapes, said without computing them. *)
From mathcomp Require Import all_ssreflect all_algebra.
Set Implicit Arguments.
Unset Strict Implicit.
Unset Printing Implicit Defensive.
Import GRing.Theory Num.Theory.
Local Open Scope ring_scope.

Section Boxes.
Variable F : realFieldType.
(** The box from [lo] to [hi] is the tightest box around the points of [s]: it holds them all, and every side touches one. *)
Definition tight_box N (s : 'M[F]_(N, 2)) (lo hi : 'I_2 -> F) : Prop :=
  (forall i j, lo j <= s i j <= hi j) /\ (forall j, exists i, s i j = lo j) /\ (forall j, exists i, s i j = hi j).
(** Its middle and the square of its diagonal. *)
Definition middle (lo hi : 'I_2 -> F) (j : 'I_2) : F := (lo j + hi j) / 2%:R.
Definition diagonal2 (lo hi : 'I_2 -> F) : F := (hi 0 - lo 0) ^+ 2 + (hi 1 - lo 1) ^+ 2.
(** Boxes with the same ratio of height and width. *)
Definition same_aspect (lo hi lo' hi' : 'I_2 -> F) : Prop := (hi 0 - lo 0) * (hi' 1 - lo' 1) = (hi 1 - lo 1) * (hi' 0 - lo' 0).
(** A box with an inside. *)
Definition proper_box (lo hi : 'I_2 -> F) : Prop := forall j, lo j < hi j.
(** A shape moved and uniformly scaled, not turned. *)
Definition upright N (k : F) (t : 'I_2 -> F) (s : 'M[F]_(N, 2)) : 'M[F]_(N, 2) := \matrix_(i, j) (k * s i j + t j).
End Boxes.
