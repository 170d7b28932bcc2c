(** Specifications of the error statistics. *)
From Coq Require Import List QArith ZArith.
Import ListNotations.
Local Open Scope Q_scope.

(** [q] is the fraction of the items of [l] that satisfy [P]: [k] of them do, and [q = k / n]. *)
Inductive counts (P : Q -> Prop) : list Q -> nat -> Prop :=
| counts_nil : counts P [] 0
| counts_yes : forall x l k, P x -> counts P l k -> counts P (x :: l) (S k)
| counts_no : forall x l k, ~ P x -> counts P l k -> counts P (x :: l) k.
Definition fraction (P : Q -> Prop) (l : list Q) (q : Q) : Prop :=
  exists k, counts P l k /\ q * inject_Z (Z.of_nat (length l)) == inject_Z (Z.of_nat k).

(** The integral of a t^2 + b t + c over [x, y]. *)
Definition quad_integral (a b c x y : Q) : Q := a * (y * y * y - x * x * x) / 3 + b * (y * y - x * x) / 2 + c * (y - x).
(** [A] is the area under the parabolas through each three successive points (three, then two more each time). *)
Inductive parabolas : list Q -> list Q -> Q -> Prop :=
| par_one : forall x y A, A == 0 -> parabolas [x] [y] A
| par_cons : forall x0 x1 x2 xs y0 y1 y2 ys a b c A B,
    y0 == a * x0 * x0 + b * x0 + c -> y1 == a * x1 * x1 + b * x1 + c -> y2 == a * x2 * x2 + b * x2 + c ->
    parabolas (x2 :: xs) (y2 :: ys) B -> A == quad_integral a b c x0 x2 + B ->
    parabolas (x0 :: x1 :: x2 :: xs) (y0 :: y1 :: y2 :: ys) A.
(** With an even number of points one interval, the first or the last, is given a trapezoid; the area is the mean of both. *)
Definition trapezoid (x0 x1 y0 y1 : Q) : Q := (x1 - x0) * (y0 + y1) / 2.
Inductive area_rule : list Q -> list Q -> Q -> Prop :=
| area_odd : forall xs ys A, Nat.odd (length xs) = true -> parabolas xs ys A -> area_rule xs ys A
| area_even : forall x0 x1 xm xs xn y0 y1 ym ys yn A B C, Nat.odd (length (x1 :: xs)) = true ->
    x1 :: xs = xm ++ [xn] -> y1 :: ys = ym ++ [yn] ->
    parabolas (x1 :: xs) (y1 :: ys) B -> parabolas (x0 :: xm) (y0 :: ym) C ->
    A == (trapezoid x0 x1 y0 y1 + B + (C + trapezoid (last (x0 :: xm) 0) xn (last (y0 :: ym) 0) yn)) / 2 ->
    area_rule (x0 :: x1 :: xs) (y0 :: y1 :: ys) A.
(** Strictly increasing. *)
Inductive increasing : list Q -> Prop :=
| inc_nil : increasing []
| inc_one : forall x, increasing [x]
| inc_cons : forall x y l, x < y -> increasing (y :: l) -> increasing (x :: y :: l).
