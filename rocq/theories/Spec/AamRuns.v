(** Which appearance parameters explain an image best. *)
From Verif.Spec Require Import LinAlg.
From mathcomp Require Import all_ssreflect all_algebra.
Set Implicit Arguments.
Unset Strict Implicit.
Unset Printing Implicit Defensive.
Import GRing.Theory Num.Theory.
Local Open Scope ring_scope.

Section Spec.
Variable F : realFieldType.
(** The squared distance of the pixels [i] from the instance with parameters [c] of the model with mean [a_bar] and
    components [A]. *)
Definition mismatch k m (A : 'M[F]_(k, m)) (a_bar i : 'cV[F]_k) (c : 'cV[F]_m) : F := sqn (i - (a_bar + A *m c)).
(** [c] are the only parameters whose instance is closest to the pixels [i]. *)
Definition explains k m (A : 'M[F]_(k, m)) (a_bar i : 'cV[F]_k) (c : 'cV[F]_m) : Prop := unique_minimum (mismatch A a_bar i) c.
(** The same with a prior of weights [w] on the parameters. *)
Definition explains_with k m (A : 'M[F]_(k, m)) (a_bar i : 'cV[F]_k) (w c : 'cV[F]_m) : Prop :=
  unique_minimum (fun c => mismatch A a_bar i c + wsqn w c) c.
(** [x] is the smallest value that [f] takes. *)
Definition least_value (T : Type) (f : T -> F) (x : F) : Prop := (exists y, f y = x) /\ forall y, x <= f y.
(** The increment by which an algorithm went from the shape parameters [p] to [p']: forward algorithms add it, inverse ones
    subtract it. *)
Definition increment n (forward : bool) (p p' : 'cV[F]_n) : 'cV[F]_n := if forward then p' - p else p - p'.
End Spec.
