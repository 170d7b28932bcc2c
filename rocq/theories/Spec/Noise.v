(** Specification of noisy alignments. *)
From Coq Require Import List Reals.
Import ListNotations.
Local Open Scope R_scope.
(** The three percentages (scale, rotation, translation) a user means: one number for all, or three. *)
Definition means (l : list R) (p0 p1 p2 : R) : Prop := l = [p0; p1; p2] \/ (l = [p0] /\ p1 = p0 /\ p2 = p0).
(** Side lengths of the box of a set of points. *)
Definition has_range (l : list (R * R)) (h w : R) : Prop :=
  (forall p q, In p l -> In q l -> fst p - fst q <= h /\ snd p - snd q <= w) /\
  (exists p q, In p l /\ In q l /\ fst p - fst q = h) /\ (exists p q, In p l /\ In q l /\ snd p - snd q = w).
