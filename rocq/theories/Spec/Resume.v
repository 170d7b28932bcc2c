(** What it means that a fit continues where another one stopped. *)
From Verif.Model Require Import Py.
From mathcomp Require Import all_ssreflect.
Set Implicit Arguments.
Unset Strict Implicit.
Unset Printing Implicit Defensive.

(** The last update moved by more than the tolerance: the run stopped because its budget was used up. *)
Definition still_moving (Sh : Type) (exceeds : Sh -> Sh -> bool) (ss : seq Sh) : Prop :=
  forall pre a b, ss = pre ++ [:: a; b] -> exceeds a b.
(** Two lists where the second starts with the last element of the first: written once. *)
Definition joined (A : Type) (l l' : seq A) : seq A := l ++ behead l'.
Definition joined_opt (A : Type) (l l' : option (seq A)) : option (seq A) :=
  match l, l' with Some a, Some b => Some (joined a b) | _, _ => None end.
(** What is left behind and reported by the whole fit, given what the first part reported. *)
Definition continued (S P Sh K : Type) (ps : seq P) (ss : seq Sh) (ks : option (seq K)) (rest : S * res (seq P * seq Sh * option (seq K)))
  : S * res (seq P * seq Sh * option (seq K)) :=
  match rest with
  | (s, Ok (ps', ss', ks')) => (s, Ok (joined ps ps', joined ss ss', joined_opt ks ks'))
  | (s, Err e) => (s, Err e)
  end.
(** The same with appearance parameters. *)
Definition continued_app (S P C Sh K : Type) (ps : seq P) (cs : seq C) (ss : seq Sh) (ks : option (seq K))
    (rest : S * res (seq P * seq C * seq Sh * option (seq K))) : S * res (seq P * seq C * seq Sh * option (seq K)) :=
  match rest with
  | (s, Ok (ps', cs', ss', ks')) => (s, Ok (joined ps ps', joined cs cs', joined ss ss', joined_opt ks ks'))
  | (s, Err e) => (s, Err e)
  end.
