From Coq Require Import List QArith Qcanon.
Import ListNotations.
Local Open Scope Qc_scope.
(** A probability distribution: non-negative values that add up to one. *)
Definition total (l : list Qc) : Qc := fold_right Qcplus 0 l.
Definition distribution (l : list Qc) : Prop := Forall (fun v => 0 <= v) l /\ total l = 1.
(** Not all values are the same. *)
Definition varies (l : list Qc) : Prop := exists a b, In a l /\ In b l /\ a < b.
(** [q] orders the pixels as [p] does: in particular the peaks are at the same places. *)
Definition same_order (p q : list Qc) : Prop :=
  length p = length q /\ forall i j a b a' b', nth_error p i = Some a -> nth_error p j = Some b ->
    nth_error q i = Some a' -> nth_error q j = Some b' -> (a < b <-> a' < b').
