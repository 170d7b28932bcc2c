(** Specification of sampling. *)
From Coq Require Import List Sorting.Sorted.
Import ListNotations.
(** [idx] lists the positions where [m] is true, each once and in increasing order. *)
Definition positions (m : list bool) (idx : list nat) : Prop :=
  StronglySorted lt idx /\ forall i, In i idx <-> nth_error m i = Some true.
(** Number of true values before position i. *)
Definition rank (m : list bool) (i : nat) : nat := length (filter (fun b => b) (firstn i m)).
