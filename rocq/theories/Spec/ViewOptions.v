(** One value for all landmark groups, or a list with one per group (C117). *)
From Coq Require Import List Arith.
From Verif.Model Require Import Py ViewOptions.
Import ListNotations.

(** What an option means for group [k], given the lists as the caller wrote them. *)
Definition meant {V} (h : lists V) (a : arg V) (k : nat) : option V :=
  match a with
  | Value v => Some v
  | Ref r => if length (h r) =? 1 then nth_error (h r) 0 else nth_error (h r) k
  end.
Definition acceptable {V} (h : lists V) (n : nat) (o : (V -> bool) * arg V) : Prop :=
  match snd o with Value v => fst o v = true | Ref r => length (h r) = 1 \/ length (h r) = n end.
