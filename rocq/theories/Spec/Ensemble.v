(** Changes of brightness and contrast, and what a trained expert may depend on (C98, C99). *)
From Coq Require Import List Reals.
Import ListNotations.

(** A channel seen with another brightness [b] and contrast [a]. *)
Definition recoloured (a b : R) (c : list R) : list R := map (fun x => (a * x + b)%R) c.
(** Each channel of a window may change in its own way. *)
Definition channels_recoloured (w w' : list (list R)) : Prop :=
  Forall2 (fun c c' => exists a b, (0 < a)%R /\ c' = recoloured a b c) w w'.

(** Two lists agree at one place. *)
Definition agree_at {X} (k : nat) (l l' : list X) : Prop := nth_error l k = nth_error l' k.
(** The greatest entry of a table is the one at [(i, j)], and no other is as great. *)
Definition strict_peak (t : list (list R)) (i j : nat) : Prop :=
  exists r m, nth_error t i = Some r /\ nth_error r j = Some m /\
    forall i' j' r' x, nth_error t i' = Some r' -> nth_error r' j' = Some x -> (i', j') <> (i, j) -> (x < m)%R.
