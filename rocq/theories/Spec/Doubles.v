(** Specification of the statistics computed in double precision. *)
From Coq Require Import List QArith ZArith Reals.
From Verif.Spec Require Import Stats.
From Verif.Model Require Import Py Stats.
Import ListNotations.

(** [k] of the [n] errors do not exceed the bin [b]. *)
Definition below (errors : errseq) (b : binval) (k n : nat) : Prop :=
  counts (fun e => (e <= bin_value b)%Q) (err_items errors) k /\ n = length (err_items errors).
(** [k] of the [n] errors exceed the bin [b]: the images that failed. *)
Definition failed (errors : errseq) (b : binval) (k n : nat) : Prop :=
  counts (fun e => (bin_value b < e)%Q) (err_items errors) k /\ n = length (err_items errors).
