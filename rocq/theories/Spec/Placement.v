(** What it means that training does not depend on where in its image each face is (C105). *)
From Verif.Model Require Import Py ModelInstance.
From Verif.Model Require SdmAlgorithm.
From Verif.Spec Require Import ModelInstance Pose Moves.
From Coq Require List.
From mathcomp Require Import all_ssreflect all_algebra.
Set Implicit Arguments.
Unset Strict Implicit.
Unset Printing Implicit Defensive.
Local Open Scope ring_scope.

Section Spec.
Variable F : realFieldType.
Variable N : nat.
Variables (I X : Type).
Notation shape := 'M[F]_(N, 2).
(** A training image with its annotation and the shapes training starts from; the same image with its contents moved, and by
    how much. *)
Record example := Example { e_image : I; e_annotation : shape; e_starts : seq shape; e_moved : I; e_by : F * F }.
(** The moved image shows at moved shapes what the image shows at the shapes. *)
Definition really_moved (look : I -> shape -> res X) (x : example) : Prop :=
  forall s, look (e_moved x) (shifted (e_by x) s) = look (e_image x) s.
(** One call of train or increment, and the same call with every image, annotation and start moved. *)
Record session := Session { s_increment : bool; s_verbose : bool; s_examples : seq example }.
Definition as_it_is (c : session) : SdmAlgorithm.call shape I :=
  SdmAlgorithm.Call (s_increment c) (s_verbose c) [seq e_image x | x <- s_examples c] [seq e_annotation x | x <- s_examples c] [seq e_starts x | x <- s_examples c].
Definition all_moved (c : session) : SdmAlgorithm.call shape I :=
  SdmAlgorithm.Call (s_increment c) (s_verbose c) [seq e_moved x | x <- s_examples c] [seq shifted (e_by x) (e_annotation x) | x <- s_examples c]
    [seq [seq shifted (e_by x) s | s <- e_starts x] | x <- s_examples c].
(** Trained to the same regressors and the same appearance model. *)
Definition trained_alike (R M A : Type) (a a' : SdmAlgorithm.algorithm R M A) : Prop :=
  SdmAlgorithm.a_regressors a' = SdmAlgorithm.a_regressors a /\ SdmAlgorithm.a_appearance a' = SdmAlgorithm.a_appearance a.
(** The estimates of two trainings: those of each image moved by its amount. *)
Definition moved_estimates (xs : seq example) (c c' : seq (seq shape)) : Prop :=
  size c = size xs /\ c' = [seq [seq shifted (e_by q.1) s | s <- q.2] | q <- zip xs c].
(** Two shape models with the same mean, components and similarity components. *)
Definition same_pdm (d d' : opdm F N) : Prop := trained_pdm d /\ o_model d' = o_model d /\ o_simcomps d' = o_simcomps d.
End Spec.
