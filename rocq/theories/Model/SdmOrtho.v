(** The OrthoPDM as the shape model of the supervised descent algorithms: the calls model.set_target and
    model._from_vector_inplace of sdm/algorithm/base.py 448-454, 490-495, 574-592 on the model of modelinstance.py 591-693
    (Model/ModelInstance.v), with exceptions as results. *)
From Verif.Model Require Import Py ModelInstance.
From mathcomp Require Import all_ssreflect all_algebra.
Set Implicit Arguments.
Unset Strict Implicit.
Unset Printing Implicit Defensive.
Local Open Scope ring_scope.

Section Ortho.
Variable F : realFieldType.
Variable N : nat.
Notation shape := 'M[F]_(N, 2).
Variable align : shape -> shape -> sim F.
Variable src : shape.
Definition ortho_set_target (d : opdm F N) (t : shape) : res (opdm F N) :=
  match opdm_set_target align src t d with (d', Ok _) => Ok d' | (_, Err e) => Err e end.
(** Simplification: a vector whose length is not the number of parameters is refused (in the code vectors of deltas, predictions
    and parameters are rows of arrays of that width; base.py 442). *)
Definition ortho_from_vector (d : opdm F N) (v : seq F) : res (opdm F N) :=
  if (size (o_simweights d) == size (o_simcomps d)) && (size v == size (o_simcomps d) + size (active (o_model d)))%N then
    match opdm_from_vector align src v d with (d', Ok _) => Ok d' | (_, Err e) => Err e end
  else Err ValueError.
End Ortho.
