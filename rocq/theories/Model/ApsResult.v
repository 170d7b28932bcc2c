(** The costs of active pictorial structures: aps/result.py. *)
From Coq Require Import List.
From Verif.Model Require Import Py Result.
Import ListNotations.

(** APSAlgorithmResult, aps/result.py 46-74: a parametric result with two more lists of costs. *)
Record aps_scale_result (Sh P A C : Type) := mkApsScale {
  a_result : iresult Sh P A C;
  a_appearance : option (list C);
  a_deformation : option (list C) }.
Arguments mkApsScale {Sh P A C}. Arguments a_result {Sh P A C}. Arguments a_appearance {Sh P A C}. Arguments a_deformation {Sh P A C}.

(** APSResult.__init__, aps/result.py 108-124: the multi-scale result, the appearance costs and the deformation costs. *)
Definition aps_result {Sh P A C} (results : list (aps_scale_result Sh P A C)) (n : nat) (affine scale : list (Sh -> Sh)) (gt : option Sh)
  : res (mresult Sh P A C * option (list C) * option (list C)) :=
  let? m := multi_parametric (map a_result results) n affine scale gt in
  let? appearance := concat_attr (map a_appearance results) in
  let? deformation := concat_attr (map a_deformation results) in
  Ok (m, appearance, deformation).
