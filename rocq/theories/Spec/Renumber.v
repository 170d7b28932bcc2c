(** Renumbering the landmarks: landmark [i] of the renumbered shape is landmark [p i] of the shape. *)
From Verif.Model Require Import Py ModelInstance Updates ClmFitter SdmVectors.
From mathcomp Require Import all_ssreflect all_fingroup all_algebra.
Set Implicit Arguments.
Unset Strict Implicit.
Unset Printing Implicit Defensive.
Local Open Scope ring_scope.

Definition map_res (A B : Type) (f : A -> B) (r : res A) : res B := match r with Ok a => Ok (f a) | Err e => Err e end.

Section Renumber.
Variable F : realFieldType.
Variable N : nat.
Notation shape := 'M[F]_(N, 2).
Variable p : 'S_N.

Definition renumbered (s : shape) : shape := \matrix_(i, j) s (p i) j.
(** The coordinates of the landmarks one after the other. *)
Definition renumbered_vector (v : 'cV[F]_(N * 2)) : 'cV[F]_(N * 2) := as_vector (renumbered (reshape_points 0 v)).
(** A linear model, its mean and components renumbered, and a shape model in the same state. *)
Definition renumbered_model (m : lmodel F N) : lmodel F N :=
  LModel (renumbered (m_mean m)) [seq renumbered c | c <- m_comps m] (m_active m).
Definition renumbered_pdm (d : opdm F N) : opdm F N :=
  Opdm (renumbered_model (o_model d)) (o_weights d) (renumbered (o_target d)) (o_sim d) [seq renumbered c | c <- o_simcomps d] (o_simweights d).
(** The result of a run: the shapes renumbered, the same parameters. *)
Definition renumbered_result (r : result F N) : result F N := Result [seq renumbered s | s <- r_shapes r] (r_params r).
(** A row of coordinates. *)
Definition renumbered_row (v : 'rV[F]_(N * 2)) : 'rV[F]_(N * 2) := (renumbered_vector v^T)^T.
(** The same calls with renumbered shapes. *)
Definition renumbered_call (Image : Type) (c : call F N Image) : call F N Image := Call (c_image c) (renumbered (c_shape c)) (c_max_iters c) (c_map c).
Definition renumbered_op (Image : Type) (o : op F N Image) : op F N Image :=
  match o with Build n => Build _ _ _ n | Fit i c => Fit i (renumbered_call c) end.
End Renumber.

(** An alignment that does not depend on the numbering. *)
Definition ignores_numbering (F : realFieldType) N (align : 'M[F]_(N, 2) -> 'M[F]_(N, 2) -> sim F) : Prop :=
  forall p s t, align (renumbered p s) (renumbered p t) = align s t.
