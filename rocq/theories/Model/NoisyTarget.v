(** Alignment to a noisy target: noisy_target_alignment_transform, menpofit/fitter.py 96-124.  Exact real numbers, points
    (row, column). *)
From Coq Require Import List Arith Reals.
From Verif.Model Require Import Py Preprocess.
Import ListNotations.
Local Open Scope R_scope.

(** noise_std: a float, or a list of floats. *)
Inductive deviation := OneStd (s : R) | ListStd (l : list R).
(** target.range(): per axis, the greatest minus the least coordinate; numpy refuses an empty array. *)
Definition range_of (target : list (R * R)) : res (R * R) :=
  match target with
  | [] => Err ValueError
  | p :: r => Ok (highest (fst p) (map fst r) - lowest (fst p) (map fst r), highest (snd p) (map snd r) - lowest (snd p) (map snd r))
  end.
(** [noise_std * target.range()], 121.  A list times an array of two numbers is numpy's: shapes (k,) and (2,) are broadcast. *)
Definition times_range (s : deviation) (r : R * R) : res (R * R) :=
  match s with
  | OneStd s => Ok (s * fst r, s * snd r)
  | ListStd [a] => Ok (a * fst r, a * snd r)
  | ListStd [a; b] => Ok (a * fst r, b * snd r)
  | ListStd _ => Err ValueError
  end.
(** The rows of np.random.randn(target.n_points, target.n_dims) are the values of [draws] from [k] on; 121-123. *)
Fixpoint add_noise (f : R * R) (draws : nat -> R * R) (k : nat) (pts : list (R * R)) : list (R * R) :=
  match pts with
  | [] => []
  | p :: r => (fst p + fst f * fst (draws k), snd p + snd f * snd (draws k)) :: add_noise f draws (S k) r
  end.
Section Align.
  Context {T : Type}.
  (** alignment_transform_cls(source, target, **kwargs) (external). *)
  Variable align : list (R * R) -> list (R * R) -> res T.
  (** 121-124 *)
  Definition noisy_target_alignment_transform (source target : list (R * R)) (noise_std : deviation) (draws : nat -> R * R) : res T :=
    let? r := range_of target in
    let? f := times_range noise_std r in
    align source (add_noise f draws 0 target).
End Align.
