(** align_shapes, builder.py 409-427: shapes are centred and aligned by menpo's GeneralizedProcrustesAnalysis, which is
    not part of /repo: it is modelled as menpo/transform/groupalign/procrustes.py and base.py implement it, an assumption, with
    the alignment of Model/SimilarityModel.v.
    Shapes are N x 2 matrices over a real closed field (exact arithmetic; a norm of zero, for which numpy divides by zero and
    goes on with nan, gives the factor zero). *)
From Verif.Model Require Import Py ModelInstance SimilarityModel.
From mathcomp Require Import all_ssreflect all_algebra.
Set Implicit Arguments.
Unset Strict Implicit.
Unset Printing Implicit Defensive.
Import GRing.Theory Num.Theory.
Local Open Scope ring_scope.

Section Gpa.
Variable F : rcfType.
Variable N : nat.
Notation shape := 'M[F]_(N, 2).

(** menpo mean_pointcloud of shapes. *)
Definition mean_shape (ss : seq shape) : shape := (size ss)%:R^-1 *: \sum_(s <- ss) s.
(** AlignmentSimilarity(s, t).aligned_source(). *)
Definition aligned (t s : shape) : shape := sim_apply (procrustes s t) s.
(** 1e-6. *)
Definition tolerance : F := (10%:R ^+ 6)^-1.
(** _recursive_procrustes: the target at which it stops.  The mean of the aligned shapes is given the size of the first target;
    the recursion ends when the target moved by less than the tolerance, or after max_iterations = 100 targets. *)
Fixpoint gpa_target (max_iterations : nat) (sources : seq shape) (initial_target_scale : F) (target : shape) : shape :=
  match max_iterations with
  | 0%N => target
  | m.+1 =>
      let average := mean_shape [seq aligned target s | s <- sources] in
      let new_target := (initial_target_scale / norm average) *: average in
      if Num.sqrt (dot (target - new_target) (target - new_target)) < tolerance then target
      else gpa_target m sources initial_target_scale new_target
  end.
(** GeneralizedProcrustesAnalysis(sources) and the aligned sources of its transforms; one source is refused
    by menpo (MultipleAlignment.__init__: "Need at least two sources to align"). *)
Definition gpa (sources : seq shape) : res (seq shape) :=
  if (size sources < 2)%N then Err (UserExn 0)
  else
    let target := mean_shape sources in
    let final := gpa_target 100 sources (norm target) target in
    Ok [seq aligned final s | s <- sources].
(** align_shapes, builder.py 423-426. *)
Definition align_shapes (shapes : seq shape) : res (seq shape) := gpa [seq centred s | s <- shapes].
End Gpa.
