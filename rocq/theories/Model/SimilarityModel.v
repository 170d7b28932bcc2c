(** The similarity model of a shape, the model whose only parameters are a similarity, and the alignment both use:
    modelinstance.py 12-68 and 183-280, transform/homogeneous.py (DifferentiableAlignmentSimilarity).
    Shapes are N x 2 matrices over a real closed field (exact arithmetic). *)
From Verif.Model Require Import Py ModelInstance.
From mathcomp Require Import all_ssreflect all_algebra.
Set Implicit Arguments.
Unset Strict Implicit.
Unset Printing Implicit Defensive.
Import GRing.Theory Num.Theory.
Local Open Scope ring_scope.

Section Basis.
Variable F : realFieldType.
Variable N : nat.
Notation shape := 'M[F]_(N, 2).
(** modelinstance.py 63-64: the two columns are swapped, then the first is negated. *)
Definition rotated_ccw (s : shape) : shape :=
  let flipped : shape := \matrix_(i, j) s i (if j == 0 then 1 else 0) in
  \matrix_(i, j) (if j == 0 then - flipped i 0 else flipped i j).
(** similarity_2d_instance_model, modelinstance.py 60-68: the shape, the rotated shape, Tx and Ty (rows 66-67 set the even and
    the odd entries of the flattened points). *)
Definition similarity_2d_instance_model (s : shape) : lmodel F N :=
  LModel s [:: s; rotated_ccw s; \matrix_(i, j) (if j == 0 then 1 else 0); \matrix_(i, j) (if j == 0 then 0 else 1)] 4.
End Basis.

Section Align.
Variable F : rcfType.
Variable N : nat.
Notation shape := 'M[F]_(N, 2).
(** menpo PointCloud.centre: the mean of the points; the points minus it. *)
Definition centre (s : shape) (j : 'I_2) : F := (\sum_i s i j) / N%:R.
Definition centred (s : shape) : shape := \matrix_(i, j) (s i j - centre s j).
(** menpo PointCloud.norm: the Frobenius norm of the centred points. *)
Definition norm (s : shape) : F := Num.sqrt (dot (centred s) (centred s)).
(** menpo AlignmentSimilarity (procrustes_alignment): centre both shapes, scale by the ratio of the norms, rotate by the
    proper rotation that correlates best (in two dimensions the direction of [(h0, h1)]; the identity when every rotation
    correlates alike, where menpo's singular value decomposition picks some rotation), then move to the centre of the target. *)
Definition procrustes (source target : shape) : sim F :=
  let p := centred source in let q := centred target in
  let h0 := dot p q in let h1 := dot (rotated_ccw p) q in
  let n := Num.sqrt (h0 ^+ 2 + h1 ^+ 2) in
  let k := norm target / norm source in
  let a := k * (if n == 0 then 1 else h0 / n) in
  let b := k * (if n == 0 then 0 else h1 / n) in
  Sim (a - 1) b (centre target 0 - (a * centre source 0 - b * centre source 1))
                (centre target 1 - (b * centre source 0 + a * centre source 1)).

(** GlobalSimilarityModel, modelinstance.py 183-280; [mean] is the mean of the aligned shapes (196-197). *)
Record gsm := Gsm { gs_mean : shape; gs_target : shape; gs_transform : sim F }.
(** __init__, 193-201. *)
Definition gsm_new (mean : shape) : gsm := Gsm mean mean (procrustes mean mean).
(** set_target, 230-241. *)
Definition gsm_set_target (t : shape) (d : gsm) : gsm :=
  let g := procrustes (gs_mean d) t in Gsm (gs_mean d) (sim_apply g (gs_mean d)) g.
(** weights and _as_vector, 212-219 and 243-253. *)
Definition gsm_vector (d : gsm) : seq F := sim_vector (gs_transform d).
(** _from_vector_inplace, 255-257. *)
Definition gsm_from_vector (v : seq F) (d : gsm) : gsm * res unit :=
  match sim_from_vector v with
  | Ok g => (Gsm (gs_mean d) (sim_apply g (gs_mean d)) g, Ok tt)
  | Err e => (d, Err e)
  end.
End Align.
