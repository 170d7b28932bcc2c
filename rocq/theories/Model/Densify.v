(** Dense shapes and the linear model-driven transform: builder.py 376-404, transform/modeldriven.py 518-612.
    Shapes are lists of points for densify_shapes, and N x 2 matrices of points over an ordered field for the transform (as in
    Model/ModelInstance.v). *)
From Verif.Model Require Import Py ModelInstance.
From mathcomp Require Import all_ssreflect all_algebra.
Set Implicit Arguments.
Unset Strict Implicit.
Unset Printing Implicit Defensive.
Import GRing.Theory Num.Theory.
Local Open Scope ring_scope.

Section Builder.
Variable Pt : Type.
(** A reference frame: the landmarks of its group 'source' and the indices of the true pixels of its mask. *)
Record frame := Frame { f_source : seq Pt; f_true : seq Pt }.
(** The transform class: transform(source, target).apply; constructing it may raise. *)
Variable transform : seq Pt -> seq Pt -> res (seq Pt -> seq Pt).
(** builder.py 376-404: all the transforms first (395-396), then, zipped with the shapes, the stacked points (399-402). *)
Definition densify_shapes (shapes : seq (seq Pt)) (fr : frame) : res (seq (seq Pt)) :=
  let? transforms := mapM (fun s => transform (f_source fr) s) shapes in
  Ok [seq ts.2 ++ ts.1 (f_true fr) | ts <- zip transforms shapes].
End Builder.

Section Linear.
Variable F : realFieldType.
(** n_landmarks sparse points (of the sparse instance), k dense points. *)
Variables n k : nat.
Notation shape := 'M[F]_(n + k, 2).
Notation sparse := 'M[F]_(n, 2).
(** np.linalg.pinv. *)
Variable pinv : forall p q, 'M[F]_(p, q) -> 'M[F]_(q, p).
Variable align : shape -> shape -> sim F.
Variable orthonormalize : lmodel F (n + k) -> seq shape * lmodel F (n + k).

(** The rows of W as vectors (as_vector of a shape is its points in row order), and V, the columns of the first n points. *)
Definition rows_of m (cs : seq 'M[F]_(m, 2)) : 'M[F]_(size cs, m * 2) := \matrix_i mxvec (nth 0 cs i).
Definition V_of (W : seq shape) : 'M[F]_(size W, n * 2) := \matrix_i mxvec (usubmx (nth 0 W i)).

(** The object: the OrthoPDM it extends, W and pinv_V. *)
Record lintrans := Lintrans { l_pdm : opdm F (n + k); l_W : seq shape; l_pinv_V : 'M[F]_(n * 2, size l_W) }.
(** __init__, 543-549: W and pinv_V are computed once. *)
Definition linear_new (m : lmodel F (n + k)) : lintrans * res unit :=
  let '(d, r) := opdm_new align orthonormalize m in
  let W := o_simcomps d ++ active (o_model d) in
  (@Lintrans d W (pinv (V_of W)), r).
(** dense_target 560-567; sparse_target 569-577 (from_vector of the same number of points keeps the points). *)
Definition dense_target (l : lintrans) : 'M[F]_(k, 2) := dsubmx (o_target (l_pdm l)).
Definition sparse_target (l : lintrans) : sparse := usubmx (o_target (l_pdm l)).
(** _apply, 594-595: the argument is not used. *)
Definition linear_apply (l : lintrans) (x : sparse) : 'M[F]_(k, 2) := dsubmx (o_target (l_pdm l)).
(** 590-591: np.dot(np.dot(target.as_vector(), pinv_V), W), reshaped. *)
Definition densify (l : lintrans) (x : sparse) : shape := vec_mx (mxvec x *m l_pinv_V l *m rows_of (l_W l)).
(** A target with any number of points. *)
Definition as_points m N (s : 'M[F]_(m, 2)) : option 'M[F]_(N, 2) :=
  match m =P N with ReflectT e => Some (castmx (e, erefl) s) | ReflectF _ => None end.
(** set_target, 579-592; a target whose size is neither n nor n + k does not fit the model: ValueError in project. *)
Definition linear_set_target src m (t : 'M[F]_(m, 2)) (l : lintrans) : lintrans * res unit :=
  let full := match as_points n t with Some x => Some (densify l x) | None => as_points (n + k) t end in
  match full with
  | None => (l, Err ValueError)
  | Some s => let '(d, r) := opdm_set_target align src s (l_pdm l) in (@Lintrans d (l_W l) (l_pinv_V l), r)
  end.
(** OrthoPDM.increment (683-693) and the n_active_components setter are inherited: they do not touch W and pinv_V. *)
Definition linear_increment src (m' : lmodel F (n + k)) (l : lintrans) : lintrans * res unit :=
  let '(d, r) := opdm_increment align orthonormalize src m' (l_pdm l) in (@Lintrans d (l_W l) (l_pinv_V l), r).
Definition linear_set_active src (v : nat) (l : lintrans) : lintrans * res unit :=
  let '(d, r) := opdm_set_active align src v (l_pdm l) in (@Lintrans d (l_W l) (l_pinv_V l), r).
End Linear.
