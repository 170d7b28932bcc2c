(** Gauss-Newton increments of the constrained local models (clm/algorithm/gd.py), of the unified AAM-CLM algorithms
    (unified_aam_clm/algorithm.py) and of the active pictorial structures (aps/algorithm/gn.py), as matrices over an ordered
    field (exact arithmetic); vectors are one-column matrices. *)
From Verif.Model Require Import Py Einsum ModelInstance Jacobian LinAlg.
From mathcomp Require Import all_ssreflect all_algebra.
Set Implicit Arguments.
Unset Strict Implicit.
Unset Printing Implicit Defensive.
Import GRing.Theory Num.Theory.
Local Open Scope ring_scope.

Section Updates.
Variable F : realFieldType.

(** ** clm/algorithm/gd.py *)
(** rho2_inv_L, 46-49: four zeros for the similarity, rho2 / eigenvalues for the others (unified 151-153 and 301-303 with 1 in
    place of rho2).  Division by a zero eigenvalue (inf in numpy) is zero here: theorems ask for positive eigenvalues. *)
Definition shape_prior k (rho2 : F) (ev : 'cV[F]_k) : 'cV[F]_(4 + k) := col_mx 0 (\col_i (rho2 / ev i 0)).
(** _precompute, 51-58: the Jacobian pseudo-inverse and the inverse Hessian with the prior. *)
Definition clm_precompute n P (J : 'M[F]_(n, P)) (rho2_inv_L : 'cV[F]_P) : res ('M[F]_(P, n) * 'M[F]_P) :=
  let JJ := J^T *m J in
  let? pinv_J := np_solve JJ J^T in
  let? inv_JJ_prior := np_inv (JJ + diag_mx rho2_inv_L^T) in
  Ok (pinv_J, inv_JJ_prior).
(** The increment, 184-189 and 323-328. *)
Definition clm_increment n P (map_inference : bool) (J : 'M[F]_(n, P)) (rho2_inv_L : 'cV[F]_P)
    (pre : 'M[F]_(P, n) * 'M[F]_P) (p : 'cV[F]_P) (error : 'cV[F]_n) : 'cV[F]_P :=
  if map_inference then
    let Je := (\col_i (rho2_inv_L i 0 * p i 0)) - J^T *m error in - (pre.2 *m Je)
  else pre.1 *m error.
Definition clm_step n P (map_inference : bool) (J : 'M[F]_(n, P)) (rho2_inv_L p : 'cV[F]_P) (error : 'cV[F]_n) : res 'cV[F]_P :=
  let? pre := clm_precompute J rho2_inv_L in Ok (clm_increment map_inference J rho2_inv_L pre p error).

(** ** unified_aam_clm/algorithm.py *)
(** _precompute_clm 84-90 and ProjectOutRegularisedLandmarkMeanShift._precompute 134-159; [U] is the masked appearance basis,
    [P_U] its pseudo-inverse, [j] the steepest descent images and [jc] the Jacobian of the shape model. *)
Definition po_precompute n m s P (U : 'M[F]_(n, m)) (P_U : 'M[F]_(m, n)) (j : 'M[F]_(n, P)) (jc : 'M[F]_(s, P))
    (inv_sigma2 inv_rho2 : F) (j_prior : 'cV[F]_P) : res ('M[F]_(P, n) * 'M[F]_(P, s) * 'M[F]_P * 'M[F]_(n, P) * 'M[F]_(s, P)) :=
  let j_po := project_out U P_U j in
  let j_aam := inv_sigma2 *: j_po in
  let h_aam := j_aam^T *m j_po in
  let j_clm := inv_rho2 *: jc in
  let h_clm := j_clm^T *m jc in
  let h := h_aam + h_clm in
  let? pinv_j_aam := np_solve h j_aam^T in
  let? pinv_j_clm := np_solve h j_clm^T in
  let? inv_h_prior := np_inv (h + diag_mx j_prior^T) in
  Ok (pinv_j_aam, pinv_j_clm, inv_h_prior, j_aam, j_clm).
(** The increment of ProjectOut..., 237-243. *)
Definition po_step n m s P (prior : bool) (a : F) (U : 'M[F]_(n, m)) (P_U : 'M[F]_(m, n)) (j : 'M[F]_(n, P)) (jc : 'M[F]_(s, P))
    (inv_sigma2 inv_rho2 : F) (j_prior p : 'cV[F]_P) (e_aam : 'cV[F]_n) (e_clm : 'cV[F]_s) : res 'cV[F]_P :=
  let? pre := po_precompute U P_U j jc inv_sigma2 inv_rho2 j_prior in
  let '(pinv_j_aam, pinv_j_clm, inv_h_prior, j_aam, j_clm) := pre in
  if prior then
    let b := (\col_i (j_prior i 0 * p i 0)) - a *: (j_aam^T *m e_aam) - (1 - a) *: (j_clm^T *m e_clm) in
    Ok (- (inv_h_prior *m b))
  else Ok (pinv_j_aam *m e_aam + pinv_j_clm *m e_clm).
(** AlternatingRegularisedLandmarkMeanShift, 388-408. *)
Definition alt_step n s P (prior : bool) (a : F) (j : 'M[F]_(n, P)) (jc : 'M[F]_(s, P))
    (inv_sigma2 inv_rho2 : F) (j_prior p : 'cV[F]_P) (e_aam : 'cV[F]_n) (e_clm : 'cV[F]_s) : res 'cV[F]_P :=
  let j_aam := inv_sigma2 *: j in
  let h_aam := j_aam^T *m j in
  let j_clm := inv_rho2 *: jc in
  let h_clm := j_clm^T *m jc in
  if prior then
    let h := a *: h_aam + (1 - a) *: h_clm + diag_mx j_prior^T in
    let b := (\col_i (j_prior i 0 * p i 0)) - a *: (j_aam^T *m e_aam) - (1 - a) *: (j_clm^T *m e_clm) in
    let? x := np_solve h b in Ok (- x)
  else np_solve (a *: h_aam + (1 - a) *: h_clm) (a *: (j_aam^T *m e_aam) + (1 - a) *: (j_clm^T *m e_clm)).
(** cost_closure, 205-207 and 350-352. *)
Definition unified_cost n s (x : 'cV[F]_n) (y : 'cV[F]_s) (a : F) : F := a * (x^T *m x) 0 0 + (y^T *m y) 0 0.

(** ** aps/algorithm/gn.py *)
(** J_a_T_Q_a, 227. *)
Definition J_a_T_Q_a n P (J_a : 'M[F]_(n, P)) (Q_a : 'M[F]_n) : 'M[F]_(P, n) := (Q_a *m J_a)^T.
(** H_s, 118-119. *)
Definition H_s s P (S : 'M[F]_(s, P)) (Q_d : 'M[F]_s) (weight : F) : 'M[F]_P :=
  let tmp := S^T *m Q_d in weight *: (tmp *m S).
(** p_list[-1].copy() with p[0:4] = 0 when use_procrustes, 467-469 and 617-619. *)
Definition aps_parameters P (use_procrustes : bool) (p : 'cV[F]_P) : 'cV[F]_P :=
  if use_procrustes then \col_i (if (i < 4)%N then 0 else p i 0) else p.
(** Forward: the increment, 609-621, and the new parameters, 625-626. *)
Definition aps_forward n P (use_procrustes : bool) (J_a : 'M[F]_(n, P)) (Q_a : 'M[F]_n) (Hs : 'M[F]_P) (e_m : 'cV[F]_n) (p : 'cV[F]_P)
  : res 'cV[F]_P :=
  let JQ := J_a_T_Q_a J_a Q_a in
  let H := JQ *m J_a + Hs in
  let b := JQ *m e_m + Hs *m aps_parameters use_procrustes p in
  let? x := np_solve H b in
  let dp := - x in Ok (p + dp).
(** Inverse: precomputed 383-388, the increment 466-471 and the new parameters 475-476. *)
Definition aps_inverse n P (use_procrustes : bool) (J_a : 'M[F]_(n, P)) (Q_a : 'M[F]_n) (Hs : 'M[F]_P) (e_m : 'cV[F]_n) (p : 'cV[F]_P)
  : res 'cV[F]_P :=
  let JQ := J_a_T_Q_a J_a Q_a in
  let? inv_H := np_inv (JQ *m J_a + Hs) in
  let b := JQ *m e_m + Hs *m aps_parameters use_procrustes p in
  let dp := inv_H *m b in Ok (p - dp).
(** _precompute 360-362: tolil()[x, y] with x, y = np.meshgrid(i_mask, i_mask), that is x[i, j] = i_mask[j] and
    y[i, j] = i_mask[i]. *)
Definition masked_precision n m (Q_a : 'M[F]_n) (i_mask : 'I_m -> 'I_n) : 'M[F]_m := \matrix_(i, j) Q_a (i_mask j) (i_mask i).
(** appearance_cost_closure, 425-427 and 563-565: the squared Mahalanobis distance of the (masked) error under the
    appearance model, whose precision is not masked; a vector of another length raises. *)
Definition aps_appearance_cost n m (Q_model : 'M[F]_n) (x : 'cV[F]_m) : res F :=
  match @eqP _ m n with
  | ReflectT E => let x := castmx (E, erefl) x in Ok ((x^T *m Q_model *m x) 0 0)
  | ReflectF _ => Err ValueError
  end.
(** deformation_cost_closure, 429-434 and 567-572. *)
Definition aps_deformation_cost s (Q_d : 'M[F]_s) (mean_vector : 'cV[F]_s) (weight : F) (x : 'cV[F]_s) : F :=
  let t := x - mean_vector in (t^T *m Q_d *m t) 0 0 * weight.
End Updates.

(** ** Shapes as vectors *)
Section Vectors.
Variable F : realFieldType.
Variable N : nat.
Notation shape := 'M[F]_(N, 2).
(** menpo PointCloud.as_vector: points.ravel(). *)
Definition as_vector (s : shape) : 'cV[F]_(N * 2) := \col_r at_ s (r %/ 2) (r %% 2).
(** np.rollaxis(d_dp, -1, 1).reshape((-1, n_params)), clm gd.py 52-53 and unified 85-86: rows in C order. *)
Definition jacobian_matrix P (t : tensor F) : 'M[F]_(N * 2, P) :=
  \matrix_(r, k) t_get t [:: (r %/ 2)%N; nat_of_ord k; (r %% 2)%N].
(** aps gn.py ds_dp 80 (np.rollaxis(d_dp, -1): dims x points x params) and ds_dp_vectorized 94-95 (reshape in Fortran order:
    the first index runs fastest). *)
Definition ds_dp (t : tensor F) : tensor F :=
  cube 2 N (nth 0%N (t_shape t) 1) (fun d i k => t_get t [:: i; k; d]).
Definition ds_dp_vectorized P (t : tensor F) : 'M[F]_(N * 2, P) :=
  \matrix_(r, k) t_get (ds_dp t) [:: (r %% 2)%N; (r %/ 2)%N; nat_of_ord k].

(** One iteration of a constrained local model after its error is known: increment, then
    transform._from_vector_inplace(as_vector() + dp), gd.py 184-193 and 323-332.  [d] is the shape model, [J] the Jacobian
    that the constructor computed. *)
Variable align : shape -> shape -> sim F.
Definition clm_update P src (map_inference : bool) (J : 'M[F]_(N * 2, P)) (rho2_inv_L : 'cV[F]_P) (d : opdm F N)
    (error : 'cV[F]_(N * 2)) : opdm F N * res unit :=
  let p := opdm_vector d in
  match clm_step map_inference J rho2_inv_L (\col_i nth 0 p i) error with
  | Err e => (d, Err e)
  | Ok dp => opdm_from_vector align src [seq nth 0 p i + (if insub i is Some i' then dp i' 0 else 0) | i <- iota 0 (size p)] d
  end.
End Vectors.
