(** Linear algebra of the Gauss-Newton solvers.  Arrays are matrices over an ordered field (exact arithmetic instead of
    floating point); vectors are one-column matrices.  Dimensions are part of the types, so shape errors of numpy are not
    modelled here (see Model/PyInt.v for the one that the code can run into). *)
From Verif.Model Require Import Py.
From mathcomp Require Import all_ssreflect all_algebra.
Set Implicit Arguments.
Unset Strict Implicit.
Unset Printing Implicit Defensive.
Import GRing.Theory Num.Theory.
Local Open Scope ring_scope.

Section LinAlg.
Variable F : realFieldType.

(** np.linalg.inv and np.linalg.solve: LinAlgError on a singular matrix. *)
Definition np_inv n (A : 'M[F]_n) : res 'M[F]_n := if A \in unitmx then Ok (invmx A) else Err LinAlgError.
Definition np_solve n k (A : 'M[F]_n) (B : 'M[F]_(n, k)) : res 'M[F]_(n, k) :=
  if A \in unitmx then Ok (invmx A *m B) else Err LinAlgError.

(** aam/algorithm/lk.py 786-793 and 1472-1474 (Wiberg), aam/algorithm/sd.py 271-278: J - A_m.dot(pinv_A_m.dot(J)), where
    [P] is np.linalg.pinv(A_m). *)
Definition project_out n m k (A : 'M[F]_(n, m)) (P : 'M[F]_(m, n)) (J : 'M[F]_(n, k)) : 'M[F]_(n, k) := J - A *m (P *m J).
(** The cost x.T.dot(f(x)), aam/algorithm/lk.py 830-831. *)
Definition cost_of n m (A : 'M[F]_(n, m)) (P : 'M[F]_(m, n)) (x : 'cV[F]_n) : F := (x^T *m project_out A P x) 0 0.

(** solve_shape_ml, aam/algorithm/lk.py 237-256 (also clm and unified solvers). *)
Definition solve_shape_ml n m (H : 'M[F]_m) (J : 'M[F]_(n, m)) (e : 'cV[F]_n) : res 'cV[F]_m :=
  let? x := np_solve H (J^T *m e) in Ok (- x).
(** solve_shape_map, aam/algorithm/lk.py 205-234, when the two sizes agree: the increment, and H as left behind by
    [H += np.diag(J_prior)]. *)
Definition solve_shape_map n m (H : 'M[F]_m) (J : 'M[F]_(n, m)) (e : 'cV[F]_n) (J_prior p : 'cV[F]_m) : 'M[F]_m * res 'cV[F]_m :=
  let H := H + diag_mx J_prior^T in
  let Je := (\col_i (J_prior i 0 * p i 0)) + J^T *m e in
  (H, let? x := np_solve H Je in Ok (- x)).
(** _solve_all_ml, 23-26: H is (m+n) x (m+n). *)
Definition solve_all_ml k m n (H : 'M[F]_(m + n)) (J : 'M[F]_(k, m + n)) (e : 'cV[F]_k) : res ('cV[F]_m * 'cV[F]_n) :=
  let? x := np_solve H (J^T *m e) in Ok (usubmx (- x), dsubmx (- x)).
(** _solve_all_map, 10-20, when n = H.shape[0] - m. *)
Definition solve_all_map k m n (H : 'M[F]_(m + n)) (J : 'M[F]_(k, m + n)) (e : 'cV[F]_k)
    (Ja_prior c : 'cV[F]_m) (Js_prior p : 'cV[F]_n) : res ('cV[F]_m * 'cV[F]_n) :=
  let J_prior := col_mx Ja_prior Js_prior in
  let H := H + diag_mx J_prior^T in
  let Je := (\col_i (J_prior i 0 * (col_mx c p) i 0)) + J^T *m e in
  let? x := np_solve H Je in Ok (usubmx (- x), dsubmx (- x)).

(** One increment of each algorithm.  ProjectOutForwardCompositional._solve 895-910 and Wiberg 1547-1558, with the masked
    Jacobian J_m. *)
Definition project_out_step k m n (map_inference : bool) (A : 'M[F]_(k, m)) (P : 'M[F]_(m, k)) (J : 'M[F]_(k, n)) (e : 'cV[F]_k)
    (s2_inv_L p : 'cV[F]_n) : res 'cV[F]_n :=
  let QJ := project_out A P J in
  let JQJ := QJ^T *m J in
  if map_inference then snd (solve_shape_map JQJ QJ e s2_inv_L p) else solve_shape_ml JQJ QJ e.
(** ProjectOutInverseCompositional, 925-946, without prior: -pinv_QJ_m.dot(e_m) with pinv_QJ_m = solve(JQJ_m, QJ_m.T)
    computed in advance. *)
Definition project_out_inverse_step k m n (A : 'M[F]_(k, m)) (P : 'M[F]_(m, k)) (J : 'M[F]_(k, n)) (e : 'cV[F]_k) : res 'cV[F]_n :=
  let QJ := project_out A P J in
  let JQJ := QJ^T *m J in
  let? pinv_QJ := np_solve JQJ QJ^T in Ok (- (pinv_QJ *m e)).
(** Simultaneous._solve, 1071-1085. *)
Definition simultaneous_step k m n (map_inference : bool) (A : 'M[F]_(k, m)) (J : 'M[F]_(k, n)) (e : 'cV[F]_k)
    (s2_inv_S c : 'cV[F]_m) (s2_inv_L p : 'cV[F]_n) : res ('cV[F]_m * 'cV[F]_n) :=
  let J_sim := row_mx (- A) J in
  let H_sim := J_sim^T *m J_sim in
  if map_inference then solve_all_map H_sim J_sim e s2_inv_S c s2_inv_L p else solve_all_ml H_sim J_sim e.
(** Alternating, 1206-1225, without prior: first the appearance, then the shape; ModifiedAlternating, 1381-1391. *)
Definition alternating_step k m n (A : 'M[F]_(k, m)) (P : 'M[F]_(m, k)) (J : 'M[F]_(k, n)) (e Jdp : 'cV[F]_k) : res ('cV[F]_m * 'cV[F]_n) :=
  let dc := P *m (e + Jdp) in
  let? dp := solve_shape_ml (J^T *m J) J (e - A *m dc) in Ok (dc, dp).
Definition modified_alternating_step k n (map_inference : bool) (J : 'M[F]_(k, n)) (e : 'cV[F]_k) (s2_inv_L p : 'cV[F]_n) : res 'cV[F]_n :=
  if map_inference then snd (solve_shape_map (J^T *m J) J e s2_inv_L p) else solve_shape_ml (J^T *m J) J e.
(** The appearance weights of a masked image: c = pinv_A_m.dot(i_m - a_bar_m), 1017, 1192, 1368, 1405 and
    AppearanceWeights.project of sd.py 385-392. *)
Definition appearance_weights k m (P : 'M[F]_(m, k)) (i_m a_bar_m : 'cV[F]_k) : 'cV[F]_m := P *m (i_m - a_bar_m).

(** lk/algorithm.py with the SSD residual without kernel (lk/residual.py 226-283): forward additive and compositional
    increments, 133-140 and 260-267; inverse compositional, 334 and 387-391. *)
Definition lk_forward_step k n (J : 'M[F]_(k, n)) (image template : 'cV[F]_k) : res 'cV[F]_n :=
  let? x := np_solve (J^T *m J) (J^T *m (image - template)) in Ok (- x).
Definition lk_inverse_step k n (J : 'M[F]_(k, n)) (image template : 'cV[F]_k) : res 'cV[F]_n :=
  np_solve (J^T *m J) (J^T *m (image - template)).
End LinAlg.
