(** Jacobians of the transforms and of the shape models: transform/homogeneous.py, transform/piecewiseaffine.py,
    transform/thinsplatesplines.py, transform/modeldriven.py and the d_dp methods of modelinstance.py.
    Exact arithmetic over an ordered field. *)
From Coq Require Import String.
From Verif.Model Require Import Py Einsum ModelInstance.
From mathcomp Require Import all_ssreflect all_algebra.
Set Implicit Arguments.
Unset Strict Implicit.
Unset Printing Implicit Defensive.
Import GRing.Theory Num.Theory.
Local Open Scope ring_scope.

Section Jacobian.
Variable F : realFieldType.
Notation tensor := (tensor F).

(** A rank three array from its entries. *)
Definition cube (n p d : nat) (f : nat -> nat -> nat -> F) : tensor :=
  Tensor [:: n; p; d] (fun idx => match idx with [:: i; k; c] => f i k c | _ => 0 end).
Definition square (n d : nat) (f : nat -> nat -> F) : tensor :=
  Tensor [:: n; d] (fun idx => match idx with [:: i; c] => f i c | _ => 0 end).

(** ** transform/homogeneous.py *)
(** jac[:, full_mask] = vals[:, None] where full_mask has the identity in rows s .. s + d - 1 (316-319, 321-323). *)
Definition fill (d : nat) (jac : nat -> nat -> nat -> F) (s : nat) (vals : nat -> F) : nat -> nat -> nat -> F :=
  fun i k c => if ((s <= k) && (k < s + d) && (k - s == c))%N then vals i else jac i k c.
(** affine_d_dp, 268-324; [d] is the number of dimensions of the transform.  The variable s of the loop is used after it. *)
Definition affine_d_dp (d : nat) (points : tensor) : res tensor :=
  match t_shape points with
  | [:: n; pd] =>
      if pd != d then Err ValueError
      else if d == 0%N then Err NameError
      else
        let jac := foldl (fun jac i => fill d jac (i * d) (fun pt => t_get points [:: pt; i])) (fun _ _ _ => 0) (iota 0 d) in
        let s := (d.-1 * d)%N in
        Ok (cube n (d * d + d) d (fill d jac (s + d) (fun _ => 1)))
  | _ => Err ValueError
  end.
(** affine_d_dx, 235-265: the linear component with a leading axis of extent one. *)
Definition affine_d_dx (d : nat) (linear : nat -> nat -> F) : tensor := cube 1 d d (fun _ r c => linear r c).
(** menpo Affine.linear_component for the parameter vector p: the d x d part of the matrix eye + reshape(p, order F). *)
Definition affine_linear (d : nat) (p : nat -> F) (r c : nat) : F := (r == c)%:R + p (c * d + r)%N.
(** _apply_jacobian_mask, 384-391: one row of every point's Jacobian. *)
Definition set_row (jac : nat -> nat -> nat -> F) (row : nat) (vals : nat -> nat -> F) : nat -> nat -> nat -> F :=
  fun i k c => if k == row then vals i c else jac i k c.
(** similarity_d_dp, 327-381; [d] is the number of dimensions of the transform. *)
Definition similarity_d_dp (d : nat) (points : tensor) : res tensor :=
  match t_shape points with
  | [:: n; pd] =>
      if pd != d then Err ValueError
      else if d != 2%N then Err ValueError
      else
        let pt i c := t_get points [:: i; c] in
        let mask (a b : F) (c : nat) := if c == 0%N then a else b in
        let jac := set_row (fun _ _ _ => 0) 0 (fun i c => pt i c * mask 1 1 c) in
        let jac := set_row jac 1 (fun i c => pt i (1 - c)%N * mask (- 1) 1 c) in
        let jac := set_row jac 2 (fun i c => 1 * mask 1 0 c) in
        let jac := set_row jac 3 (fun i c => 1 * mask 0 1 c) in
        Ok (cube n 4 2 jac)
  | _ => Err ValueError
  end.

(** ** modelinstance.py *)
Variable N : nat.
Notation shape := 'M[F]_(N, 2).
(** The entry of a shape at plain indices. *)
Definition at_ (s : shape) (i c : nat) : F :=
  match insub i, insub c with Some i', Some c' => s i' c' | _, _ => 0 end.
Definition points_of (s : shape) : tensor := square N 2 (at_ s).
(** components.reshape(n, -1, n_dims).swapaxes(0, 1) (364-366, 648-649). *)
Definition reshape_comps (cs : seq shape) : tensor := cube N (size cs) 2 (fun i k c => at_ (nth 0 cs k) i c).
(** PDM.d_dp, 353-366. *)
Definition pdm_d_dp (m : lmodel F N) : tensor := reshape_comps (active m).
Definition sim_linear (g : sim F) (r c : nat) : F :=
  if r == c then 1 + s_a g else if r == 0%N then - s_b g else s_b g.
(** GlobalPDM.d_dp, 544-580, given the Jacobian dX_dq of the global transform at the mean. *)
Definition global_d_dp (dX_dq : res tensor) (m : lmodel F N) (g : sim F) : res tensor :=
  let? dX_dq := dX_dq in
  let dS_db := pdm_d_dp m in
  let dX_dS := affine_d_dx 2 (sim_linear g) in
  let? dX_db := einsum [:: "ilj"%string; "idj"%string] "idj" [:: dX_dS; dS_db] in
  hstack3 dX_dq dX_db.
(** _global_transform_d_dp: of a similarity, 582-583. *)
Definition gpdm_d_dp (d : gpdm F N) : res tensor :=
  global_d_dp (similarity_d_dp 2 (points_of (m_mean (g_model d)))) (g_model d) (g_sim d).
(** ... and of an OrthoPDM, 647-649. *)
Definition opdm_d_dp (d : opdm F N) : res tensor :=
  global_d_dp (Ok (reshape_comps (o_simcomps d))) (o_model d) (o_sim d).

(** ** transform/piecewiseaffine.py *)
(** menpo index_alpha_beta: the triangle a point lies in and its coordinates in it. *)
Record bary := Bary { b_tri : nat; b_alpha : F; b_beta : F }.
(** d_dl, 21-78: the weights are stored at the three vertices, one after the other. *)
Definition pwa_d_dl (n_points : nat) (trilist : seq (nat * nat * nat)) (where_ : seq bary) : tensor :=
  cube (size where_) n_points 2 (fun i l c =>
    let b := nth (Bary 0 0 0) where_ i in
    let '(v0, v1, v2) := nth (0, 0, 0)%N trilist (b_tri b) in
    if l == v2 then b_beta b else if l == v1 then b_alpha b else if l == v0 then 1 - b_alpha b - b_beta b else 0).
(** d_dx, 80-110. *)
Definition pwa_d_dx : tensor := cube 1 2 2 (fun _ r c => (r == c)%:R).
(** menpo PiecewiseAffine._apply: target_i + alpha (target_j - target_i) + beta (target_k - target_i). *)
Definition pwa_apply (trilist : seq (nat * nat * nat)) (target : nat -> nat -> F) (b : bary) (c : nat) : F :=
  let '(v0, v1, v2) := nth (0, 0, 0)%N trilist (b_tri b) in
  target v0 c + b_alpha b * (target v1 c - target v0 c) + b_beta b * (target v2 c - target v0 c).

(** ** transform/modeldriven.py *)
(** d_dp, 208-252: tensordot over the landmarks, then the diagonal of the two axes of dimensions; IndexError is not possible.
    Both arrays must have the same number of landmarks. *)
Definition mdt_d_dp (dW_dl dX_dp : tensor) : res tensor :=
  match t_shape dW_dl, t_shape dX_dp with
  | [:: n; l; d], [:: l'; p; d'] =>
      if l != l' then Err ValueError
      else Ok (cube n p (minn d d') (fun i k c => \sum_(x < l) t_get dW_dl [:: i; nat_of_ord x; c] * t_get dX_dp [:: nat_of_ord x; k; c]))
  | _, _ => Err ValueError
  end.
(** np.linalg.solve of rank two arrays. *)
Definition tmx (p q : nat) (t : tensor) : 'M[F]_(p, q) := \matrix_(i, j) t_get t [:: nat_of_ord i; nat_of_ord j].
Definition of_mx (p q : nat) (m : 'M[F]_(p, q)) : tensor :=
  square p q (fun i j => match insub i, insub j with Some i', Some j' => m i' j' | _, _ => 0 end).
Definition np_solve_t (H J : tensor) : res tensor :=
  match t_shape H, t_shape J with
  | [:: p; p'], [:: q; r] =>
      if (p == p') && (q == p) then
        if tmx p p H \in unitmx then Ok (of_mx (invmx (tmx p p H) *m tmx p r J)) else Err LinAlgError
      else Err LinAlgError
  | _, _ => Err LinAlgError
  end.
(** The last lines shared by compose_after_from_vector_inplace and Jp (169-174, 291-298, 398-403, 466-473). *)
Definition jp_from (dW_dp dW_dx_dW_dp_0 : tensor) : res tensor :=
  let? J := einsum [:: "ijk"%string; "ilk"%string] "jl" [:: dW_dp; dW_dx_dW_dp_0] in
  let? H := einsum [:: "ijk"%string; "ilk"%string] "jl" [:: dW_dp; dW_dp] in
  np_solve_t H J.
(** ModelDrivenTransform.Jp, 254-298; [dW_dp] is the d_dp of the shape model, [dW_dx] the d_dx of the warp. *)
Definition mdt_Jp (dW_dp dW_dx : tensor) : res tensor :=
  let? x := einsum [:: "ijk"%string; "ilk"%string] "eilk" [:: dW_dx; dW_dp] in
  jp_from dW_dp x.
(** GlobalMDTransform.Jp, 407-473; [dW_dq] is the Jacobian of the global transform at the mean, [dW_db_0] that of the model,
    [g] the global transform. *)
Definition global_Jp (dW_dq dW_db_0 : tensor) (g : sim F) (dW_dx : tensor) : res tensor :=
  let? dW_dp_0 := hstack3 dW_dq dW_db_0 in
  let dW_dS := affine_d_dx 2 (sim_linear g) in
  let? dW_db := einsum [:: "ilj"%string; "idj"%string] "idj" [:: dW_dS; dW_db_0] in
  let? dW_dp := hstack3 dW_dq dW_db in
  let? x := einsum [:: "ijk"%string; "ilk"%string] "ilk" [:: dW_dx; dW_dp_0] in
  jp_from dW_dp x.
(** compose_after_from_vector_inplace, 126-175 and 333-405: the new parameter vector. *)
Definition compose_with (Jp : res tensor) (v delta : seq F) : res (seq F) :=
  let? Jp := Jp in
  match t_shape Jp with
  | [:: p; q] =>
      if size delta != q then Err ValueError
      else if size v != p then Err ValueError
      else Ok [seq nth 0 v i + \sum_(j < q) t_get Jp [:: i; nat_of_ord j] * nth 0 delta j | i <- iota 0 p]
  | _ => Err ValueError
  end.

(** ** transform/thinsplatesplines.py *)
Section Tps.
Variable n : nat.
(** L = [[K, P], [P^T, 0]] (menpo), with P = [1, x, y]. *)
Variable L : 'M[F]_(n + 3).
Variable source : 'M[F]_(n, 2).
(** pseudo_target[c], 122: the coordinate c of the source followed by three zeros. *)
Definition pseudo_target (c : 'I_2) : 'cV[F]_(n + 3) := col_mx (col c source) 0.
(** dL_dl[..., i, c], 126-132, given the block dK of derivatives of the kernel: -1 at the place of coordinate c of the i-th
    source point in P, in both blocks. *)
Definition dL_dl (dK : 'M[F]_n) (i : 'I_n) (c : 'I_2) : 'M[F]_(n + 3) :=
  let dP : 'M[F]_(n, 3) := - delta_mx i (lift 0 c) in block_mx dK dP dP^T 0.
(** dW_dl[:, i, c], 134-137, at a point whose kernel row is [k] = (U(x, c_1), ..., U(x, c_n), 1, x, y), for invertible L. *)
Definition tps_d_dl (dK : 'I_n -> 'I_2 -> 'M[F]_n) (k : 'rV[F]_(n + 3)) (i : 'I_n) (c : 'I_2) : F :=
  let omega := - (invmx L *m (dL_dl (dK i c) i c *m invmx L)) in
  (k *m omega *m pseudo_target c) 0 0.
(** menpo ThinPlateSplines: coefficients and _apply at a point with kernel row [k]. *)
Definition tps_coefficients (target : 'M[F]_(n, 2)) : 'M[F]_(n + 3, 2) := invmx L *m col_mx target 0.
Definition tps_apply (target : 'M[F]_(n, 2)) (k : 'rV[F]_(n + 3)) : 'rV[F]_2 := k *m tps_coefficients target.
(** d_dx, 141-174, for m points and n centres; [kernel_d_dl] is kernel.d_dl(points), of extents (m, n, 2). *)
Definition tps_d_dx (coefficients : 'M[F]_(n + 3, 2)) (m : nat) (kernel_d_dl : nat -> nat -> nat -> F) : res tensor :=
  let dk_dx := cube (m + 3) n 2 (fun i k l =>
    if (i < m)%N then kernel_d_dl i k l else if i == (m + 1)%N then (l == 0%N)%:R else if i == (m + 2)%N then (l == 1%N)%:R else 0) in
  einsum [:: "ij"%string; "ikl"%string] "klj" [:: of_mx coefficients; dk_dx].
End Tps.
End Jacobian.

(** ** The cache of dW/dl in ModelDrivenTransform.d_dp, modeldriven.py 227-233 *)
Section Cache.
(** Values of arrays of points and of the derivative; [d_dl] is the d_dl of the warp, which depends on the source landmarks and
    on the points only. *)
Variables (A : eqType) (B : Type).
Variable d_dl : A -> B.
(** The attributes _cached_points (a reference to the caller's array, 233) and dW_dl. *)
Record cached := Cached { c_points : option nat; c_dW_dl : option B }.
(** __init__, 42. *)
Definition cache_new : cached := Cached None None.
(** The condition of line 228 in a heap; the result is the new state. *)
Definition cache_call (heap : nat -> A) (points : nat) (c : cached) : cached :=
  match c_points c with
  | Some r => if heap r == heap points then c else Cached (Some points) (Some (d_dl (heap points)))
  | None => Cached (Some points) (Some (d_dl (heap points)))
  end.
(** What the caller does between and with the calls. *)
Inductive cache_event := CallDdp (points : nat) | WriteArray (r : nat) (v : A).
(** Every call's dW_dl, next to the value of its argument at that moment. *)
Fixpoint cache_run (heap : nat -> A) (c : cached) (es : seq cache_event) : seq (option B * A) :=
  match es with
  | [::] => [::]
  | CallDdp r :: es => let c := cache_call heap r c in (c_dW_dl c, heap r) :: cache_run heap c es
  | WriteArray r v :: es => cache_run (fun x => if x == r then v else heap x) c es
  end.
End Cache.
Arguments CallDdp {A}. Arguments WriteArray {A}.
