(** C30, C31, C32, C48, C57, C58, C59: Jacobians of transforms, warps and shape models. *)
From Coq Require Import String.
From Verif.Model Require Import Py Einsum ModelInstance Jacobian.
From Verif.Spec Require Import ModelInstance Jacobian.
From Verif.Proofs Require Import ModelInstance MRing Projection ModelExample Jacobian.
From mathcomp Require Import all_ssreflect all_algebra.
Set Implicit Arguments.
Unset Strict Implicit.
Unset Printing Implicit Defensive.
Import Order.TTheory GRing.Theory Num.Theory.
Local Open Scope ring_scope.

(** ** C30: d_dp and d_dx of homogeneous transforms are derivatives *)
(** Affine transforms of any positive dimension, any number of points. *)
Theorem c30_affine_d_dp : forall (F : realFieldType) d n (points : tensor F), t_shape points = [:: n; d] -> (0 < d)%N ->
  exists2 jac, affine_d_dp d points = Ok jac & t_shape jac = [:: n; (d * d + d)%N; d] /\
  forall i p, derivative (d * d + d) d (fun p => affine_map d p (fun c => t_get points [:: i; c])) p (fun k r => t_get jac [:: i; k; r]).
Proof. move=> F d n points. exact: affine_d_dp_ok. Qed.
Print Assumptions c30_affine_d_dp.
Theorem c30_affine_d_dx : forall (F : realFieldType) d (p x h : nat -> F) r, (r < d)%N ->
  affine_map d p (fun c => x c + h c) r =
  affine_map d p x r + \sum_(c < d) t_get (affine_d_dx d (affine_linear d p)) [:: 0; r; nat_of_ord c]%N * h c.
Proof. move=> F d p x h r. exact: affine_d_dx_ok. Qed.
Print Assumptions c30_affine_d_dx.
Theorem c30_similarity_d_dp : forall (F : realFieldType) n (points : tensor F), t_shape points = [:: n; 2%N] ->
  exists2 jac, similarity_d_dp 2 points = Ok jac & t_shape jac = [:: n; 4; 2]%N /\
  forall i p, derivative 4 2 (fun p => similarity_map p (fun c => t_get points [:: i; c])) p (fun k r => t_get jac [:: i; k; r]).
Proof. move=> F n points. exact: similarity_d_dp_ok. Qed.
Print Assumptions c30_similarity_d_dp.
(** No other Jacobian is the derivative. *)
Theorem c30_unique : forall (F : realFieldType) P d (f : (nat -> F) -> nat -> F) p j j',
  derivative P d f p j -> derivative P d f p j' -> forall k r, (k < P)%N -> (r < d)%N -> j k r = j' k r.
Proof. move=> F P d f p j j'. exact: derivative_unique. Qed.
Print Assumptions c30_unique.
(** A point in the plane, and the row of its Jacobian that belongs to the second parameter of a similarity. *)
Example c30_example (F : realFieldType) : let pts : tensor F := square 1 2 (fun _ c => if c == 0%N then 3%:R else 5%:R) in
  t_shape pts = [:: 1; 2]%N /\
  exists2 jac, similarity_d_dp 2 pts = Ok jac & t_get jac [:: 0; 1; 0]%N = - 5%:R /\ t_get jac [:: 0; 1; 1]%N = 3%:R.
Proof.
  move=> pts. split=> //. rewrite /similarity_d_dp /=. eexists; first reflexivity. by rewrite /= /set_row /= mulrN1 mulr1.
Qed.

(** ** C31: piecewise affine weights *)
(** Inside a triangle the weights are the barycentric coordinates of the point: they are on the corners of the triangle, they
    sum to one, they give the point back, and they are the derivative of the warped point with respect to the landmarks of
    the target, whatever the target is. *)
Theorem c31_pwa_weights : forall (F : realFieldType) n tl (where_ : seq (bary F)) i, triangulation n tl -> (i < size where_)%N ->
  (b_tri (nth (Bary 0 0 0) where_ i) < size tl)%N ->
  let b := nth (Bary 0 0 0) where_ i in let tri := nth (0, 0, 0)%N tl (b_tri b) in
  let w l c := t_get (pwa_d_dl n tl where_) [:: i; l; c] in
  (forall c, w tri.1.1 c = 1 - b_alpha b - b_beta b /\ w tri.1.2 c = b_alpha b /\ w tri.2 c = b_beta b) /\
  (forall l c, l \notin [:: tri.1.1; tri.1.2; tri.2] -> w l c = 0) /\
  (forall c, \sum_(l < n) w l c = 1) /\
  (forall (source : nat -> nat -> F) c, \sum_(l < n) w l c * source l c = in_triangle source tri (b_alpha b) (b_beta b) c) /\
  (forall (t h : nat -> nat -> F) c, pwa_apply tl (fun l c => t l c + h l c) b c = pwa_apply tl t b c + \sum_(l < n) w l c * h l c).
Proof.
  move=> F n tl where_ i T I B b tri w.
  have := T _ (mem_nth (0, 0, 0)%N B). rewrite -/b -/tri. rewrite /w /=.
  have PS c g := @pwa_sum F n tl where_ i c g T I B. have PA c t := @pwa_apply_E F n tl where_ i c t T I B.
  rewrite /= -/b -/tri in PS PA *. move: PS PA. rewrite -/b. case: tri => [[v0 v1] v2] PS PA /= /and5P [A0 A1 A2 N1 /andP [N2 N3]].
  split; last split; last split; last split.
  - move=> c. rewrite eqxx (negbTE N2) (negbTE N1) eqxx (negbTE N3) eqxx. by [].
  - move=> l c. rewrite !inE !negb_or => /and3P [/negbTE -> /negbTE -> /negbTE ->]. by [].
  - move=> c. rewrite -[RHS](_ : (1 - b_alpha b - b_beta b) * 1 + b_alpha b * 1 + b_beta b * 1 = 1); last by rewrite !mulr1 addrAC subrK subrK.
    rewrite -(PS c (fun _ => 1)). by apply: eq_bigr => l _; rewrite mulr1.
  - move=> s c. exact: (PS c (fun l => s l c)).
  - move=> t h c. rewrite !PA -big_split /=. apply: eq_bigr => l _. by rewrite mulrDr.
Qed.
Print Assumptions c31_pwa_weights.
Example c31_example (F : realFieldType) : let tl := [:: (0, 1, 2); (1, 3, 2)]%N in let w : seq (bary F) := [:: Bary 1 2%:R^-1 0] in
  triangulation 4 tl /\ (b_tri (nth (Bary 0 0 0) w 0) < size tl)%N /\ t_get (pwa_d_dl 4 tl w) [:: 0; 3; 0]%N = 2%:R^-1.
Proof.
  move=> tl w. split; last by []. move=> t. rewrite !inE => /orP [/eqP ->|/eqP ->] //.
Qed.

(** ** C32: the Jacobian of a global shape model with respect to its weights *)
(** Without rotation (s_b g = 0) the columns of the weights are the derivative of every generated point, for GlobalPDM and
    OrthoPDM alike ([dq] is the Jacobian of the global transform), and the columns before are those of the global transform.
    Missing: transforms that rotate, see the next theorem. *)
Theorem c32_no_rotation_partial : forall (F : realFieldType) N (dq : tensor F) q (m : lmodel F N) (g : sim F), t_shape dq = [:: N; q; 2%N] -> s_b g = 0 ->
  exists2 jac, global_d_dp (Ok dq) m g = Ok jac & t_shape jac = [:: N; (q + size (active m))%N; 2%N] /\
  (forall i k c, (k < q)%N -> t_get jac [:: i; k; c] = t_get dq [:: i; k; c]) /\
  forall i w, derivative (size (active m)) 2 (generated m g i) w (fun k r => t_get jac [:: nat_of_ord i; (q + k)%N; r]).
Proof.
  move=> F N dq q m g D B. have [jac E [S [Lq _]]] := global_d_dp_ok m g D. exists jac => //. split=> //. split=> // i w.
  exact: global_d_dp_exact D E B.
Qed.
Print Assumptions c32_no_rotation_partial.
(** With rotation it never is, at any point whose two coordinates in a component do not cancel. *)
Theorem c32_rotation_refuted : forall (F : realFieldType) N (dq : tensor F) q (m : lmodel F N) (g : sim F) jac i k w, t_shape dq = [:: N; q; 2%N] ->
  global_d_dp (Ok dq) m g = Ok jac -> s_b g != 0 -> (k < size (active m))%N ->
  (nth 0 (active m) k) i 0 + (nth 0 (active m) k) i 1 != 0 ->
  ~ derivative (size (active m)) 2 (generated m g i) w (fun k r => t_get jac [:: nat_of_ord i; (q + k)%N; r]).
Proof. move=> F N dq q m g jac i k w. exact: global_d_dp_wrong. Qed.
Print Assumptions c32_rotation_refuted.
(** Hence for a GlobalPDM that was given the parameter vector of a quarter turn. *)
Theorem c32_global_pdm_refuted : forall F : realFieldType, exists align (m : lmodel F 4) v d jac i w,
  gpdm_from_vector v (gpdm_new align m) = (d, Ok tt) /\ gpdm_d_dp d = Ok jac /\
  ~ derivative (size (active (g_model d))) 2 (generated (g_model d) (g_sim d) i) w (fun k r => t_get jac [:: nat_of_ord i; (4 + k)%N; r]).
Proof.
  move=> F. set m := LModel (mean4 F) [:: comp4 F] 1. set d0 := gpdm_new (@lsq F 4) m. set v : seq F := [:: - 1; 1; 0; 0; 0].
  have Sv : size v = (4 + size (active (g_model d0)))%N by [].
  have := @gpdm_from_succeeds F 4 v d0 Sv. case E : gpdm_from_vector => [d r] /= R. rewrite R in E.
  have [_ [V M]] := gpdm_from_ok E.
  have [dq Eq [Sq _]] := @similarity_d_dp_ok F (points_of (m_mean (g_model d))) 4 erefl.
  have [jac Ej _] := global_d_dp_ok (g_model d) (g_sim d) Sq.
  exists (@lsq F 4), m, v, d, jac, 0, (fun _ => 0). split=> //. split; first by rewrite /gpdm_d_dp Eq.
  apply: (global_d_dp_wrong (k := 0) Sq Ej); rewrite ?M //=.
  - have := congr1 (nth 0 ^~ 1%N) V. rewrite /= => ->. exact: oner_neq0.
  - rewrite !mxE /= addr0. exact: half0.
Qed.
Print Assumptions c32_global_pdm_refuted.
(** The columns of the global parameters are the derivative of the similarity at the mean. *)
Theorem c32_global_columns : forall (F : realFieldType) N (d : gpdm F N), exists2 jac, gpdm_d_dp d = Ok jac &
  t_shape jac = [:: N; (4 + size (active (g_model d)))%N; 2%N] /\
  forall (i : 'I_N) p, derivative 4 2 (fun p => similarity_map p (at_ (m_mean (g_model d)) i)) p (fun k r => if (k < 4)%N then t_get jac [:: nat_of_ord i; k; r] else 0).
Proof.
  move=> F N d. rewrite /gpdm_d_dp. have [dq -> [Sq Dq]] := @similarity_d_dp_ok F (points_of (m_mean (g_model d))) N erefl.
  have [jac E [S [Lq _]]] := global_d_dp_ok (g_model d) (g_sim d) Sq. exists jac => //. split=> // i p h r R.
  rewrite (Dq (nat_of_ord i) p h r R). congr (_ + _). apply: eq_bigr => k _. by rewrite ltn_ord Lq.
Qed.
Print Assumptions c32_global_columns.
Example c32_example (F : realFieldType) : let m := LModel (mean4 F) [:: comp4 F] 1 in
  t_shape (reshape_comps (basis4 F)) = [:: 4; 4; 2]%N /\ size (active m) = 1%N /\ s_b (Sim (1 : F) 0 1 1) = 0 /\
  (nth 0 (active m) 0) 0 0 + (nth 0 (active m) 0) 0 1 != 0.
Proof. move=> m. do 3 split=> //. rewrite /= !mxE /= addr0. exact: half0. Qed.

(** ** C48: model driven transforms can be composed *)
(** ModelDrivenTransform (without a global transform): the parameter Jacobian raises for every model and every warp, and so
    does every composition. *)
Theorem c48_plain_refuted : forall (F : realFieldType) (dW_dp dW_dx : tensor F) v delta,
  mdt_Jp dW_dp dW_dx = Err ValueError /\ compose_with (mdt_Jp dW_dp dW_dx) v delta = Err ValueError.
Proof. move=> F dW_dp dW_dx v delta. by rewrite mdt_Jp_never. Qed.
Print Assumptions c48_plain_refuted.
(** GlobalMDTransform: the parameter Jacobian is evaluated unless the Gram matrix of the Jacobian of the shape model is
    singular, in which case LinAlgError is raised; nothing else is raised, for the d_dx of any warp. *)
Theorem c48_global_partial : forall (F : realFieldType) n q b a (dq db dx : tensor F) (g : sim F), t_shape dq = [:: n; q; 2%N] -> t_shape db = [:: n; b; 2%N] ->
  t_shape dx = [:: a; 2; 2]%N -> a = 1%N \/ a = n ->
  exists2 H : 'M[F]_(q + b), (exists W : 'I_n -> 'I_(q + b) -> 'I_2 -> F,
      (forall i k c, W i (lshift b k) c = t_get dq [:: nat_of_ord i; nat_of_ord k; nat_of_ord c]) /\
      (forall j l, H j l = \sum_i \sum_c W i j c * W i l c)) &
    if H \in unitmx then exists2 J, global_Jp dq db g dx = Ok J & t_shape J = [:: (q + b)%N; (q + b)%N] else global_Jp dq db g dx = Err LinAlgError.
Proof. move=> F n q b a dq db dx g. exact: global_Jp_total. Qed.
Print Assumptions c48_global_partial.
(** Composing from the identity of the global transform adds the increment to the parameters. *)
Theorem c48_compose_at_identity : forall (F : realFieldType) n q b (dq db : tensor F) (v delta : seq F) (g : sim F), t_shape dq = [:: n; q; 2%N] -> t_shape db = [:: n; b; 2%N] ->
  s_a g = 0 -> s_b g = 0 -> size v = (q + b)%N -> size delta = (q + b)%N ->
  compose_with (global_Jp dq db g (pwa_d_dx F)) v delta = Ok [seq x.1 + x.2 | x <- zip v delta] \/
  compose_with (global_Jp dq db g (pwa_d_dx F)) v delta = Err LinAlgError.
Proof. move=> F n q b dq db v delta g. exact: compose_identity. Qed.
Print Assumptions c48_compose_at_identity.
Example c48_example (F : realFieldType) : let dq := reshape_comps (basis4 F) in let db := reshape_comps [:: comp4 F] in
  t_shape dq = [:: 4; 4; 2]%N /\ t_shape db = [:: 4; 1; 2]%N /\ t_shape (pwa_d_dx F) = [:: 1; 2; 2]%N.
Proof. by []. Qed.

(** ** C57: the Jacobian of a warp with respect to the shape parameters *)
(** Piecewise affine warp driven by a PDM: d_dp is the derivative of the warped point with respect to the weights. *)
Theorem c57_pwa_chain_rule : forall (F : realFieldType) N (m : lmodel F N) tl (where_ : seq (bary F)), triangulation N tl ->
  exists2 jac, mdt_d_dp (pwa_d_dl N tl where_) (pdm_d_dp m) = Ok jac & t_shape jac = [:: size where_; size (active m); 2%N] /\
  forall i w, (i < size where_)%N -> (b_tri (nth (Bary 0 0 0) where_ i) < size tl)%N ->
    derivative (size (active m)) 2
      (fun w => pwa_apply tl (fun l r => at_ (m_mean m) l r + \sum_(k < size (active m)) w k * at_ (nth 0 (active m) k) l r) (nth (Bary 0 0 0) where_ i))
      w (fun k r => t_get jac [:: i; k; r]).
Proof.
  move=> F N m tl where_ T.
  have [jac E] : exists jac, mdt_d_dp (pwa_d_dl N tl where_) (pdm_d_dp m) = Ok jac by rewrite /mdt_d_dp /= eqxx; eexists.
  exists jac => //. have [S C] := @mdt_d_dp_ok F (size where_) N (size (active m)) (pwa_d_dl N tl where_) (pdm_d_dp m) jac erefl erefl E.
  split=> // i w I B.
  apply: (C (fun l w r => at_ (m_mean m) l r + \sum_(k < size (active m)) w k * at_ (nth 0 (active m) k) l r) w i (fun y r => pwa_apply tl y (nth (Bary 0 0 0) where_ i) r)).
  - move=> l Ll. exact: pdm_derivative.
  - move=> y r. exact: pwa_apply_E.
Qed.
Print Assumptions c57_pwa_chain_rule.
(** Any warp that is linear in the landmarks coordinate by coordinate, driven by any shape model with an exact Jacobian. *)
Theorem c57_chain_rule : forall (F : realFieldType) n L P (dW dX jac : tensor F), t_shape dW = [:: n; L; 2%N] -> t_shape dX = [:: L; P; 2%N] ->
  mdt_d_dp dW dX = Ok jac -> t_shape jac = [:: n; P; 2%N] /\
  forall (X : nat -> (nat -> F) -> nat -> F) p i (W : (nat -> nat -> F) -> nat -> F),
    (forall l, (l < L)%N -> derivative P 2 (X l) p (fun k r => t_get dX [:: l; k; r])) ->
    (forall y r, W y r = \sum_(l < L) t_get dW [:: i; nat_of_ord l; r] * y l r) ->
    derivative P 2 (fun p => W (fun l => X l p)) p (fun k r => t_get jac [:: i; k; r]).
Proof. move=> F n L P dW dX jac. exact: mdt_d_dp_ok. Qed.
Print Assumptions c57_chain_rule.
(** The cache: every call uses the dW/dl of the points it was given, whatever the earlier calls were, as long as the caller
    does not change in place an array passed before. *)
Theorem c57_cache : forall (A : eqType) B (d_dl : A -> B) heap es, undisturbed [::] es ->
  forall wa, List.In wa (cache_run d_dl heap (cache_new B) es) -> wa.1 = Some (d_dl wa.2).
Proof. move=> A B d_dl heap es U wa. by apply: (cache_run_ok (passed := [::])) U wa. Qed.
Print Assumptions c57_cache.
(** If the caller does (call, change the array, call again with it), the second call uses the derivative of the old points. *)
Theorem c57_cache_needs_unchanged_arrays : forall (A : eqType) B (d_dl : A -> B) heap r v,
  cache_run d_dl heap (cache_new B) [:: CallDdp r; WriteArray r v; CallDdp r] = [:: (Some (d_dl (heap r)), heap r); (Some (d_dl (heap r)), v)].
Proof. move=> A B d_dl heap r v. by rewrite /= /cache_call /= !eqxx. Qed.
Print Assumptions c57_cache_needs_unchanged_arrays.
Example c57_example : undisturbed [::] [:: CallDdp 0; WriteArray 1 7; CallDdp 1; CallDdp 0]%N /\
  cache_run S (fun x => x) (cache_new nat) [:: CallDdp 0; WriteArray 1 7; CallDdp 1; CallDdp 0]%N = [:: (Some 1, 0); (Some 8, 7); (Some 1, 0)]%N.
Proof. by split. Qed.

(** ** C58: thin plate splines, derivative with respect to the landmarks *)
(** For every invertible system matrix, whatever derivative of the kernel the code puts in (it cancels), d_dl is the
    derivative of the warped point with respect to the target landmarks, for every target. *)
Theorem c58_tps_d_dl : forall (F : realFieldType) n (K : 'M[F]_n) (source : 'M[F]_(n, 2)) dK (k : 'rV[F]_(n + 3)) (t h : 'M[F]_(n, 2)) c,
  L_of K source \in unitmx ->
  tps_apply (L_of K source) (t + h) k 0 c = tps_apply (L_of K source) t k 0 c + \sum_i tps_d_dl (L_of K source) source dK k i c * h i c.
Proof. move=> F n K source dK k t h c. exact: tps_d_dl_ok. Qed.
Print Assumptions c58_tps_d_dl.
(** In particular the warped point is the sum of the landmarks weighted by d_dl (so c57_chain_rule applies). *)
Theorem c58_tps_linear : forall (F : realFieldType) n (K : 'M[F]_n) (source : 'M[F]_(n, 2)) dK (k : 'rV[F]_(n + 3)) (t : 'M[F]_(n, 2)) c,
  L_of K source \in unitmx -> tps_apply (L_of K source) t k 0 c = \sum_i tps_d_dl (L_of K source) source dK k i c * t i c.
Proof. move=> F n K source dK k t c U. rewrite tps_apply_E. apply: eq_bigr => i _. by rewrite tps_d_dl_E. Qed.
Print Assumptions c58_tps_linear.
(** Three landmarks at the corners of a triangle, without kernels: an invertible system. *)
Example c58_example (F : realFieldType) : 
  L_of 0 (\matrix_(i, j) (nat_of_ord i == nat_of_ord j)%:R : 'M[F]_(3, 2)) \in unitmx.
Proof.
  set source := (X in L_of 0 X). rewrite /L_of. set P := P_of source.
  pose Q : 'M[F]_3 := \matrix_(i, j) nth 0 (nth [::] [:: [:: 0; 0; 1]; [:: 1; 0; - 1]; [:: 0; 1; - 1]] i) j.
  have PQ : P *m Q = 1%:M.
    apply/matrixP => i j. rewrite !mxE !big_ord_recl big_ord0 !mxE /= !inordK //=.
    case: i => [[|[|[|i]]] I] //; case: j => [[|[|[|j]]] J] //=; rewrite ?mul0r ?mul1r ?addr0 ?add0r ?addrN //.
  have QP := mulmx1C PQ.
  apply: (proj1 (@mulmx1_unit _ _ _ (block_mx 0 Q^T Q 0) _)).
  rewrite mulmx_block !mul0mx !mulmx0 !add0r !addr0 PQ -trmx_mul QP trmx1. by rewrite -scalar_mx_block.
Qed.

(** ** C59: derivative with respect to the point *)
(** The piecewise affine d_dx (the identity) is the derivative inside a triangle exactly when the warp only translates it. *)
Theorem c59_pwa_partial : forall (F : realFieldType) (s t : nat -> nat -> F) v0 v1 v2,
  triangle_derivative s t (v0, v1, v2) (fun r c => t_get (pwa_d_dx F) [:: 0; r; c]%N) <->
  forall r, (r < 2)%N -> t v1 r - t v0 r = s v1 r - s v0 r /\ t v2 r - t v0 r = s v2 r - s v0 r.
Proof. move=> F s t v0 v1 v2. exact: pwa_d_dx_iff. Qed.
Print Assumptions c59_pwa_partial.
(** A warp that doubles the size: d_dx is not its derivative. *)
Theorem c59_pwa_refuted : forall F : realFieldType, exists s t : nat -> nat -> F, exists tri,
  (exists J, triangle_derivative s t tri J) /\ ~ triangle_derivative s t tri (fun r c => t_get (pwa_d_dx F) [:: 0; r; c]%N).
Proof.
  move=> F. exists (fun i c => (i == c.+1)%:R), (fun i c => 2%:R * (i == c.+1)%:R), (0, 1, 2)%N. split.
  - exists (fun r c => if r == c then 2%:R else 0) => a b a' b' r R. rewrite !big_ord_recl big_ord0 /= /bump /=.
    case: r R => [|[|r]] //= _; rewrite ?mul0r ?add0r ?addr0 mulrBr !mulrDr ![2%:R * (_ * _)]mulrCA //.
  - move/pwa_d_dx_iff => /(_ 0%N isT) [] /=. rewrite mulr0 !subr0 mulr1 => /eqP. by rewrite (eqr_nat F 2 1).
Qed.
Print Assumptions c59_pwa_refuted.
(** Thin plate splines: d_dx raises unless there are as many points as landmarks. *)
Theorem c59_tps_sizes_refuted : forall (F : realFieldType) n (coef : 'M[F]_(n + 3, 2)) m g, m != n -> tps_d_dx coef m g = Err ValueError.
Proof. move=> F n coef m g. exact: tps_d_dx_mismatch. Qed.
Print Assumptions c59_tps_sizes_refuted.
(** At the landmarks themselves, where gradients of kernels are odd, the part of the kernels has the wrong sign. *)
Theorem c59_tps_partial : forall (F : realFieldType) n (coef : 'M[F]_(n + 3, 2)) (G : nat -> nat -> nat -> F), (forall i k l, G i k l = - G k i l) ->
  exists2 T, tps_d_dx coef n G = Ok T & forall k (l j : 'I_2), (k < n)%N ->
    t_get T [:: k; nat_of_ord l; nat_of_ord j] = tps_gradient coef G k l j - 2%:R * tps_nonlinear coef G k l j /\
    (t_get T [:: k; nat_of_ord l; nat_of_ord j] = tps_gradient coef G k l j <-> tps_nonlinear coef G k l j = 0).
Proof.
  move=> F n coef G O. have [T -> [_ V]] := tps_d_dx_E coef G. exists T => // k l j Kn.
  have E : t_get T [:: k; nat_of_ord l; nat_of_ord j] = tps_gradient coef G k l j - 2%:R * tps_nonlinear coef G k l j.
    rewrite V // /tps_gradient.
    have -> : \sum_(i < n) coef (lshift 3 i) j * G i k l = - tps_nonlinear coef G k l j.
      rewrite /tps_nonlinear -sumrN. apply: eq_bigr => i _. by rewrite O mulrN.
    by rewrite mulr_natl mulr2n opprD addrA addrK addrC.
  split=> //. rewrite E. split.
  - move/eqP. by rewrite -subr_eq0 addrC addKr oppr_eq0 mulf_eq0 pnatr_eq0 /= => /eqP.
  - by move=> ->; rewrite mulr0 subr0.
Qed.
Print Assumptions c59_tps_partial.
Example c59_example (F : realFieldType) : let G : nat -> nat -> nat -> F := fun i k _ => i%:R - k%:R in
  let coef : 'M[F]_(2 + 3, 2) := const_mx 1 in
  (forall i k l, G i k l = - G k i l) /\ tps_nonlinear coef G 0 0 0 != 0.
Proof.
  move=> G coef. split; first by move=> i k l; rewrite /G opprB.
  rewrite /tps_nonlinear !big_ord_recl big_ord0 !mxE /= /G /= !mul1r subrr add0r addr0 sub0r oppr_eq0. by rewrite pnatr_eq0.
Qed.
