(** C33, C54: independence of a fit from earlier fits, and the direction in which the prior acts. *)
From Verif.Model Require Import Py LinAlg History.
From Verif.Spec Require Import LinAlg History.
From Verif.Proofs Require Import LinAlg History.
From mathcomp Require Import all_ssreflect all_algebra.
Set Implicit Arguments.
Unset Strict Implicit.
Unset Printing Implicit Defensive.
Import Order.TTheory GRing.Theory Num.Theory.
Local Open Scope ring_scope.

(** ** C33 *)
(** Inverse compositional algorithms (project-out AAM, ATM), maximum likelihood: whatever calls, with or without
    map_inference, successful or not, were made before, a call without map_inference gives what it gives on the fresh
    object (for any image, shape, number of iterations, with or without costs). *)
Theorem c33_inverse_ml : forall (F : realFieldType) k n (Image Sh : Type) (project : Sh -> 'cV[F]_n) (target_of : 'cV[F]_n -> Sh)
    (warp : Image -> 'cV[F]_n -> res 'cV[F]_k) exceeds cost (a_bar_m : 'cV[F]_k) QJ_m pinv_QJ_m s2_inv_L a before c,
  c_map c = false ->
  unaffected_by (ic_run project target_of warp exceeds cost a_bar_m QJ_m pinv_QJ_m s2_inv_L) a before c.
Proof. move=> F k n Image Sh *. exact: ic_run_ml. Qed.
Print Assumptions c33_inverse_ml.

(** Forward compositional algorithms, with and without map_inference: every call is independent of every history. *)
Theorem c33_forward : forall (F : realFieldType) k n (Image Sh : Type) (project : Sh -> 'cV[F]_n) (target_of : 'cV[F]_n -> Sh)
    (warp : Image -> 'cV[F]_n -> res 'cV[F]_k) exceeds cost (a_bar_m : 'cV[F]_k) s2_inv_L jac po a before c,
  unaffected_by (fc_run project target_of warp exceeds cost a_bar_m s2_inv_L jac po) a before c.
Proof. move=> F k n Image Sh *. exact: fc_run_any. Qed.
Print Assumptions c33_forward.

(** Simultaneous, alternating, modified alternating and Wiberg algorithms: likewise. *)
Theorem c33_appearance : forall (P Image Sh Inner C Cost : Type) (project : Sh -> P) target_of (start : Image -> P -> res Inner) step exceeds
    (app_of : Inner -> C) (cost : Inner -> Cost) a before c,
  unaffected_by (app_run project target_of start step exceeds app_of cost) a before c.
Proof. move=> *. exact: app_run_any. Qed.
Print Assumptions c33_appearance.

(** Inverse compositional with map_inference: independent of earlier calls without map_inference. *)
Theorem c33_inverse_map_partial : forall (F : realFieldType) k n (Image Sh : Type) (project : Sh -> 'cV[F]_n) (target_of : 'cV[F]_n -> Sh)
    (warp : Image -> 'cV[F]_n -> res 'cV[F]_k) exceeds cost (a_bar_m : 'cV[F]_k) QJ_m pinv_QJ_m s2_inv_L a before c,
  List.Forall (fun c => c_map c = false) before ->
  unaffected_by (ic_run project target_of warp exceeds cost a_bar_m QJ_m pinv_QJ_m s2_inv_L) a before c.
Proof. move=> F k n Image Sh *. apply: ic_run_eqH. exact: ic_after_ml. Qed.
Print Assumptions c33_inverse_map_partial.

(** ... but not of earlier calls with map_inference: every increment of every such call adds the prior once more to the
    Hessian kept in the algorithm object.  After a call that returned [m + 1] parameter vectors the object holds the Hessian
    it held before plus [m] times the prior. *)
Theorem c33_inverse_map_drift : forall (F : realFieldType) k n (Image Sh : Type) (project : Sh -> 'cV[F]_n) (target_of : 'cV[F]_n -> Sh)
    (warp : Image -> 'cV[F]_n -> res 'cV[F]_k) exceeds cost (a_bar_m : 'cV[F]_k) QJ_m pinv_QJ_m s2_inv_L a c a' ps ss cs,
  c_map c -> ic_run project target_of warp exceeds cost a_bar_m QJ_m pinv_QJ_m s2_inv_L c a = (a', Ok (ps, ss, cs)) ->
  a_H a' = a_H a + (size ps).-1%:R *: diag_mx s2_inv_L^T.
Proof.
  move=> F k n Image Sh project target_of warp exceeds cost a_bar_m QJ pinv s2 a c a' ps ss cs M E.
  have [t [H [_ T]]] := ic_run_H project target_of warp exceeds cost a_bar_m QJ pinv s2 c a.
  move: H T. rewrite E /= => -> /(_ _ erefl M) /= -> //.
Qed.
Print Assumptions c33_inverse_map_drift.

(** What a call leaves in the transform: the last parameters it returned, which generate the last shape; if the initial shape
    cannot be warped, the parameters of the initial shape and nothing else changed. *)
Theorem c33_left_by_inverse : forall (F : realFieldType) k n (Image Sh : Type) (project : Sh -> 'cV[F]_n) (target_of : 'cV[F]_n -> Sh)
    (warp : Image -> 'cV[F]_n -> res 'cV[F]_k) exceeds cost (a_bar_m : 'cV[F]_k) QJ_m pinv_QJ_m s2_inv_L a c,
  match ic_run project target_of warp exceeds cost a_bar_m QJ_m pinv_QJ_m s2_inv_L c a with
  | (a', Ok (ps, ss, _)) => a_p a' = last (project (c_shape c)) ps /\ ss = [seq target_of p | p <- ps]
  | (a', Err e) => warp (c_image c) (project (c_shape c)) = Err e -> a' = Alg (a_H a) (project (c_shape c)) (a_e a)
  end.
Proof. move=> *. apply: run_left. exact: ic_keeps. Qed.
Print Assumptions c33_left_by_inverse.
Theorem c33_left_by_forward : forall (F : realFieldType) k n (Image Sh : Type) (project : Sh -> 'cV[F]_n) (target_of : 'cV[F]_n -> Sh)
    (warp : Image -> 'cV[F]_n -> res 'cV[F]_k) exceeds cost (a_bar_m : 'cV[F]_k) s2_inv_L jac po a c,
  match fc_run project target_of warp exceeds cost a_bar_m s2_inv_L jac po c a with
  | (a', Ok (ps, ss, _)) => a_p a' = last (project (c_shape c)) ps /\ ss = [seq target_of p | p <- ps]
  | (a', Err e) => warp (c_image c) (project (c_shape c)) = Err e -> a' = Alg (a_H a) (project (c_shape c)) (a_e a)
  end.
Proof. move=> *. apply: run_left. exact: fc_keeps. Qed.
Print Assumptions c33_left_by_forward.

(** The same call made twice on one object gives two results. *)
Theorem c33_inverse_map_refuted : forall F : realFieldType, exists (a : alg F 1 1) (c : call unit 'cV[F]_1),
  ~ unaffected_by (@ic_run F 1 1 unit 'cV[F]_1 id id (fun _ _ => Ok 0) (fun _ _ => true) (fun _ => 0) 0 1%:M 1%:M (const_mx 1)) a [:: c] c.
Proof.
  move=> F. exists (Alg 1%:M 0 0), (Call tt (const_mx 1) 1 false true).
  rewrite /unaffected_by /after_calls /ic_run /run /= /ic_solve /solve_shape_map /np_solve /=.
  have S (x : F) : x != 0 -> (x%:M : 'M[F]_1) \in unitmx by rewrite unitmxE det_scalar1 unitfE.
  have D : diag_mx (const_mx 1)^T = 1%:M :> 'M[F]_1 by rewrite trmx_const diag_const_mx.
  have E1 : 1%:M + diag_mx (const_mx 1)^T = 2%:R%:M :> 'M[F]_1 by rewrite D -raddfD.
  have E2 : 2%:R%:M + diag_mx (const_mx 1)^T = 3%:R%:M :> 'M[F]_1 by rewrite D -!raddfD -[1]/(1%:R) -natrD.
  rewrite E1 !S ?pnatr_eq0 //= E2 !S ?pnatr_eq0 //=.
  case=> /(congr1 (fun m : 'cV[F]_1 => m 0 0)).
  have I (x : F) (v : 'cV[F]_1) : invmx x%:M *m v = x^-1 *: v by rewrite invmx_scalar mul_scalar_mx.
  rewrite !I !mxE /= !big_ord1 !mxE /= !(mulr0, mul1r, mulr1, mulr1n, add0r, addr0, oppr0).
  move=> /addrI /oppr_inj /oppr_inj /invr_inj /eqP. by rewrite eqr_nat.
Qed.
Print Assumptions c33_inverse_map_refuted.

(** A history: one call with and one without map_inference, and the call they do not affect. *)
Example c33_example (F : realFieldType) : let c mp := Call tt (const_mx 1 : 'cV[F]_1) 3 true mp in
  unaffected_by (@ic_run F 1 1 unit 'cV[F]_1 id id (fun _ _ => Ok 0) (fun _ _ => true) (fun _ => 0) 0 1%:M 1%:M (const_mx 1))
    (Alg 1%:M 0 0) [:: c true; c false] (c false).
Proof. move=> c. exact: c33_inverse_ml. Qed.

(** ** C54 *)
(** Forward algorithms with map_inference: the updated parameters minimise the linearised image error plus the prior penalty
    of the updated parameters, for every positive prior, error and current parameters. *)
Theorem c54_forward : forall (F : realFieldType) k n (J : 'M[F]_(k, n)) (w p : 'cV[F]_n) (e : 'cV[F]_k), (forall i, 0 < w i 0) ->
  exists2 dp, (solve_shape_map (J^T *m J) J e w p).2 = Ok dp &
    unique_minimum (fun q => sqn (e + J *m (q - p)) + wsqn w q) (update true p dp).
Proof. move=> F k n J w p e W. have [dp E N] := map_solve J W e p. exists dp => //. exact: map_minimum. Qed.
Print Assumptions c54_forward.

(** In particular, when the image error is zero, the penalty never grows. *)
Theorem c54_forward_shrinks : forall (F : realFieldType) k n (J : 'M[F]_(k, n)) (w p : 'cV[F]_n), (forall i, 0 < w i 0) ->
  exists2 dp, (solve_shape_map (J^T *m J) J (0 : 'cV[F]_k) w p).2 = Ok dp & wsqn w (update true p dp) <= wsqn w p.
Proof. move=> F k n J w p W. have [dp E N] := map_solve J W 0 p. exists dp => //. exact: (forward_shrinks W N). Qed.
Print Assumptions c54_forward_shrinks.

(** Inverse algorithms with map_inference subtract the same increment, so that the prior acts away from the mean: with a zero
    image error, and whatever the Jacobian, the prior and the parameters (not all zero), the penalty of the updated
    parameters is larger than before. *)
Theorem c54_inverse_refuted : forall (F : realFieldType) k n (J : 'M[F]_(k, n)) (w p : 'cV[F]_n), (forall i, 0 < w i 0) -> p != 0 ->
  exists2 dp, (solve_shape_map (J^T *m J) J (0 : 'cV[F]_k) w p).2 = Ok dp & wsqn w p < wsqn w (update false p dp).
Proof. move=> F k n J w p W P. have [dp E N] := map_solve J W 0 p. exists dp => //. exact: (inverse_grows W P N). Qed.
Print Assumptions c54_inverse_refuted.

Example c54_example (F : realFieldType) : exists2 dp, (solve_shape_map ((1%:M : 'M[F]_2)^T *m 1%:M) (1%:M : 'M[F]_2) 0 (const_mx 3%:R) (const_mx 1)).2 = Ok dp &
  wsqn (const_mx 3%:R : 'cV[F]_2) (const_mx 1) < wsqn (const_mx 3%:R) (update false (const_mx 1) dp).
Proof.
  apply: c54_inverse_refuted; first by move=> i; rewrite mxE ltr0n.
  apply/eqP => /matrixP /(_ 0 0). rewrite !mxE => /eqP. by rewrite oner_eq0.
Qed.
