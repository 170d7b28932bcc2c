(** C86: a fit can be continued from its final shape. *)
From Verif.Model Require Import Py LinAlg History AamRuns.
From Verif.Spec Require Import LinAlg AamRuns Resume.
From Verif.Proofs Require Import LinAlg History AamRuns AamRunsExample.
From Verif.Proofs Require Resume.
From Verif.Props Require AamRuns.
From mathcomp Require Import all_ssreflect all_algebra.
Set Implicit Arguments.
Unset Strict Implicit.
Unset Printing Implicit Defensive.
Import Order.TTheory GRing.Theory Num.Theory.
Local Open Scope ring_scope.

(** In all of the following the first call used up its [m] iterations ([size ps = m + 1]) and was still moving, and setting the
    final shape on the transform gives the final parameters back.  Then a call with [m + r] iterations leaves the object in the
    same state and reports the same as the first call followed by one of [r] iterations from its final shape on the same
    object: parameters, shapes and costs without the repeated first entry, or the same exception. *)
Section C86.
Variable F : realFieldType.
Variables (k n : nat) (Image Sh : Type).
Variable project : Sh -> 'cV[F]_n.
Variable target_of : 'cV[F]_n -> Sh.
Variable warp : Image -> 'cV[F]_n -> res 'cV[F]_k.
Variable exceeds : Sh -> Sh -> bool.
Variable a_bar : 'cV[F]_k.
Variable s2_inv_L : 'cV[F]_n.
Variables (img : Image) (s : Sh) (m r : nat) (rc mp : bool).

(** Project-out and ATM inverse compositional algorithms, with and without map_inference. *)
Theorem c86_inverse_compositional : forall cost QJ_m pinv_QJ_m a a1 ps ss ks,
  let run := ic_run project target_of warp exceeds cost a_bar QJ_m pinv_QJ_m s2_inv_L in
  run (Call img s m rc mp) a = (a1, Ok (ps, ss, ks)) -> size ps = m.+1 -> still_moving exceeds ss -> project (last s ss) = last (project s) ps ->
  run (Call img s (m + r) rc mp) a = continued ps ss ks (run (Call img (last s ss) r rc mp) a1).
Proof.
  move=> cost QJ pQ a a1 ps ss ks run R Sz Mv Pj.
  apply: (@Proofs.Resume.run_continues _ _ _ _ _ project target_of warp exceeds cost a_bar _ false _ (Call img s m rc mp)) => //. exact: ic_keeps.
Qed.
(** Forward compositional ones. *)
Theorem c86_forward_compositional : forall cost jac po a a1 ps ss ks,
  let run := fc_run project target_of warp exceeds cost a_bar s2_inv_L jac po in
  run (Call img s m rc mp) a = (a1, Ok (ps, ss, ks)) -> size ps = m.+1 -> still_moving exceeds ss -> project (last s ss) = last (project s) ps ->
  run (Call img s (m + r) rc mp) a = continued ps ss ks (run (Call img (last s ss) r rc mp) a1).
Proof.
  move=> cost jac po a a1 ps ss ks run R Sz Mv Pj.
  apply: (@Proofs.Resume.run_continues _ _ _ _ _ project target_of warp exceeds cost a_bar _ true _ (Call img s m rc mp)) => //.
Qed.

(** Modified alternating algorithms, forward and inverse, also for the appearance parameters. *)
Variable q : nat.
Variable A : 'M[F]_(k, q).
Variable P : 'M[F]_(q, k).
Theorem c86_modified_alternating : forall jac sign a a1 ps cs ss ks,
  let run := modified_run project target_of warp exceeds A P a_bar s2_inv_L jac sign in
  run (Call img s m rc mp) a = (a1, Ok (ps, cs, ss, ks)) -> size ps = m.+1 -> still_moving exceeds ss -> project (last s ss) = last (project s) ps ->
  run (Call img s (m + r) rc mp) a = continued_app ps cs ss ks (run (Call img (last s ss) r rc mp) a1).
Proof.
  move=> jac sign a a1 ps cs ss ks run R Sz Mv Pj.
  apply: (@Proofs.Resume.app_run_continues _ _ _ _ _ _ project target_of _ _ exceeds _ _ _ (Call img s m rc mp)) => //. 
  move=> im b p i p' i'. exact: Proofs.Resume.modified_fresh.
Qed.
(** Wiberg forward compositional: parameters, shapes and costs (the appearance parameters start afresh). *)
Theorem c86_wiberg_forward : forall jac_i a g h ps cs ss ks,
  let run c g := (wiberg_run project target_of warp exceeds A P a_bar s2_inv_L (forward_jac jac_i) true c g).2 in
  run (Call img s m rc mp) a = Ok (ps, cs, ss, ks) -> size ps = m.+1 -> still_moving exceeds ss -> project (last s ss) = last (project s) ps ->
  match run (Call img s (m + r) rc mp) g, run (Call img (last s ss) r rc mp) h with
  | Ok (ps2, _, ss2, ks2), Ok (ps', _, ss', ks') => [/\ ps2 = joined ps ps', ss2 = joined ss ss' & ks2 = joined_opt ks ks']
  | Err e, Err e' => e = e'
  | _, _ => False
  end.
Proof.
  move=> jac_i a g h ps cs ss ks run R Sz Mv Pj.
  have W c g0 b0 := Props.AamRuns.c74_wiberg_forward project target_of warp exceeds A P a_bar s2_inv_L jac_i c b0 g0.
  pose b : alg F k n := Alg 0 0 0. have W1 := W (Call img s m rc mp) a b. rewrite -/(run _ _) R in W1.
  case E1 : fc_run W1 => [b1 r1] /= W1. subst r1.
  have C := @c86_forward_compositional _ _ _ _ _ _ _ _ E1 Sz Mv Pj.
  have W2 := W (Call img s (m + r) rc mp) g b. rewrite C in W2. have W3 := W (Call img (last s ss) r rc mp) h b1.
  move: W2 W3. rewrite -!/(run _ _). case: fc_run => [b2 [[[p' s'] k']|e]] /=; case: (run _ _) => [[[[p2 c2] s2] k2]|e2] //.
  - move=> [<- <- <-]. case: (run _ _) => [[[[p3 c3] s3] k3]|e3] //. by move=> [<- <- <-].
  - move=> [<-]. case: (run _ _) => [[[[p3 c3] s3] k3]|e3] //. by move=> [<-].
Qed.
(** Simultaneous forward compositional without map_inference: parameters and shapes. *)
Theorem c86_simultaneous_forward : forall s2_inv_S jac_i a g h ps cs ss ks, penrose A P -> full_rank A ->
  let run c g := (simultaneous_run project target_of warp exceeds A P a_bar s2_inv_S s2_inv_L (forward_jac jac_i) true c g).2 in
  run (Call img s m rc false) a = Ok (ps, cs, ss, ks) -> size ps = m.+1 -> still_moving exceeds ss -> project (last s ss) = last (project s) ps ->
  match run (Call img s (m + r) rc false) g, run (Call img (last s ss) r rc false) h with
  | Ok (ps2, _, ss2, _), Ok (ps', _, ss', _) => ps2 = joined ps ps' /\ ss2 = joined ss ss'
  | Err e, Err e' => e = e'
  | _, _ => False
  end.
Proof.
  move=> sS jac_i a g h ps cs ss ks PA FA run R Sz Mv Pj.
  have W c g0 b0 E := @Props.AamRuns.c74_simultaneous_forward F k q n Image Sh project target_of warp exceeds A P a_bar sS s2_inv_L jac_i c b0 g0 PA FA E.
  pose b : alg F k n := Alg 0 0 0. have W1 := W (Call img s m rc false) a b erefl. rewrite -/(run _ _) R in W1.
  have C b1 ks1 := @Proofs.Resume.run_continues _ _ _ _ _ project target_of warp exceeds (cost_of A P) a_bar _ true
    (@fc_keeps F k n Image s2_inv_L jac_i (project_out A P)) (Call img s m rc false) m r b b1 ps ss ks1 erefl.
  case E1 : fc_run W1 => [b1 [[[p1 s1] k1]|]] //= [Ep Es _]. subst p1 s1.
  have {}C := C _ _ E1 Sz Mv Pj.
  have W2 := W (Call img s (m + r) rc false) g b erefl. rewrite /fc_run C in W2. have W3 := W (Call img (last s ss) r rc false) h b1 erefl.
  rewrite /fc_run /= in W3. rewrite /= in W2.
  move: W2 W3. rewrite -!/(run _ _). case: History.run => [b2 [[[p' s'] k']|e]] /=; case: (run _ _) => [[[[p2 c2] s2] k2]|e2] //.
  - move=> [<- <- _]. case: (run _ _) => [[[[p3 c3] s3] k3]|e3] //. by move=> [<- <- _].
  - move=> <-. case: (run _ _) => [[[[p3 c3] s3] k3]|e3] //. 
Qed.
End C86.
Print Assumptions c86_inverse_compositional.
Print Assumptions c86_forward_compositional.
Print Assumptions c86_modified_alternating.
Print Assumptions c86_wiberg_forward.
Print Assumptions c86_simultaneous_forward.

(** The alternating algorithms cannot be continued: what the last shape increment explains is not kept.  One image with two
    pixels, one shape parameter and one appearance component; the initial shape is 1.  Two iterations end at 0; one iteration
    followed by another one from its final shape end at 1/4. *)
Section Alternating.
Variable F : realFieldType.
Let run c := (alternating_run (fun s : 'cV[F]_1 => s) (fun p => p) (@warp1 F) (fun _ _ => true) (@A1 F) (@P1 F) 0 0 0 (@jac1 F) true c (@alg0 F)).2.
Let turn2 a i c am x y u v : exists i', alternating_turn (@warp1 F) (@A1 F) (@P1 F) 0 0 0 (@jac1 F) true tt false a%:M (Inner i c am (px x y) (px u v)) =
  Ok ((a - (y - u) / 2%:R)%:M, i').
Proof.
  eexists. rewrite /alternating_turn /alternating_dc; cbn [bind n_e n_c n_a n_Jdp]. rewrite pxD P1_px /jac1; cbn [bind]. rewrite /alternating_residual; cbn [bind].
  rewrite A1_mul pxB opprD addrA subrr sub0r subr0 shape1; cbn [bind]. rewrite /update /warp1; cbn [bind].
  by rewrite -[a%:M + _]raddfD /= [- u + y]addrC mulNr.
Qed.
Let start2 a : start (@warp1 F) (@A1 F) (@P1 F) 0 tt a%:M = Ok (Inner (px a a) a%:M (px a 0) (px 0 a) (px 0 0)).
Proof.
  rewrite /start /warp1; cbn [bind]; rewrite /appearance_weights /instance_m !subr0 add0r -[col_mx a%:M a%:M]/(px a a) P1_px A1_mul pxB.
  by rewrite subrr subr0 px0.
Qed.
Let half : F := 1 / 2%:R.
Let halves : half + half = 1. Proof. by rewrite /half -splitr. Qed.
Theorem c86_alternating_refuted : exists ps cs ss ps2 cs2 ss2 ps' cs' ss',
  [/\ run (Call tt 1%:M 1 false false) = Ok (ps, cs, ss, None), size ps = 2%N,
      run (Call tt 1%:M (1 + 1) false false) = Ok (ps2, cs2, ss2, None),
      run (Call tt (last 1%:M ss) 1 false false) = Ok (ps', cs', ss', None) & last 0 ss2 <> last 0 (joined ss ss')].
Proof.
  have T1 := @alternating_turn1 F 0. rewrite J1_mul pxB mulNr -/half in T1.
  have [i2 T2] := turn2 half (px half half) 1%:M (px 1 0) (half - 1) half (- half) (- half). rewrite subr0 in T1. 
  have [i3 T3] := turn2 half (px half half) half%:M (px half 0) 0 half 0 0.
  do 9 eexists. rewrite /run /alternating_run. split.
  - by rewrite /app_run; cbn [c_image c_shape]; rewrite start1; cbn [c_max_iters c_costs addn addn_rec Nat.add app_loop g_p g_inner c_image c_map]; rewrite T1.
  - by [].
  - by rewrite /app_run; cbn [c_image c_shape]; rewrite start1; cbn [c_max_iters c_costs addn addn_rec Nat.add app_loop g_p g_inner c_image c_map]; rewrite T1; cbn [app_loop g_p g_inner c_image c_map]; rewrite T2.
  - by rewrite /app_run; cbn [c_image c_shape]; rewrite start2; cbn [c_max_iters c_costs addn addn_rec Nat.add app_loop g_p g_inner c_image c_map]; rewrite T3.
  - rewrite /= => /scalar1_inj /addrI /oppr_inj /(congr1 ( *%R^~ 2%:R)). rewrite !mulfVK ?pnatr_eq0 // subr0 opprK -[X in _ = X]addr0.
    move/addrI /eqP. by rewrite /half mulf_eq0 oner_eq0 invr_eq0 pnatr_eq0.
Qed.
End Alternating.
Print Assumptions c86_alternating_refuted.

(** Neither can Wiberg and simultaneous inverse compositional, whose Jacobian is that of the appearance instance: a new call
    computes the appearance parameters afresh from the warped image, one call keeps those of its last update.  Here the second
    row of the Jacobian is [1 + c]: two iterations of Wiberg lead from 1 to 9/4 and of simultaneous to 5/2, one iteration
    followed by another call to 21/10. *)
Section Inverse.
Variable F : realFieldType.
Let jac := inverse_jac (Image := unit) (n := 1) (m := 1) (fun c : 'cV[F]_1 => Ok (px 1 (1 + c 0 0))).
Let wiberg c := (wiberg_run (fun s : 'cV[F]_1 => s) (fun p => p) (@warp1 F) (fun _ _ => true) (@A1 F) (@P1 F) 0 0 jac false c (@alg0 F)).2.
Let simultaneous c := (simultaneous_run (fun s : 'cV[F]_1 => s) (fun p => p) (@warp1 F) (fun _ _ => true) (@A1 F) (@P1 F) 0 0 0 jac false c (@alg0 F)).2.
Let po_d d a b w p : d != 0 -> project_out_step false (@A1 F) (@P1 F) (px 1 d) (px a b) w p = Ok (- (b / d))%:M.
Proof.
  move=> D. have Q : project_out (@A1 F) (@P1 F) (px 1 d) = px 0 d by rewrite /project_out P1_px A1_mul pxB subrr subr0.
  rewrite /project_out_step Q /solve_shape_ml !px_dot /np_solve !mul0r !add0r unit1 mulf_neq0 //= inv1 -scalar_mxM -raddfN /=.
  by rewrite invfM -mulrA mulKf // mulrC.
Qed.
Let sim_d d a b w c v p : d != 0 -> simultaneous_step false (@A1 F) (px 1 d) (px a b) w c v p = Ok ((a - b / d)%:M, (- (b / d))%:M).
Proof.
  move=> D. have := simultaneous_project_out w v (px 1 d) (px a b) 0 c p (penrose1 F) (@full1 F). rewrite po_d // mulmx0 subr0.
  case E : simultaneous_step => [[dc dp]|] //= [E2]. have := simultaneous_normal E. rewrite /weight diag0 mul0mx mulmxDr mulmxBr mulmxA -/(P1 F) P1_A1 mul1mx P1_px.
  rewrite E2. have -> : px 1 d *m (- (b / d))%:M = px (- (b / d)) (- b) :> 'cV[F]_(1 + 1).
  { by rewrite /px mul_col_mx -!scalar_mxM mul1r mulrN mulrCA divff // mulr1. }
  rewrite P1_px addrAC => /eqP. rewrite subr_eq0 => /eqP <-. by rewrite -raddfD.
Qed.
Let wiberg_turn_d a i c u v x y z : 1 + c != 0 ->
  wiberg_turn (@warp1 F) (@A1 F) (@P1 F) 0 0 jac false tt false a%:M (Inner i c%:M (px u v) (px x y) z) =
  Ok ((a + y / (1 + c))%:M, Inner (px (a + y / (1 + c)) (a + y / (1 + c))) (c + (a - u))%:M (px (c + (a - u)) 0) (px (a + y / (1 + c)) (a + y / (1 + c))) z).
Proof.
  move=> D. rewrite /wiberg_turn /jac /inverse_jac; cbn [bind n_e n_c n_a n_Jdp]. rewrite mxE eqxx mulr1n po_d //; cbn [bind]. rewrite /update /warp1; cbn [bind].
  rewrite -[a%:M - _]raddfB /= opprK -[col_mx _%:M _%:M]/(px _ _) pxB. 
  have -> : px 1 (1 + c) *m (- (y / (1 + c)))%:M = px (- (y / (1 + c))) (- y) :> 'cV[F]_(1 + 1).
  { by rewrite /px mul_col_mx -!scalar_mxM mul1r mulrN mulrCA divff // mulr1. }
  rewrite pxD P1_px subr0. have -> : a + y / (1 + c) - u - y / (1 + c) = a - u by rewrite [LHS]addrAC addrK.
  by rewrite -[c%:M + _]raddfD /= /instance_m add0r A1_mul.
Qed.
Let sim_turn_d a i c am x y z : 1 + c != 0 ->
  simultaneous_turn (@warp1 F) (@A1 F) 0 0 0 jac false tt false a%:M (Inner i c%:M am (px x y) z) =
  Ok ((a + y / (1 + c))%:M, Inner (px (a + y / (1 + c)) (a + y / (1 + c))) (c + (x - y / (1 + c)))%:M (px (c + (x - y / (1 + c))) 0)
    (px (a + y / (1 + c) - (c + (x - y / (1 + c)))) (a + y / (1 + c))) z).
Proof.
  move=> D. rewrite /simultaneous_turn /jac /inverse_jac; cbn [bind n_e n_c n_a n_Jdp]. rewrite mxE eqxx mulr1n sim_d //; cbn [bind]. rewrite /update /warp1; cbn [bind].
  rewrite -[a%:M - _]raddfB /= opprK -[col_mx _%:M _%:M]/(px _ _) -[c%:M + _]raddfD /= /instance_m add0r A1_mul pxB subr0. by [].
Qed.
Let wiberg_start_d a : wiberg_start (@warp1 F) (@A1 F) (@P1 F) 0 tt a%:M = Ok (Inner (px a a) a%:M (px a 0) (px a a) 0).
Proof.
  by rewrite /wiberg_start /warp1; cbn [bind]; rewrite /appearance_weights /instance_m !subr0 add0r -[col_mx a%:M a%:M]/(px a a) P1_px A1_mul.
Qed.
Let start_d a : start (@warp1 F) (@A1 F) (@P1 F) 0 tt a%:M = Ok (Inner (px a a) a%:M (px a 0) (px 0 a) 0).
Proof.
  rewrite /start /warp1; cbn [bind]; rewrite /appearance_weights /instance_m !subr0 add0r -[col_mx a%:M a%:M]/(px a a) P1_px A1_mul pxB.
  by rewrite subrr subr0.
Qed.
Let h : F := 1 / (1 + 1).
Let h_pos : 0 < h. Proof. by rewrite /h divr_gt0 ?ltr01 // addr_gt0 ?ltr01. Qed.
Let two : 1 + 1 != 0 :> F. Proof. by rewrite -[1 + 1]/(2%:R) pnatr_eq0. Qed.
Let one_h : 1 + (1 + h) != 0. Proof. by rewrite gt_eqF // !addr_gt0 ?ltr01. Qed.
Theorem c86_wiberg_inverse_refuted : exists ps cs ss ps2 cs2 ss2 ps' cs' ss',
  [/\ wiberg (Call tt 1%:M 1 false false) = Ok (ps, cs, ss, None), size ps = 2%N,
      wiberg (Call tt 1%:M (1 + 1) false false) = Ok (ps2, cs2, ss2, None),
      wiberg (Call tt (last 1%:M ss) 1 false false) = Ok (ps', cs', ss', None) & last 0 ss2 <> last 0 (joined ss ss')].
Proof.
  do 9 eexists. rewrite /wiberg /wiberg_run. split.
  - by rewrite /app_run; cbn [c_image c_shape]; rewrite wiberg_start_d; cbn [c_max_iters c_costs app_loop g_p g_inner c_image c_map]; rewrite wiberg_turn_d //.
  - by [].
  - rewrite /app_run; cbn [c_image c_shape]; rewrite wiberg_start_d; cbn [c_max_iters c_costs addn addn_rec Nat.add app_loop g_p g_inner c_image c_map].
    rewrite wiberg_turn_d //; cbn [app_loop g_p g_inner c_image c_map]. by rewrite subrr addr0 wiberg_turn_d //.
  - rewrite /app_run; cbn [c_image c_shape last]. rewrite wiberg_start_d -/h; cbn [c_max_iters c_costs app_loop g_p g_inner c_image c_map]. by rewrite wiberg_turn_d //.
  - rewrite /= -/h => /scalar1_inj /addrI /mulfI E. have /E /invr_inj /addrI /eqP : 1 + h != 0 by rewrite gt_eqF // addr_gt0 ?ltr01.
    by rewrite eq_sym -subr_eq0 addrAC subrr add0r gt_eqF.
Qed.
Theorem c86_simultaneous_inverse_refuted : exists ps cs ss ps2 cs2 ss2 ps' cs' ss',
  [/\ simultaneous (Call tt 1%:M 1 false false) = Ok (ps, cs, ss, None), size ps = 2%N,
      simultaneous (Call tt 1%:M (1 + 1) false false) = Ok (ps2, cs2, ss2, None),
      simultaneous (Call tt (last 1%:M ss) 1 false false) = Ok (ps', cs', ss', None) & last 0 ss2 <> last 0 (joined ss ss')].
Proof.
  have D : 1 + (1 + (0 - h)) != 0.
  { rewrite sub0r gt_eqF // addr_gt0 ?ltr01 // subr_gt0 /h ltr_pdivr_mulr ?addr_gt0 ?ltr01 // mul1r. by rewrite ltr_addl ltr01. }
  do 9 eexists. rewrite /simultaneous /simultaneous_run. split.
  - by rewrite /app_run; cbn [c_image c_shape]; rewrite start_d; cbn [c_max_iters c_costs app_loop g_p g_inner c_image c_map]; rewrite sim_turn_d //.
  - by [].
  - rewrite /app_run; cbn [c_image c_shape]; rewrite start_d; cbn [c_max_iters c_costs addn addn_rec Nat.add app_loop g_p g_inner c_image c_map].
    rewrite sim_turn_d //; cbn [app_loop g_p g_inner c_image c_map]. by rewrite sim_turn_d //.
  - rewrite /app_run; cbn [c_image c_shape last]. rewrite start_d -/h; cbn [c_max_iters c_costs app_loop g_p g_inner c_image c_map]. by rewrite sim_turn_d //.
  - rewrite /= -/h => /scalar1_inj /addrI /mulfI E. have /E /invr_inj /addrI /addrI /eqP : 1 + h != 0 by rewrite gt_eqF // addr_gt0 ?ltr01.
    by rewrite sub0r eq_sym -subr_eq0 opprK gt_eqF // addr_gt0.
Qed.
End Inverse.
Print Assumptions c86_wiberg_inverse_refuted.
Print Assumptions c86_simultaneous_inverse_refuted.

From Verif.Model Require Import Einsum ModelInstance Jacobian Updates.
From Verif.Model Require ClmFitter.
From Verif.Spec Require Import ModelInstance.
From Verif.Proofs Require Import MRing ModelInstance Projection ModelExample ClmFitterExample.
From Verif.Proofs Require ClmFitter ResumeClm.

(** Gradient descent constrained local models on an OrthoPDM, at any scale, with and without map_inference, in any state of the
    shape model: the final shape must not be a single point. *)
Theorem c86_constrained_local_model : forall (F : realFieldType) N (Image : Type) align displacement exceeds k (img : Image) b a (d d1 : opdm F N) s m r r1,
  let run := ClmFitter.alg_run align displacement exceeds in
  orthonormal (o_simcomps d) -> orthonormal (active (o_model d)) ->
  (forall c c', c \in active (o_model d) -> c' \in o_simcomps d -> dot c c' = 0) ->
  similarity_basis (m_mean (o_model d)) (o_simcomps d) -> exact_alignment align (m_mean (o_model d)) ->
  run k img s m b a d = (d1, Ok r1) -> size (ClmFitter.r_params r1) = m.+1 -> still_moving exceeds (ClmFitter.r_shapes r1) ->
  (1 + s_a (o_sim d1)) ^+ 2 + s_b (o_sim d1) ^+ 2 != 0 ->
  run k img s (m + r)%N b a d =
  match run k img (last s (ClmFitter.r_shapes r1)) r b a d1 with
  | (d2, Ok r2) => (d2, Ok (ClmFitter.Result (joined (ClmFitter.r_shapes r1) (ClmFitter.r_shapes r2)) (joined (ClmFitter.r_params r1) (ClmFitter.r_params r2))))
  | (d2, Err e) => (d2, Err e)
  end.
Proof. move=> F N Image al di ex k img b a d d1 s m r r1 run Os Om X B E R Sz Mv D. exact: (Proofs.ResumeClm.run_continues r Os Om X B E R Sz Mv D). Qed.
Print Assumptions c86_constrained_local_model.

(** ** Concrete cases *)
Section Concrete.
Variable F : realFieldType.
Example c86_clm_ex : exists a d1 r1,
  [/\ ClmFitter.alg_new (@nv F) (@evs F) (at_mean 1 1) = Ok a,
      ClmFitter.alg_run (@lsq F 4) (@towards F) (@always F) 0 tt (mean4 F) 1 false a (at_mean 1 1) = (d1, Ok r1),
      size (ClmFitter.r_params r1) = 2%N, still_moving (@always F) (ClmFitter.r_shapes r1)
    & (1 + s_a (o_sim d1)) ^+ 2 + s_b (o_sim d1) ^+ 2 != 0].
Proof.
  have one : 1 * 1 = 1 :> F by rewrite mulr1. have [J [w [E [W [G Cols]]]]] := @new_ok F 1 1 one isT.
  have [d' U T] := @update_signed F J w 1 W G Cols.
  exists (ClmFitter.Alg J w), d', (ClmFitter.Result [:: 1 *: mean4 F; o_target d'] [:: opdm_vector (at_mean 1 1); opdm_vector d']).
  split=> //.
  - rewrite /ClmFitter.alg_run [ClmFitter.src _]/=. have Ht := @at_mean_target F 1 1 (at_mean 1 1) one erefl. rewrite scale1r in Ht. rewrite Ht /=.
    by rewrite /ClmFitter.alg_step /= U.
  - apply/negP. rewrite paddr_eq0 ?sqr_ge0 // !sqrf_eq0 => /andP [/eqP Za /eqP Zb].
    have : opdm_synced d'.
      move: U. rewrite /clm_update. case: clm_step => [dp|] // U. by have [] := opdm_from_ok U.
    move=> Sy. have [_ H0] := Sy (inord 0). have [_ H1] := Sy (inord 1). rewrite Za Zb T scale1r !mul0r !add0r in H0 H1.
    move: H0 H1. rewrite ![(mean4 F + comp4 F) _ _]mxE !mean4E // !comp4E //= !addr0 => <- /eqP. by rewrite oner_eq0.
Qed.
(** The forward compositional algorithm that halves a number: one iteration from 1. *)
Let id1 (p : 'cV[F]_1) := p.
Example c86_ex : exists a1 ps ss ks,
  [/\ fc_run id1 id1 (fun (_ : unit) p => Ok p) (fun _ _ => true) (fun x => x 0 0) 0 0 (fun _ _ => Ok (2%:R)%:M) id1 (Call tt 1%:M 1 true false) (Alg 0 0 0) = (a1, Ok (ps, ss, ks)),
      size ps = 2%N, still_moving (fun _ _ => true) ss & id1 (last 1%:M ss) = last (id1 1%:M) ps].
Proof.
  do 4 eexists. split.
  - rewrite /fc_run /run /= /fc_solve /= /solve_shape_ml /np_solve /id1 tr_scalar_mx -scalar_mxM unit1 mulf_neq0 ?pnatr_eq0 //.
  - by []. - by []. - by [].
Qed.
End Concrete.
