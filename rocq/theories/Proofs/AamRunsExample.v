(** A model with one appearance component, two pixels and one shape parameter. *)
From Verif.Model Require Import Py LinAlg History AamRuns.
From Verif.Spec Require Import LinAlg AamRuns.
From Verif.Proofs Require Import LinAlg AamRuns.
From mathcomp Require Import all_ssreflect all_algebra.
Set Implicit Arguments.
Unset Strict Implicit.
Unset Printing Implicit Defensive.
Import Order.TTheory GRing.Theory Num.Theory.
Local Open Scope ring_scope.

Section Example.
Variable F : realFieldType.
(** The component lights the first pixel; both pixels change with the shape parameter. *)
Definition A1 : 'M[F]_(1 + 1, 1) := col_mx 1%:M 0.
Definition P1 : 'M[F]_(1, 1 + 1) := A1^T.
Definition J1 : 'M[F]_(1 + 1, 1) := col_mx 1%:M 1%:M.
Definition px (a b : F) : 'cV[F]_(1 + 1) := col_mx a%:M b%:M.
Definition warp1 (_ : unit) (p : 'cV[F]_1) : res 'cV[F]_(1 + 1) := Ok (col_mx p p).
Definition jac1 (_ : unit) (_ : 'cV[F]_1) (_ : 'cV[F]_1) : res 'M[F]_(1 + 1, 1) := Ok J1.
(** An image whose second pixel disappears when the shape parameter is 0. *)
Definition warp2 (_ : unit) (p : 'cV[F]_1) : res 'cV[F]_(1 + 1) := Ok (if p == 0 then px 1 0 else col_mx p p).
Definition call1 : call unit 'cV[F]_1 := Call tt 1%:M 1 true false.
Definition alg0 : app_alg 'cV[F]_1 (inner F (1 + 1) 1) := AppAlg 0 (Inner 0 0 0 0 0).

Lemma P1_px a b : P1 *m px a b = a%:M.
Proof. by rewrite /P1 /A1 /px tr_col_mx trmx1 trmx0 mul_row_col mul1mx mul0mx addr0. Qed.
Lemma P1_A1 : P1 *m A1 = 1%:M.
Proof. by rewrite /P1 /A1 tr_col_mx trmx1 trmx0 mul_row_col mul1mx mul0mx addr0. Qed.
Lemma A1_mul a : A1 *m a%:M = px a 0.
Proof. by rewrite /A1 /px mul_col_mx mul1mx mul0mx raddf0. Qed.
Lemma J1_mul a : J1 *m a%:M = px a a.
Proof. by rewrite /J1 /px mul_col_mx mul1mx. Qed.
Lemma full1 : full_rank A1.
Proof. move=> x E. by rewrite -[x]mul1mx -P1_A1 -mulmxA E mulmx0. Qed.
Lemma penrose1 : penrose A1 P1.
Proof.
  split; rewrite ?P1_A1 ?trmx1 //; first by rewrite -mulmxA P1_A1 mulmx1.
  - by rewrite mul1mx.
  - by rewrite trmx_mul /P1 trmxK.
Qed.
Lemma pxB a b c d : px a b - px c d = px (a - c) (b - d). Proof. by rewrite /px opp_col_mx add_col_mx -!raddfB. Qed.
Lemma pxD a b c d : px a b + px c d = px (a + c) (b + d). Proof. by rewrite /px add_col_mx -!raddfD. Qed.
Lemma px0 : px 0 0 = 0. Proof. by rewrite /px raddf0 col_mx0. Qed.
Lemma unit1 (a : F) : ((a%:M : 'M[F]_1) \in unitmx) = (a != 0).
Proof. by rewrite unitmxE det_scalar1 unitfE. Qed.
Lemma inv1 (a : F) : invmx (a%:M : 'M[F]_1) = (a^-1)%:M.
Proof. exact: invmx_scalar. Qed.
Lemma px_dot a b c d : (px a b)^T *m px c d = (a * c + b * d)%:M.
Proof. by rewrite /px tr_col_mx !tr_scalar_mx mul_row_col -!scalar_mxM -raddfD. Qed.
Lemma scalar1_inj (a b : F) : (a%:M : 'M[F]_1) = b%:M -> a = b.
Proof. move/(congr1 (fun M : 'M[F]_1 => M 0 0)). by rewrite !mxE. Qed.
Lemma QJ1 : project_out A1 P1 J1 = px 0 1.
Proof. rewrite -[J1]/(px 1 1) /project_out P1_px A1_mul pxB. by rewrite subrr subr0. Qed.
Lemma po1 a b w p : project_out_step false A1 P1 J1 (px a b) w p = Ok (- b)%:M.
Proof.
  rewrite /project_out_step QJ1 -[J1]/(px 1 1) /solve_shape_ml px_dot px_dot /np_solve !mul0r !mul1r !add0r unit1 oner_eq0 /=.
  by rewrite inv1 invr1 -scalar_mxM mul1r raddfN.
Qed.

(** One turn of a loop. *)
Lemma one_turn start step (cost : inner F (1 + 1) 1 -> F) i p' i' : start tt 1%:M = Ok i -> step tt false 1%:M i = Ok (p', i') ->
  app_run (fun s : 'cV[F]_1 => s) (fun p => p) start step (fun _ _ => true) (@n_c F (1 + 1) 1) cost call1 alg0 =
  (AppAlg p' i', Ok ([:: 1%:M; p'], [:: n_c i; n_c i'], [:: 1%:M; p'], Some [:: cost i; cost i'])).
Proof. move=> E1 E2. by rewrite /app_run /= E1 /= E2. Qed.
Lemma wiberg_start1 : wiberg_start warp1 A1 P1 0 tt 1%:M = Ok (Inner (px 1 1) 1%:M (px 1 0) (px 1 1) 0).
Proof.
  by rewrite /wiberg_start /warp1; cbn [bind]; rewrite /appearance_weights /instance_m !subr0 add0r -[col_mx 1%:M 1%:M]/(px 1 1) P1_px A1_mul.
Qed.
Lemma wiberg_turn1 : wiberg_turn warp1 A1 P1 0 0 jac1 true tt false 1%:M (Inner (px 1 1) 1%:M (px 1 0) (px 1 1) 0) =
  Ok (0%:M, Inner (px 0 0) (-1)%:M (px (-1) 0) (px 0 0) 0).
Proof.
  rewrite /wiberg_turn /jac1; cbn [bind n_e n_c n_a n_Jdp]. rewrite po1; cbn [bind]. rewrite /update /warp1; cbn [bind].
  rewrite -[1%:M + (-1)%:M]raddfD /= subrr -[col_mx 0%:M 0%:M]/(px 0 0) J1_mul pxB pxD P1_px -[1%:M + (_)%:M]raddfD /=.
  by rewrite sub0r addrA subrr add0r /instance_m add0r A1_mul subr0.
Qed.
(** One turn of the alternating algorithm: the appearance stays as it is, the shape covers half of the way. *)
Lemma start1 : start warp1 A1 P1 0 tt 1%:M = Ok (Inner (px 1 1) 1%:M (px 1 0) (px 0 1) 0).
Proof.
  rewrite /start /warp1; cbn [bind]; rewrite /appearance_weights /instance_m !subr0 add0r -[col_mx 1%:M 1%:M]/(px 1 1) P1_px A1_mul pxB.
  by rewrite subrr subr0.
Qed.
Lemma shape1 a b : solve_shape_ml (J1^T *m J1) J1 (px a b) = Ok (- (a + b) / 2%:R)%:M.
Proof.
  rewrite /solve_shape_ml -[J1]/(px 1 1) !px_dot /np_solve !mul1r -[1 + 1]/(2%:R) unit1 pnatr_eq0 /= inv1 -scalar_mxM -raddfN /=.
  by rewrite mulNr [_ * (a + b)]mulrC.
Qed.
Lemma alternating_turn1 w : alternating_turn warp1 A1 P1 0 w 0 jac1 true tt false 1%:M (Inner (px 1 1) 1%:M (px 1 0) (px 0 1) 0) =
  Ok ((1 / 2%:R)%:M, Inner (px (1 / 2%:R) (1 / 2%:R)) 1%:M (px 1 0) (px (1 / 2%:R) (1 / 2%:R) - px 1 0) (J1 *m (-1 / 2%:R)%:M)).
Proof.
  rewrite /alternating_turn /alternating_dc; cbn [bind n_e n_c n_a n_Jdp]. rewrite addr0 P1_px /jac1; cbn [bind]. rewrite /alternating_residual; cbn [bind].
  rewrite A1_mul px0 subr0 shape1; cbn [bind]. rewrite add0r raddf0 addr0 /instance_m add0r A1_mul /update /warp1; cbn [bind].
  have -> : 1%:M + (-1 / 2%:R)%:M = (1 / 2%:R)%:M :> 'M[F]_1.
  { rewrite -raddfD /=. congr (_%:M). by apply/eqP; rewrite mulNr subr_eq -splitr. }
  by [].
Qed.
(** One turn of the simultaneous algorithm. *)
Lemma simultaneous1 w c v p : simultaneous_step false A1 J1 (px 0 1) w c v p = Ok ((-1)%:M, (-1)%:M).
Proof.
  have := simultaneous_project_out w v J1 (px 1 1) 1%:M c p penrose1 full1. rewrite po1 A1_mul pxB subrr subr0.
  case E : simultaneous_step => [[dc dp]|] //= [E2]. have := simultaneous_normal E. rewrite /weight diag0 mul0mx mulmxDr mulmxBr mulmxA -/P1 P1_A1 mul1mx P1_px.
  rewrite E2 J1_mul P1_px raddf0 sub0r addrC => /eqP. by rewrite subr_eq0 => /eqP <-.
Qed.
Lemma zero1 : 0%:M = 0 :> 'M[F]_1. Proof. exact: raddf0. Qed.
Lemma start2 : start warp2 A1 P1 0 tt 1%:M = Ok (Inner (px 1 1) 1%:M (px 1 0) (px 0 1) 0).
Proof.
  have N : (1%:M == 0 :> 'M[F]_1) = false by apply/eqP; rewrite -zero1 => /scalar1_inj /eqP; rewrite oner_eq0.
  rewrite -start1 /start /warp1 /warp2. by rewrite N.
Qed.
Lemma simultaneous_turn1 : simultaneous_turn warp2 A1 0 0 0 jac1 true tt false 1%:M (Inner (px 1 1) 1%:M (px 1 0) (px 0 1) 0) =
  Ok (0, Inner (px 1 0) 0 0 (px 1 0) 0).
Proof.
  rewrite /simultaneous_turn /jac1; cbn [bind n_e n_c n_a n_Jdp]. rewrite simultaneous1; cbn [bind]. rewrite /update -[1%:M + (-1)%:M]raddfD /= subrr raddf0.
  by rewrite /warp2 eqxx; cbn [bind]; rewrite /instance_m mulmx0 addr0 subr0.
Qed.
End Example.
