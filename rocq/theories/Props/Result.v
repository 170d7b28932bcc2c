(** C07, C08, C09 (what results report), C37 (labels), C38 (errors and displacements). *)
From Coq Require Import List ZArith Lia Bool.
From Verif.Model Require Import Py RunLoop Result.
From Verif.Spec Require Import RunLoop Result.
From Verif.Proofs Require RunLoop Result.
Import ListNotations.
Local Open Scope nat_scope.

(** ** C07 *)

(** An algorithm's result object reports the run: one iteration per shape after the first. *)
Theorem c07_single_scale : forall Sh P A C (gt : option Sh) (r : scale_run Sh P A C),
  exists res, parametric_result (s_shapes r) (s_params r) (s_app r) (s_initial r) gt (s_costs r) = Ok res /\
    r_n_iters res = Z.of_nat (s_iters r) /\
    r_shapes res = opt_list (s_initial r) ++ s_first r :: s_rest r /\
    r_final res = last (s_rest r) (s_first r) /\
    reconstructed_initial_shape res = Ok (s_first r).
Proof.
  intros Sh P A C gt r. exists (of_run gt r). split; [apply Proofs.Result.parametric_of_run|].
  split; [reflexivity|]. split; [|split; [reflexivity|apply Proofs.Result.reconstructed_of_run]].
  unfold of_run, s_shapes. cbn. destruct (s_initial r); reflexivity.
Qed.
Print Assumptions c07_single_scale.

(** The multi-scale result.  Precondition of the costs: all scales return costs, or the first does not. *)
Theorem c07_multi_scale : forall Sh P A C (gts : scale_run Sh P A C -> option Sh) affine scale gt
    (runs : list (scale_run Sh P A C)) costs,
  runs <> [] -> length runs <= length affine -> length runs <= length scale ->
  concat_attr (map s_costs runs) = Ok costs ->
  exists m,
    multi_parametric (map (fun r => of_run (gts r) r) runs) (length runs) affine scale gt = Ok m /\
    r_n_iters (m_res m) = Z.of_nat (total (map s_iters runs)) /\
    m_n_iters_per_scale m = map (fun r => Z.of_nat (s_iters r)) runs /\
    r_initial (m_res m) = mapped_initial affine scale runs /\
    r_shapes (m_res m) = opt_list (mapped_initial affine scale runs) ++ concat (mapped affine scale runs) /\
    last_res (concat (mapped affine scale runs)) = Ok (r_final (m_res m)) /\
    r_params (m_res m) = concat (map s_params runs) /\
    r_gt (m_res m) = gt /\ r_costs (m_res m) = costs /\
    reconstructed_initial_shapes m
      = Ok (map (fun ir => T affine scale (fst ir) (s_first (snd ir))) (combine (seq 0 (length runs)) runs)).
Proof.
  intros Sh P A C gts affine scale gt runs costs Hne Ha Hs Hc.
  destruct (Proofs.Result.multi_parametric_spec gts affine scale gt runs costs Hne Ha Hs Hc)
    as (m & Em & Ef & Ei & Eg & Es & En & Eco & Ep & Ek & Ens & Er).
  exists m. repeat (split; [assumption|]). exact Er.
Qed.
Print Assumptions c07_multi_scale.

(** One entry of shape_parameters per non-initial shape, when each scale lines up (C06). *)
Theorem c07_parameters_line_up : forall Sh P A C (gts : scale_run Sh P A C -> option Sh) affine scale gt
    (runs : list (scale_run Sh P A C)) costs m,
  runs <> [] -> length runs <= length affine -> length runs <= length scale ->
  concat_attr (map s_costs runs) = Ok costs ->
  (forall r, In r runs -> length (s_params r) = length (s_shapes r)) ->
  multi_parametric (map (fun r => of_run (gts r) r) runs) (length runs) affine scale gt = Ok m ->
  length (r_params (m_res m)) + length (opt_list (r_initial (m_res m))) = length (r_shapes (m_res m)).
Proof.
  intros Sh P A C gts affine scale gt runs costs m Hne Ha Hs Hc Hl Hm.
  destruct (c07_multi_scale _ _ _ _ gts affine scale gt runs costs Hne Ha Hs Hc)
    as (m' & Em & _ & _ & Ei & Es & _ & Ep & _).
  rewrite Hm in Em. injection Em as <-. rewrite Es, Ei, Ep, app_length, Proofs.Result.total_lengths.
  assert (E : length (concat (map s_params runs)) = total (map s_iters runs) + length runs).
  { clear - Hl. induction runs as [|r runs IH]; [reflexivity|].
    cbn [map concat total fold_right length]. rewrite app_length, IH by (intros; apply Hl; right; auto).
    rewrite (Hl r (or_introl eq_refl)). unfold s_shapes, s_iters, total. cbn [length]. lia. }
  lia.
Qed.
Print Assumptions c07_parameters_line_up.

(** Results of a number of scales other than the number of scales of the fitter are rejected. *)
Theorem c07_wrong_number_of_results : forall Sh P A C (results : list (iresult Sh P A C)) n affine scale gt,
  length results <> n ->
  multi_nonparametric results n affine scale gt = Err ValueError /\
  multi_parametric results n affine scale gt = Err ValueError.
Proof.
  intros Sh P A C results n affine scale gt H. unfold multi_parametric, multi_nonparametric.
  apply Nat.eqb_neq in H. rewrite H. auto.
Qed.
Print Assumptions c07_wrong_number_of_results.

(** The AAM result adds the appearance parameters of all scales. *)
Theorem c07_aam_appearance : forall Sh P A C (gts : scale_run Sh P A C -> option Sh) affine scale gt
    (runs : list (scale_run Sh P A C)) costs apps,
  runs <> [] -> length runs <= length affine -> length runs <= length scale ->
  concat_attr (map s_costs runs) = Ok costs ->
  map s_app runs = map Some apps ->
  exists m, aam_result (map (fun r => of_run (gts r) r) runs) (length runs) affine scale gt = Ok m /\
    r_app (m_res m) = Some (concat apps) /\
    r_n_iters (m_res m) = Z.of_nat (total (map s_iters runs)) /\
    r_params (m_res m) = concat (map s_params runs) /\
    r_shapes (m_res m) = opt_list (mapped_initial affine scale runs) ++ concat (mapped affine scale runs).
Proof.
  intros Sh P A C gts affine scale gt runs costs apps Hne Ha Hs Hc Happ.
  assert (Hc2 : concat_attr (map s_app runs) = Ok (Some (concat apps))).
  { rewrite Happ. apply Proofs.Result.concat_attr_some. intros ->. destruct runs; [congruence|discriminate]. }
  destruct (Proofs.Result.aam_result_app gts affine scale gt runs costs _ Hne Ha Hs Hc Hc2)
    as (m & m' & Em & Em' & E1 & E2 & E3 & E4 & E5).
  destruct (c07_multi_scale _ _ _ _ gts affine scale gt runs costs Hne Ha Hs Hc)
    as (m0 & Em0 & En & _ & _ & Es & _ & Ep & _).
  rewrite Em in Em0. injection Em0 as <-. exists m'. split; [exact Em'|].
  split; [exact E5|]. split; [congruence|]. split; congruence.
Qed.
Print Assumptions c07_aam_appearance.

(** Finding: when the first scale's algorithm has appearance parameters and a later one's has none
    (different algorithms per scale), building the AAM result raises TypeError. *)
Theorem c07_mixed_appearance_refuted : forall Sh P A C (gts : scale_run Sh P A C -> option Sh) affine scale gt r
    (runs : list (scale_run Sh P A C)) costs l,
  length (r :: runs) <= length affine -> length (r :: runs) <= length scale ->
  concat_attr (map s_costs (r :: runs)) = Ok costs ->
  s_app r = Some l -> (exists r', In r' runs /\ s_app r' = None) ->
  aam_result (map (fun r => of_run (gts r) r) (r :: runs)) (length (r :: runs)) affine scale gt = Err TypeError.
Proof. exact @Proofs.Result.aam_result_mixed. Qed.
Print Assumptions c07_mixed_appearance_refuted.

(** Two scales with two and one iterations; shapes are numbers, the coarse frame is half size. *)
Definition run_a : scale_run Z Z Z Z := mkRun (Some 10%Z) 11%Z [12; 13]%Z [1; 2; 3]%Z (Some [7; 8; 9]%Z) None.
Definition run_b : scale_run Z Z Z Z := mkRun (Some 26%Z) 27%Z [28]%Z [4; 5]%Z None None.
Example c07_example_hypotheses :
  [run_a; run_b] <> [] /\ concat_attr (map s_costs [run_a; run_b]) = Ok None /\
  (forall r, In r [run_a; run_b] -> length (s_params r) = length (s_shapes r)).
Proof. split; [discriminate|]. split; [reflexivity|]. intros r [<-|[<-|[]]]; reflexivity. Qed.
Example c07_example : exists m,
  multi_parametric (map (of_run None) [run_a; run_b]) 2 [fun x => x; fun x => x] [Z.mul 2; fun x => x] None = Ok m /\
  r_shapes (m_res m) = [20; 22; 24; 26; 27; 28]%Z /\ r_n_iters (m_res m) = 3%Z /\
  m_n_iters_per_scale m = [2; 1]%Z /\ r_params (m_res m) = [1; 2; 3; 4; 5]%Z /\
  reconstructed_initial_shapes m = Ok [22; 27]%Z.
Proof. eexists. split; [reflexivity|]. repeat split. Qed.
Example c07_mixed_example :
  aam_result (map (of_run None) [run_a; run_b]) 2 [fun x => x; fun x => x] [Z.mul 2; fun x => x] None = Err TypeError.
Proof. reflexivity. Qed.

(** ** C08.  The Lucas-Kanade result subtracts the number of scales twice. *)
Theorem c08_lucas_kanade_n_iters_partial : forall Sh P A C (gts : scale_run Sh P A C -> option Sh) affine scale gt
    (runs : list (scale_run Sh P A C)) costs,
  runs <> [] -> length runs <= length affine -> length runs <= length scale ->
  concat_attr (map s_costs runs) = Ok costs ->
  exists m,
    lucas_kanade_result (map (fun r => of_run (gts r) r) runs) (length runs) affine scale gt = Ok m /\
    m_n_iters_per_scale m = map (fun r => Z.of_nat (s_iters r)) runs /\
    r_n_iters (m_res m) = (Z.of_nat (total (map s_iters runs)) - Z.of_nat (length runs))%Z /\
    r_shapes (m_res m) = opt_list (mapped_initial affine scale runs) ++ concat (mapped affine scale runs).
Proof.
  intros Sh P A C gts affine scale gt runs costs Hne Ha Hs Hc.
  destruct (Proofs.Result.lucas_kanade_spec gts affine scale gt runs costs Hne Ha Hs Hc)
    as (m & Em & E1 & E2 & E3 & _). exists m. auto.
Qed.
Print Assumptions c08_lucas_kanade_n_iters_partial.

(** So n_iters is wrong for every run, and negative when fewer iterations than scales were performed. *)
Theorem c08_n_iters_refuted : forall Sh P A C (gts : scale_run Sh P A C -> option Sh) affine scale gt
    (runs : list (scale_run Sh P A C)) costs m,
  runs <> [] -> length runs <= length affine -> length runs <= length scale ->
  concat_attr (map s_costs runs) = Ok costs ->
  lucas_kanade_result (map (fun r => of_run (gts r) r) runs) (length runs) affine scale gt = Ok m ->
  (r_n_iters (m_res m) < fold_right Z.add 0 (m_n_iters_per_scale m))%Z /\
  (total (map s_iters runs) < length runs -> (r_n_iters (m_res m) < 0)%Z).
Proof.
  intros Sh P A C gts affine scale gt runs costs m Hne Ha Hs Hc Hm.
  destruct (c08_lucas_kanade_n_iters_partial _ _ _ _ gts affine scale gt runs costs Hne Ha Hs Hc)
    as (m' & Em & E1 & E2 & _).
  rewrite Hm in Em. injection Em as <-. rewrite E1, E2.
  assert (E : fold_right Z.add 0%Z (map (fun r => Z.of_nat (s_iters r)) runs) = Z.of_nat (total (map s_iters runs))).
  { clear. induction runs as [|r runs IH]; [reflexivity|]. cbn [map fold_right]. rewrite IH.
    unfold total. cbn [map fold_right]. lia. }
  rewrite E. destruct runs as [|r runs]; [congruence|]. cbn [length]. split; lia.
Qed.
Print Assumptions c08_n_iters_refuted.

Example c08_example : exists m,
  lucas_kanade_result [of_run None run_b] 1 [fun x => x] [fun x => x] None = Ok m /\
  m_n_iters_per_scale m = [1%Z] /\ r_n_iters (m_res m) = 0%Z.
Proof. eexists. split; [reflexivity|]. split; reflexivity. Qed.

(** ** C09.  Cascades of regressors. *)

(** AAM supervised descent: the projection, then one shape and one parameter vector per regressor. *)
Theorem c09_aam_supervised_descent : forall Rg St P Sh A C (step : Rg -> St -> res St) (as_vector : St -> P)
    (target : St -> Sh) regs st0 params shapes (app : option (list A)) (i : Sh) gt (costs : option (list C)),
  aam_sd_run step as_vector target regs st0 = Ok (params, shapes) ->
  exists r, parametric_result shapes params app (Some i) gt costs = Ok r /\
    r_n_iters r = Z.of_nat (length regs) /\
    reconstructed_initial_shape r = Ok (target st0) /\
    length (r_params r) = S (length regs) /\ length (r_shapes r) = S (S (length regs)) /\
    exists l, CTraj step regs st0 l /\ r_params r = map as_vector (st0 :: l) /\
      r_shapes r = i :: map target (st0 :: l).
Proof.
  intros Rg St P Sh A C step av tg regs st0 params shapes app i gt costs H.
  apply (Proofs.RunLoop.cascade_spec step av tg) in H. destruct H as (l & HT & [= -> ->]).
  pose proof (Proofs.RunLoop.ctraj_length step _ _ _ HT) as Hl.
  pose proof (Proofs.Result.parametric_of_run gt
    (mkRun (Some i) (tg st0) (map tg l) (av st0 :: map av l) app costs)) as E.
  eexists. split; [exact E|]. cbn [of_run r_n_iters r_params r_shapes s_iters s_rest s_first s_initial s_params s_shapes].
  cbn [length s_shapes s_first s_rest].
  split; [unfold s_iters; cbn; rewrite map_length; congruence|]. split; [reflexivity|].
  split; [rewrite map_length; congruence|]. split; [unfold s_shapes; cbn; rewrite map_length; congruence|].
  exists l. auto.
Qed.
Print Assumptions c09_aam_supervised_descent.

(** Non-parametric supervised descent: the initial shape, then one shape per regressor. *)
Theorem c09_non_parametric : forall Rg St Sh P A C (step : Rg -> St -> res St)
    (target : St -> Sh) regs st0 shapes (i : Sh) gt (costs : option (list C)),
  regs <> [] ->
  sdm_non_parametric_run step target regs st0 = Ok shapes ->
  exists r : iresult Sh P A C, nonparametric_result shapes (Some i) gt costs = Ok r /\
    r_n_iters r = Z.of_nat (length regs) /\ length (r_shapes r) = S (length regs) /\
    exists l, CTraj step regs st0 l /\ r_shapes r = i :: map target l.
Proof.
  intros Rg St Sh P A C step tg regs st0 shapes i gt costs Hne H.
  apply (Proofs.RunLoop.cascade_shapes_spec step tg) in H. destruct H as (l & HT & ->).
  pose proof (Proofs.RunLoop.ctraj_length step _ _ _ HT) as Hl. cbn [app].
  unfold nonparametric_result. destruct l as [|s l]; [destruct regs; [congruence|discriminate]|].
  cbn [map]. rewrite Proofs.Result.last_res_cons. cbn [bind]. eexists. split; [reflexivity|].
  cbn [r_n_iters r_shapes length]. rewrite map_length. split; [f_equal; exact Hl|].
  split; [f_equal; exact Hl|]. exists (s :: l). auto.
Qed.
Print Assumptions c09_non_parametric.

(** Over several scales: the total number of regressors applied. *)
Theorem c09_non_parametric_multi_scale : forall Sh P A C (mk : scale_run Sh P A C -> iresult Sh P A C) affine scale gt
    (runs : list (scale_run Sh P A C)) costs,
  (forall r, nonparametric_result (s_shapes r) (s_initial r) gt (s_costs r) = Ok (mk r)) ->
  runs <> [] -> length runs <= length affine -> length runs <= length scale ->
  concat_attr (map s_costs runs) = Ok costs ->
  exists m, multi_nonparametric (map mk runs) (length runs) affine scale gt = Ok m /\
    r_n_iters (m_res m) = Z.of_nat (total (map (fun r => length (s_shapes r)) runs)) /\
    m_n_iters_per_scale m = map (fun r => Z.of_nat (length (s_shapes r))) runs /\
    r_shapes (m_res m) = opt_list (mapped_initial affine scale runs) ++ concat (mapped affine scale runs).
Proof.
  intros Sh P A C mk affine scale gt runs costs Hmk Hne Ha Hs Hc.
  assert (Hinv : forall r, r_initial (mk r) = s_initial r /\ r_shapes (mk r) = opt_list (s_initial r) ++ s_shapes r /\
    r_costs (mk r) = s_costs r /\ r_n_iters (mk r) = Z.of_nat (length (s_shapes r))).
  { intros r. pose proof (Proofs.Result.nonparametric_inv _ _ _ _ _ (Hmk r)) as (f & _ & ->). cbn.
    destruct (s_initial r); auto. }
  destruct (Proofs.Result.multi_nonparametric_gen mk affine scale gt runs costs
      (fun r => proj1 (Hinv r)) (fun r => proj1 (proj2 (Hinv r))) (fun r => proj1 (proj2 (proj2 (Hinv r)))) Hne Ha Hs Hc)
    as (m & Em & _ & _ & _ & Es & En & _ & Ek & _).
  exists m. split; [exact Em|]. split; [|split; [|exact Es]].
  - rewrite En. f_equal. clear. induction runs as [|r runs IH]; [reflexivity|].
    unfold total in *. cbn [map fold_right length]. unfold s_iters in *. unfold s_shapes in *. cbn [length] in *. lia.
  - rewrite Ek. apply map_ext. intros r. apply (Hinv r).
Qed.
Print Assumptions c09_non_parametric_multi_scale.

(** Parametric supervised descent.  The list of shapes lacks the projection of the initial shape, so
    n_iters is one short, the first regressor's output is reported as the reconstructed initial shape and
    there is one parameter vector more than shapes. *)
Theorem c09_parametric_refuted : forall Rg St P Sh A C (step : Rg -> St -> res St) (as_vector : St -> P)
    (target : St -> Sh) regs st0 params shapes (app : option (list A)) (i : Sh) gt (costs : option (list C)),
  regs <> [] ->
  sdm_parametric_run step as_vector target regs st0 = Ok (params, shapes) ->
  exists r s1 l, parametric_result shapes params app (Some i) gt costs = Ok r /\
    CTraj step regs st0 (s1 :: l) /\
    r_n_iters r = (Z.of_nat (length regs) - 1)%Z /\
    reconstructed_initial_shape r = Ok (target s1) /\
    r_shapes r = i :: map target (s1 :: l) /\ r_params r = map as_vector (st0 :: s1 :: l).
Proof.
  intros Rg St P Sh A C step av tg regs st0 params shapes app i gt costs Hne H.
  apply (Proofs.RunLoop.cascade_spec step av tg) in H. destruct H as (l & HT & [= -> ->]).
  pose proof (Proofs.RunLoop.ctraj_length step _ _ _ HT) as Hl.
  destruct l as [|s1 l]; [destruct regs; [congruence|discriminate]|].
  pose proof (Proofs.Result.parametric_of_run gt
    (mkRun (Some i) (tg s1) (map tg l) (av st0 :: av s1 :: map av l) app costs)) as E.
  eexists _, s1, l. split; [exact E|]. split; [exact HT|].
  split; [unfold of_run, s_iters; cbn; rewrite map_length; cbn in Hl; lia|].
  split; [reflexivity|]. split; reflexivity.
Qed.
Print Assumptions c09_parametric_refuted.

(** With no regressor at all neither supervised descent method returns a result. *)
Theorem c09_empty_cascade_refuted : forall Rg St P Sh A C (step : Rg -> St -> res St) (as_vector : St -> P)
    (target : St -> Sh) st0 (app : option (list A)) (i : Sh) gt (costs : option (list C)),
  sdm_parametric_run step as_vector target [] st0 = Ok ([as_vector st0], []) /\
  sdm_non_parametric_run step target [] st0 = Ok [] /\
  parametric_result [] [as_vector st0] app (Some i) gt costs = Err IndexError /\
  nonparametric_result (P := P) (A := A) [] (Some i) gt costs = Err IndexError.
Proof. intros. repeat split. Qed.
Print Assumptions c09_empty_cascade_refuted.

Definition add_step (r s : Z) : res Z := Ok (r + s)%Z.
Example c09_example :
  aam_sd_run add_step (fun s => s) (Z.mul 10) [1; 2; 3]%Z 0%Z = Ok ([0; 1; 3; 6], [0; 10; 30; 60])%Z /\
  sdm_non_parametric_run add_step (Z.mul 10) [1; 2; 3]%Z 0%Z = Ok [10; 30; 60]%Z /\
  sdm_parametric_run add_step (fun s => s) (Z.mul 10) [1; 2; 3]%Z 0%Z = Ok ([0; 1; 3; 6], [10; 30; 60])%Z.
Proof. repeat split. Qed.

(** ** C37 *)

(** Non-parametric results: "Initial", then "iteration 1", ... , the last one "Final"; no name is used
    twice, and under every name the shape it was given for is what is shown. *)
Theorem c37_non_parametric : forall Sh P A C shapes initial gt costs (r : iresult Sh P A C),
  nonparametric_result shapes initial gt costs = Ok r ->
  (forall j, j < length (r_shapes r) ->
    exists lab s, label_nonparametric r j = Ok (lab, s) /\ nth_error (r_shapes r) j = Some s /\
      nth_error (match initial with Some _ => [Initial] | None => [] end
                 ++ name_final (numbered 0 (length shapes))) j = Some lab) /\
  (exists assigned, mapM (label_nonparametric r) (parse_iters None (length (r_shapes r))) = Ok assigned /\
      map snd assigned = r_shapes r /\ NoDup (map fst assigned) /\
      forall l s, In (l, s) assigned -> shown assigned l = Some s).
Proof.
  intros Sh P A C shapes initial gt costs r H. split.
  - exact (Proofs.Result.label_nonparametric_spec _ _ _ _ _ H).
  - exact (Proofs.Result.nonparametric_all_shown _ _ _ _ _ H).
Qed.
Print Assumptions c37_non_parametric.

(** Single-scale parametric results without an initial shape: the reconstruction, then iterations
    numbered from 1, the last one "Final". *)
Theorem c37_parametric_partial : forall Sh P A C shapes params app gt costs (r : iresult Sh P A C),
  parametric_result shapes params app None gt costs = Ok r ->
  forall j, j < length (r_shapes r) ->
    exists lab s, label_parametric r j = Ok (lab, s) /\ nth_error (r_shapes r) j = Some s /\
      nth_error (name_final (Reconstruction :: numbered 0 (length shapes - 1))) j = Some lab.
Proof.
  intros Sh P A C shapes params ap gt costs r H j Hj.
  destruct (Proofs.Result.label_parametric_spec _ _ _ _ _ _ _ H j Hj) as (lab & s & E1 & E2 & E3).
  exists lab, s. split; [exact E1|]. split; [exact E2|].
  rewrite Proofs.Result.map_shift_0 in E3. cbn [scale_labels app] in E3. rewrite app_nil_r in E3. exact E3.
Qed.
Print Assumptions c37_parametric_partial.

(** With an initial shape the numbers are two too large: the first iteration is called "iteration 3". *)
Theorem c37_parametric_initial_refuted : forall Sh P A C shapes params app i gt costs (r : iresult Sh P A C),
  parametric_result shapes params app (Some i) gt costs = Ok r ->
  forall k, 1 <= k -> S k < length shapes ->
  exists s, nth_error shapes k = Some s /\
    label_parametric r (S k) = Ok (Iteration (Z.of_nat k + 2), s).
Proof.
  intros Sh P A C shapes params ap i gt costs r H k Hk Hlt.
  assert (Hj : S k < length (r_shapes r)).
  { destruct (Proofs.Result.parametric_inv _ _ _ _ _ _ _ H) as (f & _ & ->). cbn. lia. }
  destruct (Proofs.Result.label_parametric_spec _ _ _ _ _ _ _ H (S k) Hj) as (lab & s & E1 & E2 & E3).
  exists s. split.
  - destruct (Proofs.Result.parametric_inv _ _ _ _ _ _ _ H) as (f & _ & Er). rewrite Er in E2. exact E2.
  - rewrite E1. do 2 f_equal. cbn [app nth_error] in E3.
    assert (En : nth_error (map (Proofs.Result.shift 2) (scale_labels 0 [length shapes - 1])) k
                 = Some (Iteration (Z.of_nat k + 2))).
    { rewrite nth_error_map. cbn [scale_labels app]. rewrite app_nil_r. destruct k as [|k]; [lia|].
      cbn [nth_error]. unfold numbered. rewrite nth_error_map, (nth_error_nth' _ 0) by (rewrite seq_length; lia).
      rewrite seq_nth by lia. reflexivity. }
    apply Proofs.Result.name_final_nth in En. rewrite En in E3.
    rewrite map_length, Proofs.Result.scale_labels_length in E3. unfold total in E3. cbn [fold_right length] in E3.
    replace (k =? length shapes - 1 + 0 + 1 - 1) with false in E3 by (symmetry; apply Nat.eqb_neq; lia).
    cbn [andb] in E3. congruence.
Qed.
Print Assumptions c37_parametric_initial_refuted.

(** Multi-scale results with an initial shape are labelled as documented. *)
Theorem c37_multi_scale_partial : forall Sh P A C (gts : scale_run Sh P A C -> option Sh) affine scale gt
    (runs : list (scale_run Sh P A C)) costs m i,
  runs <> [] -> length runs <= length affine -> length runs <= length scale ->
  concat_attr (map s_costs runs) = Ok costs ->
  multi_parametric (map (fun r => of_run (gts r) r) runs) (length runs) affine scale gt = Ok m ->
  mapped_initial affine scale runs = Some i ->
  forall j, j < length (r_shapes (m_res m)) ->
    exists lab s, label_multi m j = Ok (lab, s) /\ nth_error (r_shapes (m_res m)) j = Some s /\
      nth_error (Initial :: name_final (scale_labels 0 (map s_iters runs))) j = Some lab.
Proof.
  intros Sh P A C gts affine scale gt runs costs m i Hne Ha Hs Hc Hm Hi j Hj.
  destruct (Proofs.Result.label_multi_spec gts affine scale gt runs costs m Hne Ha Hs Hc Hm j Hj)
    as (lab & s & E1 & E2 & E3).
  rewrite Hi, Proofs.Result.map_shift_0 in E3. eauto.
Qed.
Print Assumptions c37_multi_scale_partial.

(** Without an initial shape every iteration number is two too small: the first is "iteration -1". *)
Theorem c37_multi_scale_no_initial_refuted : forall Sh P A C (gts : scale_run Sh P A C -> option Sh) affine scale gt
    (runs : list (scale_run Sh P A C)) costs m,
  runs <> [] -> length runs <= length affine -> length runs <= length scale ->
  concat_attr (map s_costs runs) = Ok costs ->
  multi_parametric (map (fun r => of_run (gts r) r) runs) (length runs) affine scale gt = Ok m ->
  mapped_initial affine scale runs = None ->
  forall j, j < length (r_shapes (m_res m)) ->
    exists lab s, label_multi m j = Ok (lab, s) /\ nth_error (r_shapes (m_res m)) j = Some s /\
      nth_error (name_final (map (fun l => match l with Iteration z => Iteration (z - 2) | l => l end)
                                 (scale_labels 0 (map s_iters runs)))) j = Some lab.
Proof.
  intros Sh P A C gts affine scale gt runs costs m Hne Ha Hs Hc Hm Hi j Hj.
  destruct (Proofs.Result.label_multi_spec gts affine scale gt runs costs m Hne Ha Hs Hc Hm j Hj)
    as (lab & s & E1 & E2 & E3).
  rewrite Hi in E3. exists lab, s. split; [exact E1|]. split; [exact E2|]. exact E3.
Qed.
Print Assumptions c37_multi_scale_no_initial_refuted.

(** With two or more scales all reconstructions get the same name, so only the last one is shown. *)
Theorem c37_reconstruction_hidden_refuted : exists (m : mresult Z Z Z Z) assigned,
  multi_parametric (map (of_run None) [run_a; run_b]) 2 [fun x => x; fun x => x] [Z.mul 2; fun x => x] None = Ok m /\
  mapM (label_multi m) (parse_iters None (length (r_shapes (m_res m)))) = Ok assigned /\
  In (Reconstruction, 22%Z) assigned /\ shown assigned Reconstruction = Some 27%Z.
Proof.
  eexists _, _. split; [reflexivity|]. split; [reflexivity|]. split; [right; left; reflexivity|reflexivity].
Qed.
Print Assumptions c37_reconstruction_hidden_refuted.

(** This is so for every result: of the shapes named "Reconstruction", the last is the one shown. *)
Theorem c37_same_name_last_wins : forall Sh (before after : list (label * Sh)) l s,
  (forall s', ~ In (l, s') after) -> shown (before ++ (l, s) :: after) l = Some s.
Proof.
  intros Sh before after l s Hn.
  assert (E : shown after l = None).
  { apply Proofs.Result.shown_none. rewrite in_map_iff. intros ([l' s'] & E & Hin). cbn in E. subst. exact (Hn _ Hin). }
  induction before as [|[l' s'] b IH]; cbn.
  - rewrite E. replace (label_eqb l l) with true; [reflexivity|]. symmetry. apply Proofs.Result.label_eqb_eq. reflexivity.
  - rewrite IH. reflexivity.
Qed.
Print Assumptions c37_same_name_last_wins.

Example c37_example :
  (exists r : iresult Z Z Z Z, nonparametric_result [1; 2; 3]%Z (Some 0%Z) None None = Ok r /\
     mapM (label_nonparametric r) [0; 1; 2; 3] = Ok [(Initial, 0); (Iteration 1, 1); (Iteration 2, 2); (Final, 3)]%Z) /\
  (exists r : iresult Z Z Z Z, parametric_result [1; 2; 3]%Z [] None (Some 0%Z) None None = Ok r /\
     mapM (label_parametric r) [0; 1; 2; 3] = Ok [(Initial, 0); (Reconstruction, 1); (Iteration 3, 2); (Final, 3)]%Z) /\
  (exists r : iresult Z Z Z Z, parametric_result [1; 2; 3]%Z [] None None None None = Ok r /\
     mapM (label_parametric r) [0; 1; 2] = Ok [(Reconstruction, 1); (Iteration 1, 2); (Final, 3)]%Z).
Proof. repeat split; eexists; split; reflexivity. Qed.

(** ** C38 *)

(** Every result object is consistent: the last shape is the final one, the first the initial one. *)
Theorem c38_all_results_consistent : forall Sh P A C,
  (forall shapes initial gt costs (r : iresult Sh P A C),
     nonparametric_result shapes initial gt costs = Ok r -> consistent r) /\
  (forall shapes params app initial gt costs (r : iresult Sh P A C),
     parametric_result shapes params app initial gt costs = Ok r -> consistent r) /\
  (forall results n affine scale gt (m : mresult Sh P A C),
     multi_nonparametric results n affine scale gt = Ok m \/ multi_parametric results n affine scale gt = Ok m \/
     aam_result results n affine scale gt = Ok m \/ lucas_kanade_result results n affine scale gt = Ok m ->
     consistent (m_res m)).
Proof.
  intros Sh P A C. split; [exact Proofs.Result.nonparametric_consistent|].
  split; [exact Proofs.Result.parametric_consistent|].
  intros results n affine scale gt m [H|[H|[H|H]]].
  - exact (Proofs.Result.multi_nonparametric_consistent _ _ _ _ _ _ H).
  - exact (Proofs.Result.multi_parametric_consistent _ _ _ _ _ _ H).
  - exact (Proofs.Result.aam_consistent _ _ _ _ _ _ H).
  - exact (Proofs.Result.lucas_kanade_consistent _ _ _ _ _ _ H).
Qed.
Print Assumptions c38_all_results_consistent.

Theorem c38_errors : forall Sh P A C Er (compute_error : Sh -> Sh -> res Er) (r : iresult Sh P A C) es,
  consistent r -> errors compute_error r = Ok es ->
  length es = length (r_shapes r) /\
  (exists e, final_error compute_error r = Ok e /\ last_res es = Ok e) /\
  (r_initial r <> None -> exists e, initial_error compute_error r = Ok e /\ nth_error es 0 = Some e).
Proof. exact (fun Sh P A C Er => Proofs.Result.errors_spec). Qed.
Print Assumptions c38_errors.

(** With a ground truth, errors are computed whenever the error function is defined. *)
Theorem c38_errors_defined : forall Sh P A C Er (compute_error : Sh -> Sh -> res Er) (r : iresult Sh P A C) gt,
  r_gt r = Some gt -> (forall s, exists e, compute_error s gt = Ok e) ->
  exists es, errors compute_error r = Ok es.
Proof. exact (fun Sh P A C Er => Proofs.Result.errors_raise_iff). Qed.
Print Assumptions c38_errors_defined.

Theorem c38_no_ground_truth : forall Sh P A C Er (compute_error : Sh -> Sh -> res Er) (r : iresult Sh P A C),
  r_gt r = None -> errors compute_error r = Err ValueError /\ final_error compute_error r = Err ValueError /\
    initial_error compute_error r = Err ValueError /\ reconstructed_initial_error compute_error r = Err ValueError.
Proof. exact (fun Sh P A C Er => Proofs.Result.errors_no_gt). Qed.
Print Assumptions c38_no_ground_truth.

(** The reconstructed initial error is that of the shape the run starts from, the first after the initial shape: at the first
    scale of a multi-scale fit. *)
Theorem c38_reconstructed_error : forall Sh P A C Er (compute_error : Sh -> Sh -> res Er) gt,
  (forall (r : scale_run Sh P A C) res,
     parametric_result (s_shapes r) (s_params r) (s_app r) (s_initial r) (Some gt) (s_costs r) = Ok res ->
     reconstructed_initial_error compute_error res = compute_error (s_first r) gt /\
     forall es, errors compute_error res = Ok es ->
       exists e, reconstructed_initial_error compute_error res = Ok e /\ nth_error es (length (opt_list (s_initial r))) = Some e) /\
  (forall (gts : scale_run Sh P A C -> option Sh) affine scale r runs costs m,
     S (length runs) <= length affine -> S (length runs) <= length scale -> concat_attr (map s_costs (r :: runs)) = Ok costs ->
     multi_parametric (map (fun r => of_run (gts r) r) (r :: runs)) (S (length runs)) affine scale (Some gt) = Ok m ->
     multi_reconstructed_initial_error compute_error m = compute_error (T affine scale 0 (s_first r)) gt) /\
  (forall m : mresult Sh P A C, r_gt (m_res m) = None -> multi_reconstructed_initial_error compute_error m = Err ValueError).
Proof.
  intros Sh P A C Er ce gt. split; [|split].
  - intros r res H. rewrite Proofs.Result.parametric_of_run in H. injection H as <-.
    assert (E : reconstructed_initial_error ce (of_run (Some gt) r) = ce (s_first r) gt).
    { unfold reconstructed_initial_error. rewrite Proofs.Result.reconstructed_of_run. reflexivity. }
    split; [exact E|]. rewrite E. intros es Hes. unfold errors in Hes. cbn [of_run r_gt] in Hes.
    assert (K : nth_error (r_shapes (of_run (Some gt) r)) (length (opt_list (s_initial r))) = Some (s_first r))
      by (unfold of_run, s_shapes; cbn; destruct (s_initial r); reflexivity).
    revert Hes K. generalize (length (opt_list (s_initial r))). change (r_gt (of_run (Some gt) r)) with (Some gt). cbv iota.
    generalize (r_shapes (of_run (Some gt) r)). clear E. intros l. revert es. induction l as [|x l IH]; intros es n Hes K.
    + destruct n; discriminate.
    + cbn [mapM] in Hes. destruct (ce x gt) as [y|] eqn:Y; [|discriminate]. cbn [bind] in Hes.
      destruct (mapM (fun t => ce t gt) l) as [ys|]; [|discriminate]. injection Hes as <-.
      destruct n; [injection K as <-; now exists y|]. apply (IH ys n); auto.
  - intros gts affine scale r runs costs m Ha Hs Hc Hm.
    destruct (c07_multi_scale _ _ _ _ gts affine scale (Some gt) (r :: runs) costs ltac:(discriminate) Ha Hs Hc)
      as (m' & Em & _ & _ & _ & _ & _ & _ & Eg & _ & Ers).
    change (length (r :: runs)) with (S (length runs)) in Em. rewrite Hm in Em. injection Em as <-.
    unfold multi_reconstructed_initial_error. rewrite Eg, Ers. reflexivity.
  - intros m H. unfold multi_reconstructed_initial_error. now rewrite H.
Qed.
Print Assumptions c38_reconstructed_error.
Example c38_reconstructed_example : exists m,
  multi_parametric (map (of_run None) [run_a; run_b]) 2 [fun x => x; fun x => x] [Z.mul 2; fun x => x] (Some 20%Z) = Ok m /\
  multi_reconstructed_initial_error (fun a b => Ok (Z.abs (a - b))) m = Ok 2%Z.
Proof. eexists. split; reflexivity. Qed.

Theorem c38_displacements : forall Sh P A C D (dist : Sh -> Sh -> D) (r : iresult Sh P A C),
  consistent r ->
  S (length (displacements dist r)) = length (r_shapes r) /\
  forall i a b, nth_error (r_shapes r) i = Some a -> nth_error (r_shapes r) (S i) = Some b ->
    nth_error (displacements dist r) i = Some (dist a b).
Proof. exact (fun Sh P A C D => Proofs.Result.displacements_spec). Qed.
Print Assumptions c38_displacements.

(** to_result keeps the final shape and, unless told otherwise, the initial shape and the ground truth. *)
Theorem c38_to_result : forall Sh P A C (r : iresult Sh P A C) pass_initial pass_gt,
  let '(final, initial, gt) := to_result pass_initial pass_gt r in
  final = r_final r /\ (pass_initial = true -> initial = r_initial r) /\ (pass_gt = true -> gt = r_gt r) /\
  (pass_initial = false -> initial = None) /\ (pass_gt = false -> gt = None).
Proof. intros Sh P A C r [] []; cbn; repeat split; discriminate || reflexivity. Qed.
Print Assumptions c38_to_result.

Example c38_example : exists r : iresult Z Z Z Z,
  nonparametric_result [3; 1; 2]%Z (Some 5%Z) (Some 2%Z) None = Ok r /\ consistent r /\
  errors (fun a b => Ok (Z.abs (a - b))) r = Ok [3; 1; 1; 0]%Z /\
  displacements (fun a b => Z.abs (a - b)) r = [2; 2; 1]%Z.
Proof.
  eexists. split; [reflexivity|]. split; [|split; reflexivity].
  split; [reflexivity|]. intros i [= <-]. reflexivity.
Qed.
