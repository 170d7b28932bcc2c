(** C72: fitters that share one trained constrained local model. *)
From Verif.Model Require Import Py Einsum LinAlg ModelInstance Jacobian Updates.
From Verif.Spec Require Import ModelInstance.
From Verif.Model Require Import ClmFitter.
From Verif.Spec Require Import ClmFitter.
From Verif.Proofs Require Import MRing ModelInstance ModelExample ClmFitter ClmFitterExample.
From Coq Require List.
From mathcomp Require Import all_ssreflect all_algebra.
Set Implicit Arguments.
Unset Strict Implicit.
Unset Printing Implicit Defensive.
Import GRing.Theory Num.Theory.
Local Open Scope ring_scope.

(** Fitting with any of the fitters, any number of times and whether or not the fits raise, changes no later fit. *)
Theorem c72_fits : forall (F : realFieldType) N (Image : Type) align noise_variance eigenvalues displacement next exceeds
    (os : seq (op F N Image)) w i f c,
  only_fits os -> List.nth_error (w_fitters w) i = Some f ->
  outcome align displacement next exceeds i c (session align noise_variance eigenvalues displacement next exceeds os w) =
  outcome align displacement next exceeds i c w.
Proof. move=> F N Image al nv ev di ne ex os w i f c O E. apply: session_keeps; first exact: only_fits_along. exact: E. Qed.
Print Assumptions c72_fits.
(** Nor does constructing further fitters, as long as they ask for the components that are active already or for none in
    particular. *)
Theorem c72_independent_partial : forall (F : realFieldType) N (Image : Type) align noise_variance eigenvalues displacement next exceeds
    (os : seq (op F N Image)) w i f c,
  all_along (step align noise_variance eigenvalues displacement next exceeds) os w -> List.nth_error (w_fitters w) i = Some f ->
  outcome align displacement next exceeds i c (session align noise_variance eigenvalues displacement next exceeds os w) =
  outcome align displacement next exceeds i c w.
Proof. move=> F N Image al nv ev di ne ex os w i f c A E. apply: session_keeps; [exact: A|exact: E]. Qed.
Print Assumptions c72_independent_partial.
(** Constructing a fitter with another number of components breaks every fit of the first one that gets to an iteration, even
    if that construction raises. *)
Theorem c72_other_count_refuted : forall (F : realFieldType) N (Image : Type) align noise_variance eigenvalues displacement next exceeds
    (w : world F N) d ds n ns m ms f (c : call F N Image),
  w_models w = d :: ds -> (0 < n)%N -> (0 < m)%N ->
  (build align noise_variance eigenvalues (Some (n :: ns)) (w_models w)).2 = Ok f -> size ms = size ds ->
  effective d n <> effective d m ->
  let w' := session align noise_variance eigenvalues displacement next exceeds
              [:: Build _ _ _ (Some (n :: ns)); Build _ _ _ (Some (m :: ms))] w in
  (forall x, List.nth_error (w_models w') 0 = Some x -> exists d' e,
     opdm_set_target align (m_mean (o_model x)) (c_shape c) x = (d', Ok tt) /\ displacement 0%N (c_image c) (o_target d') = Ok e) ->
  (0 < nth 0%N (c_max_iters c) 0)%N ->
  outcome align displacement next exceeds (size (w_fitters w)) c w' = Err ValueError.
Proof. move=> F N Image al nv ev di ne ex w d ds n ns m ms f c W Pn Pm B S NE. exact: (other_count W Pn Pm B S NE). Qed.
Print Assumptions c72_other_count_refuted.
(** Two constructions with the same options give the same fitter when the shape models have the same components and the same
    rotation and scale. *)
Theorem c72_same_pose_partial : forall (F : realFieldType) N noise_variance eigenvalues (d d' : opdm F N),
  o_model d = o_model d' -> o_simcomps d = o_simcomps d' -> s_a (o_sim d) = s_a (o_sim d') -> s_b (o_sim d) = s_b (o_sim d') ->
  alg_new noise_variance eigenvalues d = alg_new noise_variance eigenvalues d'.
Proof. move=> F N nv ev d d' M C. apply: alg_pose. by rewrite /static M C. Qed.
Print Assumptions c72_same_pose_partial.

Section Witness.
Variable F : realFieldType.
Add Ring Fr : (@r_ring F).
(** The world just after training. *)
Let trained_world : world F 4 := World [:: (opdm_new (@lsq F 4) (@ortho F) (trained F 2)).1] [::].
Let w0 : world F 4 := World [:: at_mean 2 1] [::].
Let w0E : trained_world = w0. Proof. by rewrite /trained_world fresh. Qed.
Let one : 1 * 1 = 1 :> F. Proof. by rewrite mulr1. Qed.
Let minus : - 1 * - 1 = 1 :> F. Proof. by rewrite mulrNN mulr1. Qed.
Notation session := (session (@lsq F 4) (@nv F) (@evs F) (@towards F) (@unchanged F) (@always F)).
Notation outcome := (outcome (@lsq F 4) (@towards F) (@unchanged F) (@always F)).
Notation Build := (Build F 4 unit).
Let c1 := Call tt (mean4 F) [:: 1%N] false.
Let built1 : exists2 f, session [:: Build (Some [:: 1%N])] w0 = World [:: at_mean 1 1] [:: f] & signed 1 1 f.
Proof. have [f E S] := build_at 2 one (isT : 0 < 1 <= 2)%N. exists f => //. by rewrite /= E. Qed.
Let comp4_neq0 : comp4 F <> 0.
Proof.
  move=> H. have := @ortho1 F 0%N 0%N isT isT. rewrite /= H Projection.dotE big1; first by move/eqP; rewrite eq_sym oner_eq0.
  by move=> i _; rewrite !mxE !mulr0 addr0.
Qed.
(** Finding: a fitter that works stops working once another one is constructed with a different number of components. *)
Theorem c72_count_refuted : exists (w : world F 4) c r,
  w_models w = [:: (opdm_new (@lsq F 4) (@ortho F) (trained F 2)).1] /\
  outcome 0%N c (session [:: Build (Some [:: 1%N])] w) = Ok r /\
  outcome 0%N c (session [:: Build (Some [:: 1%N]); Build (Some [:: 2%N])] w) = Err ValueError.
Proof.
  have [f E S] := built1. have [r R _] := @fit_one F f 1 (at_mean 1 1) S erefl.
  exists trained_world, c1, [:: r]. split=> //. rewrite w0E. split; first by rewrite E.
  have [f' E' _] := build_at 2 one (isT : 0 < 1 <= 2)%N.
  apply: (@c72_other_count_refuted F 4 unit (@lsq F 4) (@nv F) (@evs F) (@towards F) (@unchanged F) (@always F) w0 (at_mean 2 1) [::] 1 [::] 2 [::] f' c1) => //.
    by rewrite [w_models _]/= E'.
  move=> x /=. rewrite E' /=. have [g G _] := build_at 1 one (isT : 0 < 2 <= 2)%N. rewrite G /= => -[<-].
  exists (at_mean 2 1), (as_vector (comp4 F)). split=> //. have := @at_mean_target F 2 1 (at_mean 2 1) one erefl. by rewrite scale1r.
Qed.
(** Finding: without a number of components a fitter gets all of them from a fresh model, but only one after a fitter with one
    has been constructed. *)
Theorem c72_none_refuted : exists (w : world F 4) c r r',
  w_models w = [:: (opdm_new (@lsq F 4) (@ortho F) (trained F 2)).1] /\
  outcome 0%N c (session [:: Build None] w) = Ok [:: r] /\ map size (r_params r) = [:: 6%N] /\
  outcome 1%N c (session [:: Build (Some [:: 1%N]); Build None] w) = Ok [:: r'] /\ map size (r_params r') = [:: 5%N].
Proof.
  have [f E [J [v [Ef _]]]] := @build_none F 2 1 one isT. have [g G [J' [v' [Eg _]]]] := build_at 2 one (isT : 0 < 1 <= 2)%N.
  have [h H [J2 [v2 [Eh _]]]] := @build_none F 1 1 one isT.
  have [r R P] := @fit_zero F f 2 1 (at_mean 2 1) false one ltac:(by rewrite Ef) erefl.
  have [r' R' P'] := @fit_zero F h 1 1 (at_mean 1 1) false one ltac:(by rewrite Eh) erefl.
  exists trained_world, (Call tt (1 *: mean4 F) [:: 0%N] false), r, r'. split=> //. rewrite w0E.
  split; first by rewrite /w0; cbn [ClmFitter.session ClmFitter.step w_models]; rewrite E /ClmFitter.outcome /= R. split; first by rewrite P.
  split; first by rewrite /w0; cbn [ClmFitter.session ClmFitter.step w_models]; rewrite G; cbn [w_models]; rewrite H /ClmFitter.outcome /= R'. by rewrite P'.
Qed.
(** Finding: two fitters constructed with the same options move the landmarks in opposite directions on the same image when a
    fit between the two constructions left the model turned by half a turn. *)
Theorem c72_pose_refuted : exists (w : world F 4) c0 c r r' x,
  w_models w = [:: (opdm_new (@lsq F 4) (@ortho F) (trained F 2)).1] /\
  let w' := session [:: Build (Some [:: 1%N]); Fit 0 c0; Build (Some [:: 1%N])] w in
  outcome 0%N c w' = Ok [:: r] /\ outcome 1%N c w' = Ok [:: r'] /\ x <> 0 /\
  last 0 (r_shapes r) = c_shape c + x /\ last 0 (r_shapes r') = c_shape c - x.
Proof.
  have [f E S] := build_at 2 one (isT : 0 < 1 <= 2)%N. have [g G Sg] := build_at 1 minus (isT : 0 < 1 <= 2)%N.
  have [r0 R0 _] := @fit_zero F f 1 (- 1) (at_mean 1 1) false minus ltac:(by have [J [v [-> _]]] := S) erefl.
  have [r R L] := @fit_one F f 1 (at_mean 1 (- 1)) S erefl. have [r' R' L'] := @fit_one F g (- 1) (at_mean 1 (- 1)) Sg erefl.
  exists trained_world, (Call tt (- 1 *: mean4 F) [:: 0%N] false), c1, r, r', (comp4 F). split=> //.
  rewrite w0E /= E /= R0 /= G /ClmFitter.outcome /=. split=> //. split=> //. split=> //.
  rewrite L L' scale1r scaleN1r. by [].
Qed.
(** The hypotheses of the independence theorems are met: a history of fits and of constructions that keep one component. *)
Example c72_independent_example : exists f, let w := session [:: Build (Some [:: 1%N])] trained_world in
  List.nth_error (w_fitters w) 0 = Some f /\
  all_along (ClmFitter.step (@lsq F 4) (@nv F) (@evs F) (@towards F) (@unchanged F) (@always F))
    [:: Fit 0 c1; Build None; Build (Some [:: 1%N])] w /\
  List.nth_error (w_fitters (session [:: Fit 0 c1; Build None; Build (Some [:: 1%N])] w)) 0 = Some f.
Proof.
  have [f E S] := built1. exists f. rewrite w0E E. split=> //.
  have A : all_along (ClmFitter.step (@lsq F 4) (@nv F) (@evs F) (@towards F) (@unchanged F) (@always F))
    [:: Fit 0 c1; Build None; Build (Some [:: 1%N])] (World [:: at_mean 1 1] [:: f]).
    set st := ClmFitter.step _ _ _ _ _ _. set w := World _ _.
    have S1 : statics (st (Fit 0 c1) w) = statics w by apply: step_statics.
    have S2 : statics (st (Build None) (st (Fit 0 c1) w)) = statics w by rewrite -S1; apply: step_statics.
    split=> //. split=> //. split=> //. move=> j d n D M P.
    have {D} D : List.nth_error (statics (st (Build None) (st (Fit 0 c1) w))) j = Some (static d).
      rewrite /statics. elim: (w_models _) j D {M} => [|y l IH] [|j] //=; [by move=> [->]|exact: IH].
    rewrite S2 in D. case: j D M => [|[|j]] //=. move=> D' Hn. case: D' => Em _. case: Hn => <-. by rewrite /effective -Em.
  split=> //. cbn [ClmFitter.session]. by do 3!apply: step_fitters.
Qed.
End Witness.
Print Assumptions c72_count_refuted.
Print Assumptions c72_none_refuted.
Print Assumptions c72_pose_refuted.
