(** Supervised descent fits follow the image; the Procrustes alignment follows shifts. *)
From Verif.Model Require Import Py ModelInstance Updates SimilarityModel SdmOrtho SdmVectors.
From Verif.Model Require SdmAlgorithm.
From Verif.Spec Require Import ModelInstance Pose Moves.
From Verif.Proofs Require Import MRing ModelInstance Projection Jacobian SimilarityModel ClmPose Moves.
From Coq Require List.
From mathcomp Require Import all_ssreflect all_algebra.
Set Implicit Arguments.
Unset Strict Implicit.
Unset Printing Implicit Defensive.
Import Order.TTheory GRing.Theory Num.Theory.
Local Open Scope ring_scope.

Section Generic.
Variables (Sh V I X R M A : Type).
Variable vadd : V -> V -> V.
Variable set_target : M -> Sh -> res M.
Variable from_vector : M -> V -> res M.
Variable vec : M -> V.
Variable tgt : M -> Sh.
Variable patches : I -> Sh -> res X.
Variable appearance_feature : A -> X -> res X.
Variable reg_predict1 : R -> X -> res V.
Variable sh : Sh -> Sh.
(** Two runs whose models were left in corresponding states. *)
Variable Rel : M -> M -> Prop.
Hypothesis rel_tgt : forall m m', Rel m m' -> tgt m' = sh (tgt m).
Hypothesis rel_step : forall m m' dx, Rel m m' -> both Rel (from_vector m (vadd (vec m) dx)) (from_vector m' (vadd (vec m') dx)).
Variables im im' : I.
Hypothesis PA : forall s, patches im' (sh s) = patches im s.
Definition moved_fit (r r' : list Sh * M) : Prop := r'.1 = [seq sh s | s <- r.1].
Lemma loop_follows kd app regs : forall m m', Rel m m' ->
  both moved_fit (SdmAlgorithm.fit_loop vadd from_vector vec tgt patches appearance_feature reg_predict1 kd app regs im m)
                 (SdmAlgorithm.fit_loop vadd from_vector vec tgt patches appearance_feature reg_predict1 kd app regs im' m').
Proof.
  elim: regs => [|r regs IH] m m' H //=. rewrite /SdmAlgorithm.test_features (rel_tgt H) PA.
  case: patches => [x|e] //=. case: (if _ then _ else _) => [f|e] //=. case: reg_predict1 => [dx|e] //=.
  have := rel_step dx H. case: from_vector => [m1|e]; case: from_vector => [m2|e'] //= H1.
  have := IH _ _ H1. case: SdmAlgorithm.fit_loop => [[ss u]|e]; case: SdmAlgorithm.fit_loop => [[ss' u']|e'] //=.
  rewrite /moved_fit /= => ->. by rewrite (rel_tgt H1).
Qed.
Lemma fit_follows kd a m0 m0' s : both Rel (set_target m0 s) (set_target m0' (sh s)) ->
  both moved_fit (SdmAlgorithm.fit vadd set_target from_vector vec tgt patches appearance_feature reg_predict1 kd a m0 im s)
                 (SdmAlgorithm.fit vadd set_target from_vector vec tgt patches appearance_feature reg_predict1 kd a m0' im' (sh s)).
Proof.
  rewrite /SdmAlgorithm.fit. case: set_target => [m|e]; case: set_target => [m'|e'] //= H. exact: loop_follows.
Qed.
End Generic.

Section Free.
Variable F : realFieldType.
Variable N : nat.
Notation shape := 'M[F]_(N, 2).
Lemma reshape_flat (s t : shape) : reshape_points s (as_vector t) = t.
Proof.
  apply/matrixP => i j. rewrite mxE. have L : (i * 2 + j < N * 2)%N.
    case: i j => i Hi [j Hj] /=. by rewrite -ltn_divLR // divnMDl // (divn_small Hj) addn0.
  rewrite (insubT (fun k => k < N * 2)%N L) mxE /=. have -> : ((i * 2 + j) %/ 2 = i)%N.
    by case: j {L} => j Hj /=; rewrite divnMDl // (divn_small Hj) addn0.
  have -> : ((i * 2 + j) %% 2 = j)%N by case: j {L} => j Hj /=; rewrite modnMDl (modn_small Hj).
  exact: at_E.
Qed.
Lemma reshapeD (s : shape) u v : reshape_points s (u + v) = reshape_points s u + reshape_points s v.
Proof. apply/matrixP => i j. rewrite !mxE. case: insub => [r|]; last by rewrite addr0. by rewrite mxE. Qed.
Lemma free_follows (o : F * F) (s : shape) dx :
  reshape_points (shifted o s) (as_vector (shifted o s) + dx) = shifted o (reshape_points s (as_vector s + dx)).
Proof.
  rewrite !shiftedE as_vectorD addrAC !reshapeD. congr (_ + _). exact: reshape_flat.
Qed.
End Free.

Section Params.
Variable F : realFieldType.
Variable N : nat.
Notation shape := 'M[F]_(N, 2).
Variable align : shape -> shape -> sim F.
Hypothesis FS : follows_shifts align.
Variable o : F * F.
Variable src : shape.
Definition follows_state (m : lmodel F N) (cs : seq shape) (d d' : opdm F N) : Prop :=
  trained_pdm d /\ o_model d = m /\ o_simcomps d = cs /\ shifted_state o d d'.
Lemma set_target_rel (d d' : opdm F N) s : trained_pdm d -> o_model d' = o_model d -> o_simcomps d' = o_simcomps d ->
  both (follows_state (o_model d) (o_simcomps d)) (ortho_set_target align src d s) (ortho_set_target align src d' (shifted o s)).
Proof.
  move=> T E1 E2. have E : Verif.Proofs.ClmFitter.static d' = Verif.Proofs.ClmFitter.static d by rewrite /Verif.Proofs.ClmFitter.static E1 E2.
  rewrite /ortho_set_target. have := set_target_shifts FS o src s T E. have := Verif.Proofs.ClmFitter.target_static align src s d.
  case: opdm_set_target => [d1 r1] /=. case: opdm_set_target => [d2 r2]. rewrite /shifted_outcome /=.
  case: r1 => [[]|e]; case: r2 => [[]|e'] //= TS H. split; first exact: trained_static TS T. by case: TS => -> ->.
Qed.
Lemma from_vector_rel m cs (d d' : opdm F N) dx : follows_state m cs d d' ->
  both (follows_state m cs) (ortho_from_vector align src d (add_params (opdm_vector d) dx))
                            (ortho_from_vector align src d' (add_params (opdm_vector d') dx)).
Proof.
  move=> [T [Em [Ec R]]]. have [[E1 E2] [S [W [_ [_ Q]]]]] := R.
  have V : add_params (opdm_vector d') dx = shift_vec o d (add_params (opdm_vector d) dx).
    rewrite (shifted_vector R) /add_params shift_size. case: ifP => // _. pose f (p : seq F) (i : nat) := nth 0 p i + nth 0 dx i. rewrite -!/(f _ _).
    rewrite -/(f (opdm_vector d)) -/(f (shift_vec o d (opdm_vector d))).
    apply: (@eq_from_nth _ 0); first by rewrite shift_size !size_map.
    move=> i. rewrite size_map size_iota => I. rewrite shift_nth ?size_map ?size_iota // !(nth_map 0%N) ?size_iota // !nth_iota // add0n.
    by rewrite /f shift_nth // addrAC.
  rewrite V. move: (add_params _ dx) => v. rewrite /ortho_from_vector Q !shift_size S E1 E2. case: ifP => // /andP [_ /eqP Sv].
  have L : (size (o_simcomps d) <= size v)%N by rewrite Sv leq_addr.
  have := from_vector_shifts FS src T R L. have := Verif.Proofs.ClmFitter.vector_static align src v d.
  case: opdm_from_vector => [d1 r1] /=. case: opdm_from_vector => [d2 r2]. rewrite /shifted_outcome /=.
  case: r1 => [[]|e]; case: r2 => [[]|e'] //= TS H. split; first exact: trained_static TS T. by case: TS => -> ->.
Qed.
End Params.

Section Procrustes.
Variable F : rcfType.
Variable N : nat.
Notation shape := 'M[F]_(N, 2).
Add Ring Fr : (@r_ring F).
Lemma shifted_moved o (s : shape) : shifted o s = moved 1 0 o.1 o.2 s.
Proof. apply/matrixP => i j. rewrite !mxE. case: (ord2 j) => -> /=; by rewrite !mul1r !mul0r ?subr0 ?add0r. Qed.
Lemma shifted_centre o (s : shape) : (0 < N)%N -> centre (shifted o s) 0 = centre s 0 + o.1 /\ centre (shifted o s) 1 = centre s 1 + o.2.
Proof. move=> N0. rewrite shifted_moved. have [-> ->] := moved_centre 1 0 o.1 o.2 s N0. by rewrite !mul1r !mul0r subr0 add0r. Qed.
Lemma shifted_centred o (s : shape) : (0 < N)%N -> centred (shifted o s) = centred s.
Proof.
  move=> N0. rewrite shifted_moved moved_centred //. move: (centred s) => t. apply/matrixP => i j. rewrite mxE.
  case: (ord2 j) => -> /=; by rewrite !mul1r !mul0r ?subr0 ?add0r addr0.
Qed.
Lemma procrustes_follows : (0 < N)%N -> follows_shifts (@procrustes F N).
Proof.
  move=> N0 o s t. rewrite /procrustes /norm shifted_centred //. have [-> ->] := shifted_centre o t N0.
  cbn [s_a s_b s_tx s_ty]. congr Sim; exact: addrAC.
Qed.
End Procrustes.
