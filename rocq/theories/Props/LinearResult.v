(** C108: what a linear AAM or ATM reports are the landmarks of the dense shapes it fitted; C32 for its transform. *)
From Verif.Model Require Import Py ModelInstance Densify Einsum Jacobian LinearResult.
From Verif.Spec Require Import ModelInstance LinAlg Densify Jacobian.
From Verif.Proofs Require Import ModelInstance MRing Projection LinAlg Densify ModelExample Jacobian.
From Verif.Props Require Densify.
From mathcomp Require Import all_ssreflect all_algebra.
Set Implicit Arguments.
Unset Strict Implicit.
Unset Printing Implicit Defensive.
Import Order.TTheory GRing.Theory Num.Theory.
Local Open Scope ring_scope.

Section P.
Variable F : realFieldType.
Variables n k : nat.
Notation lintrans := (lintrans F n k).
Variable align : 'M[F]_(n + k, 2) -> 'M[F]_(n + k, 2) -> sim F.
Variable src : 'M[F]_(n + k, 2).

(** A transform in the middle of a run. *)
Definition running (l : lintrans) : Prop :=
  opdm_synced (l_pdm l) /\ opdm_global align src (l_pdm l) /\ size (o_simweights (l_pdm l)) = size (o_simcomps (l_pdm l)).
Definition same_model (l l' : lintrans) : Prop := o_model (l_pdm l) = o_model (l_pdm l') /\ o_simcomps (l_pdm l) = o_simcomps (l_pdm l').

Lemma set_target_running m (t : 'M[F]_(m, 2)) (l l' : lintrans) : linear_set_target align src t l = (l', Ok tt) ->
  running l' /\ same_model l' l.
Proof.
  rewrite /linear_set_target.
  have G s : (let '(d, r) := opdm_set_target align src s (l_pdm l) in (@Lintrans _ _ _ d (l_W l) (l_pinv_V l), r)) = (l', Ok tt) -> running l' /\ same_model l' l.
    case E : opdm_set_target => [d r] [<- R]. rewrite R in E. have [S [G [_ [Q [M C]]]]] := opdm_sync_ok E. by [].
  case: as_points => [x|]; first exact: G. case: as_points => [x|] //. exact: G.
Qed.
Lemma from_vector_running v (l l' : lintrans) : size (o_simweights (l_pdm l)) = size (o_simcomps (l_pdm l)) ->
  (size (o_simcomps (l_pdm l)) <= size v)%N -> linear_from_vector align src v l = (l', Ok tt) ->
  running l' /\ same_model l' l /\ opdm_vector (l_pdm l') = v.
Proof.
  move=> Q Sv. rewrite /linear_from_vector. case E : opdm_from_vector => [d r] [<- R]. rewrite R in E.
  have [S [G [V [M C]]]] := opdm_from_ok E. do 2 split=> //=. split=> //. rewrite C.
  move: E. rewrite /opdm_from_vector. case X : opdm_update_global => [d1 [[]|]] //. have [_ [Qx _]] := opdm_update_ok X.
  move=> /opdm_regenerate_ok /= [_ [_ [-> _]]]. rewrite Qx Q size_take. by case: ltngtP Sv => // ->.
Qed.
(** The parameters of a state give its target back, whatever state the transform is in now. *)
Lemma recovered (l l0 : lintrans) : running l -> size (o_simweights (l_pdm l0)) = size (o_simcomps (l_pdm l0)) -> same_model l l0 ->
  size (o_weights (l_pdm l)) = size (active (o_model (l_pdm l))) ->
  exists l', linear_from_vector align src (opdm_vector (l_pdm l)) l0 = (l', Ok tt) /\ o_target (l_pdm l') = o_target (l_pdm l).
Proof.
  move=> [S [G Q]] Q0 [M C] W. set v := opdm_vector _.
  have Sv : size v = (size (o_simcomps (l_pdm l0)) + size (active (o_model (l_pdm l0))))%N by rewrite /v /opdm_vector size_cat Q W M C.
  have Ok0 := @opdm_from_succeeds F (n + k) align src v (l_pdm l0) Q0 Sv.
  case E : (opdm_from_vector align src v (l_pdm l0)) Ok0 => [d r] /= R. rewrite R in E.
  have E' : linear_from_vector align src v l0 = (@Lintrans _ _ _ d (l_W l0) (l_pinv_V l0), Ok tt) by rewrite /linear_from_vector E.
  eexists; split; first exact: E'. rewrite /=.
  have Sle : (size (o_simcomps (l_pdm l0)) <= size v)%N by rewrite Sv leq_addr.
  have [[S' [G' Q']] [[M' C'] V']] := from_vector_running Q0 Sle E'. rewrite /= in S' G' Q' M' C' V'.
  have Eq : o_simweights d = o_simweights (l_pdm l).
    have := congr1 (take (size (o_simcomps (l_pdm l)))) V'. rewrite /v /opdm_vector.
    rewrite take_size_cat; last by rewrite Q' C' C. rewrite take_size_cat //.
  have Ew : o_weights d = o_weights (l_pdm l).
    have := congr1 (drop (size (o_simcomps (l_pdm l)))) V'. rewrite /v /opdm_vector.
    rewrite drop_size_cat; last by rewrite Q' C' C. rewrite drop_size_cat //.
  have Es : o_sim d = o_sim (l_pdm l) by rewrite G' G M' C' Eq M C.
  move: S'. rewrite /opdm_synced Es Ew M' -M => S'. exact: similar_fun S' S.
Qed.

Lemma updates_running vs (l : lintrans) ls : running l -> size (o_weights (l_pdm l)) = size (active (o_model (l_pdm l))) ->
  all (fun v => size v == size (opdm_vector (l_pdm l))) vs -> linear_updates align src vs l = Ok ls ->
  (forall i, (i < size (l :: ls))%N -> let l' := nth l (l :: ls) i in running l' /\ same_model l' l /\ size (o_weights (l_pdm l')) = size (active (o_model (l_pdm l')))) /\
  run_params ls = vs.
Proof.
  elim: vs l ls => [|v vs IH] l ls R W /=.
    move=> _ [<-]. split=> //. by case.
  move=> /andP [/eqP Sv A]. case E : linear_from_vector => [l' r]. case: r E => [[]|e] E //=.
  case U : linear_updates => [ls'|] //= [<-].
  have [_ [_ Q]] := R.
  have Sle : (size (o_simcomps (l_pdm l)) <= size v)%N by rewrite Sv /opdm_vector size_cat Q leq_addr.
  have [R' [M' V']] := from_vector_running Q Sle E. have [_ [_ Q']] := R'. have [Mm Mc] := M'.
  have W' : size (o_weights (l_pdm l')) = size (active (o_model (l_pdm l'))).
    move/eqP: (congr1 size V'). rewrite Sv /opdm_vector !size_cat Q' Q Mc Mm W eqn_add2l => /eqP. by [].
  have A' : all (fun v0 => size v0 == size (opdm_vector (l_pdm l'))) vs by rewrite V' Sv.
  have [H P] := IH l' ls' R' W' A' U. split; last by rewrite /run_params /= V' -P.
  case=> [|i] /= I; first by [].
  rewrite (set_nth_default l') //. have [Ra [[Ma Ca] Wa]] := H i I. split=> //. split=> //. by split; rewrite ?Ma ?Ca.
Qed.
End P.

(** ** C108 *)
(** A run of a linear model: the transform is set to the initial shape (landmarks or dense), then to one parameter vector per
    iteration.  The result has one shape per parameter vector, each with the number of landmarks of the images, and the i-th
    is the first points of the i-th dense shape; the i-th parameter vector is the one the solver came up with. *)
Theorem c108_linear_results : forall (F : realFieldType) n k align src (l0 l1 : lintrans F n k) m (initial : 'M[F]_(m, 2)) vs ls,
  linear_set_target align src initial l0 = (l1, Ok tt) ->
  all (fun v => size v == size (opdm_vector (l_pdm l1))) vs -> linear_updates align src vs l1 = Ok ls ->
  linear_result_shapes align src (last l1 ls) (run_shapes (l1 :: ls)) (run_params (l1 :: ls)) =
    Ok [seq first_points s | s <- run_shapes (l1 :: ls)] /\
  run_params (l1 :: ls) = opdm_vector (l_pdm l1) :: vs /\ size ls = size vs.
Proof.
  move=> F n k align src l0 l1 m initial vs ls E A U.
  have [R M] := set_target_running E.
  have W : size (o_weights (l_pdm l1)) = size (active (o_model (l_pdm l1))).
    move: E. rewrite /linear_set_target.
    have G s : (let '(d, r) := opdm_set_target align src s (l_pdm l0) in (@Lintrans _ _ _ d (l_W l0) (l_pinv_V l0), r)) = (l1, Ok tt) ->
       size (o_weights (l_pdm l1)) = size (active (o_model (l_pdm l1))).
      case E : opdm_set_target => [d r] [<- Rr]. rewrite Rr in E. by have [_ [_ [-> _]]] := opdm_sync_ok E.
    case: as_points => [x|]; first exact: G. case: as_points => [x|] //. exact: G.
  have [H P] := updates_running R W A U. split; last first.
    split; first by rewrite /run_params /= -P. by rewrite -P size_map.
  have [[Rl [[Ml Cl] _]]] : (let l' := nth l1 (l1 :: ls) (size ls) in running align src l' /\ same_model l' l1 /\ size (o_weights (l_pdm l')) = size (active (o_model (l_pdm l')))) /\ True.
    by split=> //; apply: H.
  have El : nth l1 (l1 :: ls) (size ls) = last l1 ls by rewrite -[size ls]/(size (l1 :: ls)).-1 nth_last.
  rewrite {}El in Rl Ml Cl. move=> _. have Ql := Rl.2.2.
  have K : forall t, all (fun x => true) t -> (forall i, (i < size t)%N -> let l' := nth l1 t i in running align src l' /\ same_model l' l1 /\ size (o_weights (l_pdm l')) = size (active (o_model (l_pdm l')))) ->
     linear_result_shapes align src (last l1 ls) (run_shapes (l1 :: ls)) (run_params t) = Ok [seq first_points s | s <- run_shapes t].
    rewrite /linear_result_shapes. elim=> [|l t IH] //= T Ht.
    have [Rt [[Mt Ct] Wt]] := Ht 0%N isT. rewrite /= in Rt Mt Ct Wt.
    have Sm : same_model l (last l1 ls) by split; rewrite ?Ml ?Cl.
    have [l' [-> Et]] := recovered Rt Ql Sm Wt. rewrite /=. rewrite IH //; last by move=> i I; apply: (Ht i.+1).
    by rewrite /= first_pointsE /sparse_target Et.
  exact: (K (l1 :: ls) (all_predT _) H).
Qed.
Print Assumptions c108_linear_results.

(** The hypotheses are met: from the landmarks of an instance of the concrete model of Props/Densify.v, and any list of parameter
    vectors of length five. *)
Example c108_linear_results_ex : forall (F : realFieldType) (vs : seq (seq F)), all (fun v => size v == 5%N) vs ->
  exists l1 ls, @linear_set_target F 3 1 (@lsq F 4) (mean4 F) 3 (@first_points F 3 1 (sim_apply (Sim 1 0 2%:R 3%:R) (linear_shape (Props.Densify.model4 F) [:: 2%:R])))
      (Props.Densify.lin4 (Props.Densify.W4 F)) = (l1, Ok tt) /\
    all (fun v => size v == size (opdm_vector (l_pdm l1))) vs /\ @linear_updates F 3 1 (@lsq F 4) (mean4 F) vs l1 = Ok ls.
Proof.
  move=> F vs A. set D := sim_apply _ _. have H : similar (Sim 1 0 2%:R 3%:R) (linear_shape (Props.Densify.model4 F) [:: 2%:R]) D by exact: sim_applyP.
  have [l1 [T [_ [_ W]]]] := Props.Densify.c60_sparse_instances_ex H. exists l1.
  have [[S [G Q]] [M C]] := set_target_running T.
  have Z : size (opdm_vector (l_pdm l1)) = 5%N by rewrite /opdm_vector size_cat Q C W.
  have L : forall (ws : seq (seq F)) (l : lintrans F 3 1), all (fun v => size v == 5%N) ws -> size (o_simweights (l_pdm l)) = 4%N -> size (o_simcomps (l_pdm l)) = 4%N ->
      size (active (o_model (l_pdm l))) = 1%N -> exists ls, @linear_updates F 3 1 (@lsq F 4) (mean4 F) ws l = Ok ls.
    elim=> [|v ws IH] l /=; first by exists [::].
    move=> /andP [/eqP Sv Aw] Q4 C4 A1. case E : linear_from_vector => [l' r].
    have R : r = Ok tt.
      move: E. rewrite /linear_from_vector. have := @opdm_from_succeeds F 4 (@lsq F 4) (mean4 F) v (l_pdm l).
      case: opdm_from_vector => d r' /= K [_ <-]. apply: K; rewrite ?Q4 ?C4 ?A1 ?Sv //.
    rewrite {}R in E *. rewrite /=.
    have Sle : (size (o_simcomps (l_pdm l)) <= size v)%N by rewrite C4 Sv.
    have [[_ [_ Q']] [[M' C'] _]] := from_vector_running (etrans Q4 (esym C4)) Sle E.
    have [|||ls ->] := IH l' Aw; rewrite ?Q' ?C' ?M' //=. by eexists.
  have [|||ls U] := L vs l1 A; rewrite ?Q ?C ?M //=.
  exists ls. by rewrite Z.
Qed.

(** ** C32 for the transform of linear models *)
Lemma linear_d_dp_ok (F : realFieldType) n k (l : lintrans F n k) (d := l_pdm l) : exists jac jac', linear_d_dp l = Ok jac /\
  global_d_dp (Ok (reshape_comps (o_simcomps d))) (o_model d) (o_sim d) = Ok jac' /\
  t_shape jac = [:: k; (size (o_simcomps d) + size (active (o_model d)))%N; 2%N] /\
  forall i j c, t_get jac [:: i; j; c] = t_get jac' [:: (n + i)%N; j; c].
Proof.
  have [jac' E [Sh _]] := @global_d_dp_ok F (n + k) (reshape_comps (o_simcomps d)) (size (o_simcomps d)) (o_model d) (o_sim d) erefl.
  rewrite /linear_d_dp /opdm_d_dp -/d E /= /drop_rows Sh. eexists; exists jac'. split; first reflexivity. split=> //. by rewrite /= addKn.
Qed.
(** One row per pixel (none for the landmarks); while the transform does not rotate, the columns of the weights are the derivative
    of that pixel's position. *)
Theorem c32_linear_partial : forall (F : realFieldType) n k (l : lintrans F n k), let d := l_pdm l in s_b (o_sim d) = 0 ->
  exists2 jac, linear_d_dp l = Ok jac & t_shape jac = [:: k; (size (o_simcomps d) + size (active (o_model d)))%N; 2%N] /\
  forall (i : 'I_k) w, derivative (size (active (o_model d))) 2 (generated (o_model d) (o_sim d) (rshift n i)) w
    (fun j r => t_get jac [:: nat_of_ord i; (size (o_simcomps d) + j)%N; r]).
Proof.
  move=> F n k l d B. have [jac [jac' [E [E' [Sh V]]]]] := linear_d_dp_ok l. exists jac => //. split=> // i w h r R.
  have D := @global_d_dp_exact F (n + k) (reshape_comps (o_simcomps d)) (size (o_simcomps d)) (o_model d) (o_sim d) jac' (rshift n i) w erefl E' B.
  rewrite (D h r R). congr (_ + _). apply: eq_bigr => j _. by rewrite V.
Qed.
Print Assumptions c32_linear_partial.
(** With rotation it is not, at any pixel whose two coordinates in a component do not cancel. *)
Theorem c32_linear_rotation_refuted : forall (F : realFieldType) n k (l : lintrans F n k) jac (i : 'I_k) j w, let d := l_pdm l in
  linear_d_dp l = Ok jac -> s_b (o_sim d) != 0 -> (j < size (active (o_model d)))%N ->
  (nth 0 (active (o_model d)) j) (rshift n i) 0 + (nth 0 (active (o_model d)) j) (rshift n i) 1 != 0 ->
  ~ derivative (size (active (o_model d))) 2 (generated (o_model d) (o_sim d) (rshift n i)) w
    (fun j r => t_get jac [:: nat_of_ord i; (size (o_simcomps d) + j)%N; r]).
Proof.
  move=> F n k l jac i j w d Ej B J XY H. have [jac0 [jac' [E [E' [Sh V]]]]] := linear_d_dp_ok l.
  have Eq : jac = jac0 by move: Ej; rewrite E => -[]. rewrite {}Eq {Ej} in H *.
  apply: (@global_d_dp_wrong F (n + k) (reshape_comps (o_simcomps d)) (size (o_simcomps d)) (o_model d) (o_sim d) jac' (rshift n i) j w erefl E' B J XY).
  move=> h r R. rewrite (H h r R). congr (_ + _). apply: eq_bigr => x _. by rewrite V.
Qed.
Print Assumptions c32_linear_rotation_refuted.
(** Both are met by the concrete model: its pixel moves in one coordinate only. *)
Example c32_linear_ex (F : realFieldType) : let l := Props.Densify.lin4 (Props.Densify.W4 F) in
  s_b (o_sim (l_pdm l)) = 0 /\ (0 < size (active (o_model (l_pdm l))))%N /\
  (nth 0 (active (o_model (l_pdm l))) 0) (rshift 3 ord0) 0 + (nth 0 (active (o_model (l_pdm l))) 0) (rshift 3 ord0) 1 != 0.
Proof. move=> l. do 2 split=> //. rewrite /= !mxE /=. rewrite ?addr0 ?oppr_eq0. exact: half0. Qed.
