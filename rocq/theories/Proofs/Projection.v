From Verif.Model Require Import Py ModelInstance.
From Verif.Spec Require Import ModelInstance.
From Verif.Proofs Require Import ModelInstance MRing.
From mathcomp Require Import all_ssreflect all_algebra.
Set Implicit Arguments.
Unset Strict Implicit.
Unset Printing Implicit Defensive.
Import Order.TTheory GRing.Theory Num.Theory.
Local Open Scope ring_scope.

Section P.
Variable F : realFieldType.
Variable N : nat.
Notation shape := 'M[F]_(N, 2).
Add Ring Fr : (@r_ring F).

Lemma dotDl (x y z : shape) : dot (x + y) z = dot x z + dot y z.
Proof. rewrite /dot -big_split; apply: eq_bigr => i _. rewrite -big_split; apply: eq_bigr => j _. by rewrite mxE mulrDl. Qed.
Lemma dotZl a (x z : shape) : dot (a *: x) z = a * dot x z.
Proof. rewrite /dot mulr_sumr; apply: eq_bigr => i _. rewrite mulr_sumr; apply: eq_bigr => j _. by rewrite mxE mulrA. Qed.
Lemma dot0l (z : shape) : dot 0 z = 0.
Proof. rewrite /dot big1 // => i _. rewrite big1 // => j _. by rewrite mxE mul0r. Qed.
Lemma dotC (x y : shape) : dot x y = dot y x.
Proof. by apply: eq_bigr => i _; apply: eq_bigr => j _; rewrite mulrC. Qed.
Lemma dot_suml (I : Type) (r : seq I) (f : I -> shape) z : dot (\sum_(i <- r) f i) z = \sum_(i <- r) dot (f i) z.
Proof. elim: r => [|i r IH]; first by rewrite !big_nil dot0l. by rewrite !big_cons dotDl IH. Qed.
Lemma dotE (x y : shape) : dot x y = \sum_i (x i 0 * y i 0 + x i 1 * y i 1).
Proof.
  apply: eq_bigr => i _. rewrite big_ord_recl big_ord1. have -> // : lift 0 0 = 1 :> 'I_2 by exact: val_inj.
Qed.

Notation span w cs := (\sum_(i < size cs) nth 0 w i *: nth 0 cs i).
Lemma span_coeff (w : seq F) (cs : seq shape) j : orthonormal cs -> (j < size cs)%N -> dot (span w cs) (nth 0 cs j) = nth 0 w j.
Proof.
  move=> O J. rewrite dot_suml (bigD1 (Ordinal J)) //= dotZl O // eqxx mulr1 big1 ?addr0 // => i ij.
  rewrite dotZl O // -val_eqE /= in ij *. by rewrite (negbTE ij) mulr0.
Qed.
Lemma orthonormal_take k (cs : seq shape) : orthonormal cs -> orthonormal (take k cs).
Proof.
  move=> O i j. rewrite size_take => I J.
  have I' : (i < size cs)%N by move: I; case: (ltnP k (size cs)) => // A B; exact: (ltn_trans B A).
  have J' : (j < size cs)%N by move: J; case: (ltnP k (size cs)) => // A B; exact: (ltn_trans B A).
  have T i' : (i' < (if (k < size cs)%N then k else size cs))%N -> nth 0 (take k cs) i' = nth 0 cs i'.
    case: (ltnP k (size cs)) => [_|L] H; first by rewrite nth_take. by rewrite take_oversize.
  rewrite !T //. exact: O.
Qed.
Lemma project_instance (m : lmodel F N) w : orthonormal (active m) -> size w = size (active m) -> project m (linear_shape m w) = w.
Proof.
  move=> O S. apply: (@eq_from_nth _ 0); first by rewrite project_size S.
  move=> i. rewrite project_size => I. rewrite (nth_map 0) // /linear_shape addrAC subrr add0r. exact: span_coeff.
Qed.

(** PDM: projecting the current target changes nothing. *)
Lemma pdm_idempotent (d : pdm F N) : orthonormal (active (d_model d)) ->
  d_target d = linear_shape (d_model d) (d_weights d) -> size (d_weights d) = size (active (d_model d)) ->
  pdm_set_target (d_target d) d = (d, Ok tt).
Proof.
  move=> O T S. rewrite /pdm_set_target /pdm_sync_state /pdm_generate /= T project_instance // instance_ok ?S //.
  by rewrite -T; case: d {O T S}.
Qed.

(** Similarities. *)
Definition sdet (g : sim F) : F := (1 + s_a g) ^+ 2 + s_b g ^+ 2.
Definition lin_part (g : sim F) (s : shape) : shape := s *m (sim_lin g)^T.
Lemma ord2 (j : 'I_2) : j = 0 \/ j = 1.
Proof. by case: j => [[|[|]]] // ?; [left|right]; exact: val_inj. Qed.
Lemma lin_partE g s i : (lin_part g s) i 0 = (1 + s_a g) * s i 0 - s_b g * s i 1 /\ (lin_part g s) i 1 = s_b g * s i 0 + (1 + s_a g) * s i 1.
Proof.
  have E j : (s *m (sim_lin g)^T) i j = s i 0 * (sim_lin g) j 0 + s i 1 * (sim_lin g) j 1.
    rewrite mxE big_ord_recl big_ord1 [in LHS](mxE _ _ _ j) [(sim_lin g)^T _ j]mxE.
    have -> // : lift 0 0 = 1 :> 'I_2 by exact: val_inj.
  rewrite /lin_part !E !mxE /=. by rewrite ![s i _ * _]mulrC mulNr.
Qed.
Lemma sim_apply_add g (x y : shape) : sim_apply g (x + y) = sim_apply g x + lin_part g y.
Proof. apply/matrixP => i j. rewrite /sim_apply /lin_part mulmxDl [LHS]mxE [RHS]mxE [in RHS]mxE [(x *m _ + _) i j]mxE. by rewrite addrAC. Qed.

Lemma adjoint (g : sim F) (mean v c : shape) (a b x y : F) :
  (forall i, c i 0 = a * mean i 0 - b * mean i 1 + x /\ c i 1 = b * mean i 0 + a * mean i 1 + y) ->
  exists c' a' b' x' y', dot (lin_part g v) c = dot v c' /\
    forall i, c' i 0 = a' * mean i 0 - b' * mean i 1 + x' /\ c' i 1 = b' * mean i 0 + a' * mean i 1 + y'.
Proof.
  move=> C. set A := 1 + s_a g. set B := s_b g.
  exists (\matrix_(i, j) (if j == 0 then A * c i 0 + B * c i 1 else A * c i 1 - B * c i 0)).
  exists (A * a + B * b), (A * b - B * a), (A * x + B * y), (A * y - B * x). split.
  - rewrite !dotE. apply: eq_bigr => i _. have [-> ->] := lin_partE g v i. rewrite !mxE /= -/A -/B.
    mring F.
  - move=> i. have [C0 C1] := C i. rewrite !mxE /= C0 C1. by split; mring F.
Qed.

Lemma similarP (g : sim F) (s t : shape) : similar g s t <-> t = sim_apply g s.
Proof. split; first by move=> H; exact: similar_fun H (sim_applyP g s). move=> ->; exact: sim_applyP. Qed.

Lemma lin_unit g : sdet g != 0 -> sim_lin g \in unitmx.
Proof.
  move=> D. rewrite unitmxE unitfE. suff -> : \det (sim_lin g) = sdet g by [].
  rewrite (expand_det_row _ 0) big_ord_recl big_ord1 /cofactor !det_mx11 !mxE /= /sdet.
  rewrite expr0 expr1. mring F.
Qed.
Lemma pinv_apply (g : sim F) (s : shape) : sdet g != 0 -> sim_pinv_apply g (sim_apply g s) = Ok s.
Proof.
  move=> D. rewrite /sim_pinv_apply -/(sdet g) (negbTE D). congr Ok. apply/matrixP => i j. rewrite mxE.
  have E : s *m (sim_lin g)^T *m invmx (sim_lin g)^T = s by rewrite -mulmxA mulmxV ?mulmx1 // unitmx_tr lin_unit.
  rewrite -[in RHS]E [in RHS]mxE. apply: eq_bigr => k _. congr (_ * _). rewrite /sim_apply; set M := (s *m _). by rewrite [fun_of_matrix (\matrix_(_, _) _) i k]mxE addrK.
Qed.

(** The similarity subspace is closed under the adjoint of a similarity. *)
Lemma orth_lin g (mean v : shape) (sc : seq shape) : similarity_basis mean sc ->
  (forall c, c \in sc -> dot v c = 0) -> forall c, c \in sc -> dot (lin_part g v) c = 0.
Proof.
  move=> B V c Hc.
  have inspan x : (exists w : seq F, size w = size sc /\ x = span w sc) -> dot v x = 0.
    move=> [w [_ ->]]. rewrite dotC dot_suml big1 // => i _. rewrite dotZl dotC V ?mulr0 //. exact: mem_nth.
  have [h Hh] : exists h, similar h mean (mean + c).
    apply/B. exists [seq (i == index c sc)%:R | i <- iota 0 (size sc)]. split; first by rewrite size_map size_iota.
    have I : (index c sc < size sc)%N by rewrite index_mem.
    rewrite (bigD1 (Ordinal I)) //= (nth_map 0%N) ?size_iota // nth_iota // add0n eqxx scale1r nth_index // big1 ?addr0 // => i ij.
    rewrite (nth_map 0%N) ?size_iota // nth_iota // add0n. move: ij; rewrite -val_eqE /= => /negbTE ->. by rewrite scale0r.
  have C i : c i 0 = s_a h * mean i 0 - s_b h * mean i 1 + s_tx h /\ c i 1 = s_b h * mean i 0 + s_a h * mean i 1 + s_ty h.
    have [H0 H1] := Hh i. rewrite !mxE in H0 H1. split.
    - apply: (addrI (mean i 0)). rewrite H0. mring F.
    - apply: (addrI (mean i 1)). rewrite H1. mring F.
  have [c' [a' [b' [x' [y' [-> H]]]]]] := adjoint g v C.
  apply: inspan. apply/B. exists (Sim a' b' x' y'). move=> i /=. have [H0 H1] := H i. rewrite !mxE H0 H1. split; first by rewrite mulrDl mul1r !addrA. by rewrite mulrDl mul1r addrCA !addrA.
Qed.

Lemma opdm_idempotent align (d : opdm F N) :
  let m := o_model d in
  orthonormal (o_simcomps d) -> orthonormal (active m) ->
  (forall c c', c \in active m -> c' \in o_simcomps d -> dot c c' = 0) ->
  similarity_basis (m_mean m) (o_simcomps d) -> exact_alignment align (m_mean m) ->
  opdm_synced d -> opdm_global align (m_mean m) d -> sdet (o_sim d) != 0 ->
  size (o_weights d) = size (active m) -> size (o_simweights d) = size (o_simcomps d) ->
  opdm_set_target align (m_mean m) (o_target d) d = (d, Ok tt).
Proof.
  move=> m Osc Om X B E S G D Wm Ws.
  set mean := m_mean m in B E G *.
  have [h Hh] : exists h, similar h mean (mean + span (o_simweights d) (o_simcomps d)).
    apply/B. exists (o_simweights d). by [].
  have LS : linear_shape (LModel mean (o_simcomps d) (size (o_simcomps d))) (o_simweights d) = mean + span (o_simweights d) (o_simcomps d).
    by rewrite /linear_shape /active /= take_size.
  have Gd : o_sim d = align mean (mean + span (o_simweights d) (o_simcomps d)) by rewrite G LS.
  have SIM : similar (o_sim d) mean (mean + span (o_simweights d) (o_simcomps d)) by rewrite Gd; exact: E Hh.
  move/similarP: SIM => SIM. move/similarP: S => S.
  have T : o_target d = mean + span (o_simweights d) (o_simcomps d) + lin_part (o_sim d) (span (o_weights d) (active m)).
    rewrite S /linear_shape sim_apply_add -SIM. by [].
  have Q : project (o_similarity d) (o_target d) = o_simweights d.
    apply: (@eq_from_nth _ 0); first by rewrite project_size /active /= take_size Ws.
    move=> i. rewrite project_size /active /= take_size => I. rewrite (nth_map 0) /active /= ?take_size //.
    have -> : o_target d - m_mean (o_model d) = span (o_simweights d) (o_simcomps d) + lin_part (o_sim d) (span (o_weights d) (active m)).
      have A : forall a b c : shape, a + b + c - a = b + c by move=> a b c'; rewrite addrAC [a + b]addrC addrK. by rewrite T A.
    rewrite dotDl span_coeff // (orth_lin _ B) ?addr0 //; last exact: mem_nth.
    move=> c Hc. rewrite dot_suml big1 // => k _. rewrite dotZl X ?mulr0 //. exact: mem_nth.
  have P : project m (linear_shape m (o_weights d)) = o_weights d by exact: project_instance.
  rewrite /opdm_set_target /opdm_sync_state /opdm_update_global.
  move: Q; rewrite /o_similarity /= => ->.
  rewrite instance_ok /active /= ?take_size ?Ws //=. rewrite -/mean LS -Gd.
  rewrite {1}S pinv_apply // P /opdm_regenerate /opdm_generate /= instance_ok ?Wm //=. rewrite -S.
  by case: d {m Osc Om X B E S G D Wm Ws mean h Hh LS Gd SIM T P}.
Qed.

Lemma opdm_set_target_twice align (d d' : opdm F N) t :
  let m := o_model d in
  orthonormal (o_simcomps d) -> orthonormal (active m) ->
  (forall c c', c \in active m -> c' \in o_simcomps d -> dot c c' = 0) ->
  similarity_basis (m_mean m) (o_simcomps d) -> exact_alignment align (m_mean m) ->
  opdm_set_target align (m_mean m) t d = (d', Ok tt) ->
  opdm_set_target align (m_mean m) (o_target d') d' = (d', Ok tt).
Proof.
  move=> m Os Om X B E H. have [S [G [Wm [Ws [M C]]]]] := opdm_sync_ok H. rewrite /= in M C.
  have D : sdet (o_sim d') != 0.
    move: H. rewrite /opdm_set_target /opdm_sync_state. case Z : opdm_update_global => [d1 [[]|]] //.
    case P : sim_pinv_apply => [t0|] //. move=> /opdm_regenerate_ok [_ [_ [_ [_ [O _]]]]]. rewrite /= in O.
    move: P. rewrite /sim_pinv_apply O -/(sdet (o_sim d1)). by case: ifP => // ->.
  rewrite /m -M. apply: opdm_idempotent => //; rewrite ?M ?C //.
Qed.

Lemma opdm_zero_params align src (d : opdm F N) k d' : opdm_from_vector align src (nseq k 0) d = (d', Ok tt) ->
  let mean := m_mean (o_model d) in similar (align src mean) mean mean -> o_target d' = mean.
Proof.
  move=> H mean A. have [S [G [V [M C]]]] := opdm_from_ok H.
  move: H. rewrite /opdm_from_vector. case U : opdm_update_global => [d1 [[]|]] //.
  have [G1 [Q [M1 _]]] := opdm_update_ok U. move=> /opdm_regenerate_ok /= [_ [W [Q' [_ [S' C']]]]].
  have Z n l : drop n (nseq l (0 : F)) = nseq (l - n) 0 by elim: n l => [|n IH] [|l] //=; rewrite IH ?subSS.
  have ZT n l : take n (nseq l (0 : F)) = nseq (minn n l) 0 by elim: n l => [|n IH] [|l] //=; rewrite ?minnSS ?IH.
  move: S. rewrite /opdm_synced W Z linear_zero G Q' Q ZT linear_zero /= M => S.
  exact: similar_fun S A.
Qed.

Lemma opdm_zero_params_moved align src (d : opdm F N) k d' g i j : exact_alignment align src ->
  similar g src (m_mean (o_model d)) -> m_mean (o_model d) <> src ->
  row i (m_mean (o_model d)) <> row j (m_mean (o_model d)) ->
  opdm_from_vector align src (nseq k 0) d = (d', Ok tt) -> o_target d' <> m_mean (o_model d).
Proof.
  set mean := m_mean _. move=> E Sg Hne R H T. have A := E _ _ Sg.
  have [S [G [V [M C]]]] := opdm_from_ok H.
  move: H. rewrite /opdm_from_vector. case U : opdm_update_global => [d1 [[]|]] //.
  have [G1 [Q [M1 _]]] := opdm_update_ok U. move=> /opdm_regenerate_ok /= [_ [W [Q' [_ [S' C']]]]].
  have Z n l : drop n (nseq l (0 : F)) = nseq (l - n) 0 by elim: n l => [|n IH] [|l] //=; rewrite IH ?subSS.
  have ZT n l : take n (nseq l (0 : F)) = nseq (minn n l) 0 by elim: n l => [|n IH] [|l] //=; rewrite ?minnSS ?IH.
  move: S. rewrite /opdm_synced W Z linear_zero G Q' Q ZT linear_zero /= M -/mean T => S.
  set h := align src mean in A S.
  have D : sdet h != 0.
    apply/eqP => D. apply: R. have : (1 + s_a h) ^+ 2 == 0 /\ s_b h ^+ 2 == 0.
      move/eqP: D. rewrite paddr_eq0 ?sqr_ge0 // => /andP [] //.
    rewrite !sqrf_eq0 => -[/eqP a0 /eqP b0]. apply/rowP => l. rewrite !mxE.
    have [Ai0 Ai1] := A i. have [Aj0 Aj1] := A j. have [->|->] := ord2 l; rewrite ?Ai0 ?Ai1 ?Aj0 ?Aj1 a0 b0 !mul0r //.
  move/similarP: S => S. move/similarP: A => A. apply: Hne.
  have := pinv_apply src D. rewrite -A {1}S pinv_apply // => -[]. by [].
Qed.
End P.
