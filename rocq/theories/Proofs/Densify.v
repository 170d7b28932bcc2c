From Verif.Model Require Import Py ModelInstance Densify.
From Verif.Spec Require Import ModelInstance LinAlg Densify.
From Verif.Proofs Require Import ModelInstance MRing Projection LinAlg.
From mathcomp Require Import all_ssreflect all_algebra.
Set Implicit Arguments.
Unset Strict Implicit.
Unset Printing Implicit Defensive.
Import Order.TTheory GRing.Theory Num.Theory.
Local Open Scope ring_scope.

Section Builder.
Variable Pt : Type.
Variable transform : seq Pt -> seq Pt -> res (seq Pt -> seq Pt).
Lemma densify_nth (shapes : seq (seq Pt)) fr out : densify_shapes transform shapes fr = Ok out ->
  size out = size shapes /\
  forall i, (i < size shapes)%N -> exists t, transform (f_source fr) (nth [::] shapes i) = Ok t /\
    nth [::] out i = nth [::] shapes i ++ t (f_true fr).
Proof.
  rewrite /densify_shapes. case E : mapM => [ts|] //= [<-].
  elim: shapes ts E => [|s shapes IH] ts /=; first by move=> [<-].
  case T : transform => [t|] //=. case E : mapM => [ts'|] //= [<-] /=.
  have [S N] := IH _ E. split; first by rewrite S.
  case=> [|i] //= I; last exact: N. by exists t.
Qed.
Lemma densify_fails (shapes : seq (seq Pt)) fr e : densify_shapes transform shapes fr = Err e ->
  exists2 i, (i < size shapes)%N & transform (f_source fr) (nth [::] shapes i) = Err e.
Proof.
  rewrite /densify_shapes. case E : mapM => [ts|e'] //= [<-].
  elim: shapes E => [|s shapes IH] //=.
  case T : transform => [t|e2] /=; last by move=> [<-]; exists 0%N.
  case E : mapM => [ts'|e2] //= [H]. rewrite H in E. have [i I P] := IH E. by exists i.+1.
Qed.
End Builder.

Section Linear.
Variable F : realFieldType.
Variables n k : nat.
Notation shape := 'M[F]_(n + k, 2).
Notation sparse := 'M[F]_(n, 2).
Implicit Types (W : seq shape).
Add Ring Fr : (@r_ring F).

Lemma first_pointsE (s : shape) : first_points s = usubmx s.
Proof. by apply/matrixP => i j; rewrite !mxE. Qed.
Lemma as_points_same m (s : 'M[F]_(m, 2)) : as_points m s = Some s.
Proof. rewrite /as_points. case: eqP => // e. by rewrite castmx_id. Qed.
Lemma as_points_other m N (s : 'M[F]_(m, 2)) : m != N -> as_points N s = None.
Proof. rewrite /as_points. by case: eqP. Qed.

Lemma mul_rows m (cs : seq 'M[F]_(m, 2)) (a : 'rV[F]_(size cs)) : vec_mx (a *m rows_of cs) = \sum_i a 0 i *: nth 0 cs i.
Proof.
  apply: (can_inj (@mxvecK _ _ _)). rewrite vec_mxK linear_sum /=. rewrite mulmx_sum_row. apply: eq_bigr => i _.
  by rewrite rowK linearZ.
Qed.
Lemma mul_V W (a : 'rV[F]_(size W)) : vec_mx (a *m V_of W) = usubmx (\sum_i a 0 i *: nth 0 W i).
Proof.
  apply: (can_inj (@mxvecK _ _ _)). rewrite vec_mxK linear_sum linear_sum /=. rewrite mulmx_sum_row. apply: eq_bigr => i _.
  by rewrite rowK linearZ linearZ.
Qed.
Definition coeffs W (a : nat -> F) : 'rV[F]_(size W) := \row_i a i.
Lemma combineE W a : combine W a = \sum_i (coeffs W a) 0 i *: nth 0 W i.
Proof. by apply: eq_bigr => i _; rewrite mxE. Qed.
Lemma sparse_combine W a : mxvec (usubmx (combine W a)) = coeffs W a *m V_of W.
Proof. by rewrite combineE -mul_V vec_mxK. Qed.

Lemma densify_span (l : lintrans F n k) x : exists a, densify l x = combine (l_W l) a.
Proof.
  exists (fun i => nth 0 (val [tuple (mxvec x *m l_pinv_V l) 0 j | j < size (l_W l)]) i).
  rewrite /densify mul_rows combineE. apply: eq_bigr => i _. rewrite [coeffs _ _ 0 i]mxE.
  by rewrite -tnth_nth tnth_mktuple.
Qed.
(** The first points of the densified shape are the orthogonal projection of the sparse shape. *)
Lemma densify_first (l : lintrans F n k) x : mxvec (usubmx (densify l x)) = mxvec x *m (l_pinv_V l *m V_of (l_W l)).
Proof. by rewrite /densify mul_rows -mul_V vec_mxK mulmxA. Qed.
Lemma densify_exact (l : lintrans F n k) a : penrose (V_of (l_W l)) (l_pinv_V l) ->
  usubmx (densify l (usubmx (combine (l_W l) a))) = usubmx (combine (l_W l) a).
Proof.
  move=> [P1 _ _ _]. apply: (can_inj (@mxvecK _ _ _)). rewrite densify_first sparse_combine -mulmxA [V_of _ *m _]mulmxA P1. by [].
Qed.
Definition vnorm2 m (v : 'rV[F]_m) : F := (v *m v^T) 0 0.
Lemma vnorm2_ge0 m (v : 'rV[F]_m) : 0 <= vnorm2 v.
Proof. rewrite /vnorm2 mxE sumr_ge0 // => i _. by rewrite mxE sqr_ge0. Qed.
Lemma distance2E (x y : sparse) : distance2 x y = vnorm2 (mxvec (x - y)).
Proof.
  rewrite /vnorm2 mxE [LHS]pair_big /=.
  rewrite (reindex _ (curry_mxvec_bij n 2)) /=. apply: eq_bigr => -[i j] _ /=.
  by rewrite [_^T _ _]mxE mxvecE !mxE expr2.
Qed.
Lemma pythagoras m (u v : 'rV[F]_m) : u *m v^T = 0 -> vnorm2 (u + v) = vnorm2 u + vnorm2 v.
Proof.
  move=> H. have H' : v *m u^T = 0 by rewrite -[LHS]trmxK trmx_mul trmxK H trmx0.
  by rewrite /vnorm2 linearD /= mulmxDl !mulmxDr H H' addr0 add0r mxE.
Qed.
Lemma densify_closest (l : lintrans F n k) x a : penrose (V_of (l_W l)) (l_pinv_V l) ->
  distance2 x (usubmx (densify l x)) <= distance2 x (usubmx (combine (l_W l) a)).
Proof.
  move=> [P1 P2 P3 P4]. set V := V_of _ in P1 P2 P3 P4. set P := l_pinv_V l in P1 P2 P3 P4.
  rewrite !distance2E.
  have -> : mxvec (x - usubmx (combine (l_W l) a)) = mxvec (x - usubmx (densify l x)) + (mxvec x *m P - coeffs _ a) *m V.
    rewrite !linearB /= densify_first sparse_combine -/V -/P mulmxBl mulmxA addrA subrK. by [].
  rewrite pythagoras ?ler_addl ?vnorm2_ge0 //.
  rewrite linearB /= densify_first -/V -/P trmx_mul [LHS]mulmxA.
  suff -> : (mxvec x - mxvec x *m (P *m V)) *m V^T = 0 by rewrite mul0mx.
  rewrite mulmxBl -mulmxA -P4 -trmx_mul mulmxA P1. by rewrite subrr.
Qed.

(** When the landmarks determine the coefficients the whole shape is recovered. *)
Lemma densify_recovers (l : lintrans F n k) a : penrose (V_of (l_W l)) (l_pinv_V l) -> determined (l_W l) ->
  densify l (usubmx (combine (l_W l) a)) = combine (l_W l) a.
Proof.
  move=> PV D. have [b B] := densify_span l (usubmx (combine (l_W l) a)). rewrite B.
  have E := densify_exact a PV. rewrite B in E.
  have Z : first_points (combine (l_W l) (fun i => b i - a i)) = 0.
    rewrite first_pointsE.
    have -> : combine (l_W l) (fun i => b i - a i) = combine (l_W l) b - combine (l_W l) a.
      rewrite /combine -sumrB. apply: eq_bigr => i _. by rewrite scalerBl.
    by rewrite linearB /= E subrr.
  have H := D _ Z. apply: eq_bigr => i _. congr (_ *: _). apply/eqP. rewrite -subr_eq0. by rewrite H.
Qed.

Lemma densify_parts (l : lintrans F n k) a (v : sparse) : penrose (V_of (l_W l)) (l_pinv_V l) -> determined (l_W l) ->
  (forall i, (i < size (l_W l))%N -> \sum_p \sum_j v p j * (nth 0 (l_W l) i) (lshift k p) j = 0) ->
  densify l (usubmx (combine (l_W l) a) + v) = combine (l_W l) a.
Proof.
  move=> PV D O. rewrite -[RHS](densify_recovers a PV D) /densify linearD /= !mulmxDl.
  suff -> : mxvec v *m l_pinv_V l = 0 by rewrite mul0mx addr0.
  have [P1 P2 P3 P4] := PV. rewrite -P2 -P4 trmx_mul -[_ *m _ *m l_pinv_V l]mulmxA [mxvec v *m _]mulmxA.
  suff -> : mxvec v *m (V_of (l_W l))^T = 0 by rewrite mul0mx.
  apply/rowP => i. rewrite [RHS]mxE mxE -[RHS](O i) // [RHS]pair_big /=.
  rewrite (reindex _ (curry_mxvec_bij n 2)) /=. apply: eq_bigr => -[p j] _ /=.
  by rewrite mxvecE [_^T _ _]mxE [V_of _ _ _]mxE mxvecE [usubmx _ _ _]mxE.
Qed.

(** Instances without rotation are combinations. *)
Section Instances.
Variable align : shape -> shape -> sim F.
Variable d : opdm F (n + k).
Notation m := (o_model d).
Notation mean := (m_mean m).
Notation sc := (o_simcomps d).
Hypothesis Osc : orthonormal sc.
Hypothesis Om : orthonormal (active m).
Hypothesis X : forall c c', c \in active m -> c' \in sc -> dot c c' = 0.
Hypothesis B : similarity_basis mean sc.
Hypothesis E : exact_alignment align mean.
Variables i0 j0 : 'I_(n + k).
Hypothesis R : row i0 mean <> row j0 mean.

Lemma combine_cat cs cs' (a b : nat -> F) :
  combine (cs ++ cs') (fun i => if (i < size cs)%N then a i else b (i - size cs)%N) = combine cs a + combine cs' b :> shape.
Proof.
  rewrite /combine.
  rewrite -(big_mkord xpredT (fun i => (if (i < size cs)%N then a i else b (i - size cs)%N) *: nth 0 (cs ++ cs') i)) size_cat.
  rewrite (big_cat_nat _ (n := size cs)) ?leq_addr //=. congr (_ + _).
  - rewrite big_mkord. apply: eq_bigr => i _. by rewrite nth_cat ltn_ord.
  - rewrite -{1}[size cs]add0n big_addn addKn big_mkord. apply: eq_bigr => i _.
    by rewrite nth_cat ltnNge leq_addl /= addnK.
Qed.
Lemma mean_in_span : exists q : seq F, size q = size sc /\ mean = \sum_(i < size sc) nth 0 q i *: nth 0 sc i.
Proof.
  apply/(B _). exists (Sim 1 0 0 0) => i /=. rewrite [fun_of_matrix (mean + mean) i 0]mxE [fun_of_matrix (mean + mean) i 1]mxE.
  by rewrite !mulrDl !mul1r !mul0r subr0 add0r !addr0.
Qed.
Lemma sim_unique (g h : sim F) t : similar g mean t -> similar h mean t -> g = h.
Proof.
  move=> G H. set da := s_a g - s_a h. set db := s_b g - s_b h.
  have Z i j : da * (mean i 0 - mean j 0) - db * (mean i 1 - mean j 1) = 0 /\ db * (mean i 0 - mean j 0) + da * (mean i 1 - mean j 1) = 0.
    have [G0 G1] := G i. have [H0 H1] := H i. have [G0' G1'] := G j. have [H0' H1'] := H j.
    have Q0 : t i 0 - t i 0 - (t j 0 - t j 0) = 0 by rewrite !subrr. have Q1 : t i 1 - t i 1 - (t j 1 - t j 1) = 0 by rewrite !subrr.
    rewrite {1}G0 H0 {1}G0' H0' in Q0. rewrite {1}G1 H1 {1}G1' H1' in Q1.
    rewrite /da /db. split; [rewrite -[RHS]Q0|rewrite -[RHS]Q1]; mring F.
  have [Z0 Z1] := Z i0 j0. set x := mean i0 0 - _ in Z0 Z1. set y := mean i0 1 - _ in Z0 Z1.
  have P : (da ^+ 2 + db ^+ 2) * (x ^+ 2 + y ^+ 2) = 0.
    have -> : (da ^+ 2 + db ^+ 2) * (x ^+ 2 + y ^+ 2) = (da * x - db * y) ^+ 2 + (db * x + da * y) ^+ 2 by rewrite !expr2; mring F.
    by rewrite Z0 Z1 expr0n addr0.
  move/eqP: P. rewrite mulf_eq0 => /orP [|].
  - rewrite paddr_eq0 ?sqr_ge0 // !sqrf_eq0 !subr_eq0 => /andP [/eqP A /eqP C].
    have [G0 G1] := G i0. have [H0 H1] := H i0. rewrite G0 in H0. rewrite G1 in H1. rewrite A C in H0 H1.
    move/addrI in H0. move/addrI in H1. by case: g h A C H0 H1 {G H Z Z0 Z1 x y da db G0 G1} => ? ? ? ? [? ? ? ?] /= -> -> -> ->.
  - rewrite paddr_eq0 ?sqr_ge0 // !sqrf_eq0 !subr_eq0 => /andP [/eqP A /eqP C]. case: R. apply/rowP => l. rewrite !mxE.
    by have [->|->] := ord2 l.
Qed.

(** An instance: similarity of the model's linear shape. *)
Lemma instance_split g w D : similar g (linear_shape m w) D ->
  D = sim_apply g mean + lin_part g (\sum_(i < size (active m)) nth 0 w i *: nth 0 (active m) i).
Proof. move/similarP=> ->. by rewrite /linear_shape sim_apply_add. Qed.
Lemma sim_mean g : exists q : seq F, size q = size sc /\ sim_apply g mean = mean + \sum_(i < size sc) nth 0 q i *: nth 0 sc i.
Proof.
  have [|q [S Q]] := (B (sim_apply g mean - mean)).2.
    exists g. rewrite addrC subrK. exact: sim_applyP.
  exists q. split=> //. by rewrite -Q addrC subrK.
Qed.
Lemma instance_in_span g w D : unrotated g -> similar g (linear_shape m w) D -> exists a, D = combine (sc ++ active m) a.
Proof.
  move=> [Gb Ga] /instance_split ->. have [q [S Q]] := sim_mean g. have [p [S' P]] := mean_in_span.
  rewrite Q {1}P. exists (fun i => if (i < size sc)%N then nth 0 p i + nth 0 q i else (1 + s_a g) * nth 0 w (i - size sc)%N).
  rewrite (combine_cat sc (active m) (fun i => nth 0 p i + nth 0 q i) (fun i => (1 + s_a g) * nth 0 w i)). congr (_ + _).
  - rewrite /combine -big_split /=. apply: eq_bigr => i _. by rewrite scalerDl.
  - rewrite /combine. transitivity ((1 + s_a g) *: (\sum_(i < size (active m)) nth 0 w i *: nth 0 (active m) i)).
      apply/matrixP => i j. have [L0 L1] := lin_partE g (\sum_(i < size (active m)) nth 0 w i *: nth 0 (active m) i) i.
      rewrite [RHS]mxE. have [->|->] := ord2 j; rewrite ?L0 ?L1 Gb mul0r ?subr0 ?add0r //.
    rewrite scaler_sumr. apply: eq_bigr => i _. by rewrite scalerA.
Qed.
(** Every instance is a fixed point of OrthoPDM.set_target. *)
Lemma instance_fixed g w D : (1 + s_a g) ^+ 2 + s_b g ^+ 2 <> 0 -> size w = size (active m) -> similar g (linear_shape m w) D ->
  exists d', opdm_set_target align mean D d = (d', Ok tt) /\ o_target d' = D /\ o_sim d' = g /\ o_weights d' = w /\
    o_model d' = m /\ o_simcomps d' = sc.
Proof.
  move=> G S H. have [q [Sq Q]] := sim_mean g.
  have A : align mean (sim_apply g mean) = g.
    apply: sim_unique; last exact: sim_applyP. apply: E. exact: sim_applyP.
  pose d0 := Opdm m w D g sc q.
  have := @opdm_idempotent F (n + k) align d0. rewrite /= => T.
  have {}T : opdm_set_target align mean D d0 = (d0, Ok tt).
    apply: T => //.
    - by rewrite /opdm_global /= /o_similarity /= -[LHS]A Q /linear_shape /active /= take_size.
    - by apply/eqP.
  exists d0. split; last by []. rewrite -[RHS]T. move: T. rewrite /opdm_set_target /opdm_sync_state /opdm_update_global /d0 /=.
  case: instance => [t|e] //=. by case: sim_pinv_apply.
Qed.
End Instances.
End Linear.
