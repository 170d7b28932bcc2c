(** C45, C60: dense shapes and the targets of the linear model-driven transform. *)
From Verif.Model Require Import Py ModelInstance Densify.
From Verif.Spec Require Import ModelInstance LinAlg Densify.
From Verif.Proofs Require Import ModelInstance MRing Projection LinAlg Densify ModelExample.
From mathcomp Require Import all_ssreflect all_algebra.
Set Implicit Arguments.
Unset Strict Implicit.
Unset Printing Implicit Defensive.
Import Order.TTheory GRing.Theory Num.Theory.
Local Open Scope ring_scope.

(** ** C45: dense shapes keep the landmarks first *)
(** One dense shape per shape, in order: its landmarks, then the true pixels of the mask of the frame, mapped by the transform from
    the landmarks of the frame to that shape. *)
Theorem c45_dense_shapes : forall Pt (transform : seq Pt -> seq Pt -> res (seq Pt -> seq Pt)) shapes fr out,
  densify_shapes transform shapes fr = Ok out ->
  size out = size shapes /\
  forall i, (i < size shapes)%N ->
    let s := nth [::] shapes i in let d := nth [::] out i in
    take (size s) d = s /\
    exists t, transform (f_source fr) s = Ok t /\ drop (size s) d = t (f_true fr).
Proof.
  move=> Pt transform shapes fr out /densify_nth [S N]. split=> // i /N [t [T E]] s d. rewrite /d E.
  split; first by rewrite take_size_cat. exists t. split=> //. by rewrite drop_size_cat.
Qed.
Print Assumptions c45_dense_shapes.
(** It fails only if the transform of one of the shapes cannot be built, with that exception. *)
Theorem c45_dense_shapes_raise : forall Pt (transform : seq Pt -> seq Pt -> res (seq Pt -> seq Pt)) shapes fr e,
  densify_shapes transform shapes fr = Err e ->
  exists2 i, (i < size shapes)%N & transform (f_source fr) (nth [::] shapes i) = Err e.
Proof. move=> Pt transform shapes fr e. exact: densify_fails. Qed.
Print Assumptions c45_dense_shapes_raise.
Example c45_dense_shapes_ex :
  densify_shapes (fun src s => if size src == size s then Ok (fun pts => [seq (p + size s)%N | p <- pts]) else Err ValueError)
    [:: [:: 1; 2]; [:: 3; 4]]%N (Frame [:: 0; 0] [:: 7; 8; 9])%N = Ok [:: [:: 1; 2; 9; 10; 11]; [:: 3; 4; 9; 10; 11]]%N.
Proof. by []. Qed.

(** The sparse target is the first n points of the target, the dense target the other k points, and applying the transform to
    anything gives the dense target. *)
Theorem c45_sparse_and_dense_target : forall (F : realFieldType) n k (l : lintrans F n k),
  (forall i j, sparse_target l i j = o_target (l_pdm l) (lshift k i) j) /\
  (forall i j, dense_target l i j = o_target (l_pdm l) (rshift n i) j) /\
  (forall x, linear_apply l x = dense_target l).
Proof. move=> F n k l. split; last split=> //; move=> i j; by rewrite mxE. Qed.
Print Assumptions c45_sparse_and_dense_target.

(** ** C60: setting the target of a linear transform *)
(** A dense target that is an instance of the model (any similarity of a linear combination): it becomes the target, and its
    parameters are recovered. *)
Theorem c60_dense_instances : forall (F : realFieldType) n k align (l : lintrans F n k) g w D i j,
  let d := l_pdm l in let m := o_model d in
  orthonormal (o_simcomps d) -> orthonormal (active m) ->
  (forall c c', c \in active m -> c' \in o_simcomps d -> dot c c' = 0) ->
  similarity_basis (m_mean m) (o_simcomps d) -> exact_alignment align (m_mean m) -> row i (m_mean m) <> row j (m_mean m) ->
  k != 0%N -> (1 + s_a g) ^+ 2 + s_b g ^+ 2 <> 0 -> size w = size (active m) -> similar g (linear_shape m w) D ->
  exists l', linear_set_target align (m_mean m) D l = (l', Ok tt) /\
    o_target (l_pdm l') = D /\ o_sim (l_pdm l') = g /\ o_weights (l_pdm l') = w.
Proof.
  move=> F n k align l g w D i j d m Os Om X B E R K G S H.
  have [d' [T [D' [G' [W' _]]]]] := @instance_fixed F n k align d Os Om X B E i j R g w D G S H.
  rewrite /linear_set_target as_points_other ?as_points_same; last by rewrite -{2}[n]addn0 eqn_add2l.
  rewrite T. eexists; split; first reflexivity. by [].
Qed.
Print Assumptions c60_dense_instances.

(** A sparse target is replaced by a combination of the components of the constructor; its landmarks are the best fit to the
    given ones, and equal to them if these are the landmarks of any combination. *)
Theorem c60_sparse_best_fit : forall (F : realFieldType) n k (l : lintrans F n k) x, penrose (V_of (l_W l)) (l_pinv_V l) ->
  (exists a, densify l x = combine (l_W l) a) /\
  (forall a, distance2 x (first_points (densify l x)) <= distance2 x (first_points (combine (l_W l) a))) /\
  (forall a, x = first_points (combine (l_W l) a) -> first_points (densify l x) = x).
Proof.
  move=> F n k l x PV. split; first exact: densify_span. split.
  - move=> a. rewrite !first_pointsE. exact: densify_closest.
  - move=> a ->. rewrite !first_pointsE. exact: densify_exact.
Qed.
Print Assumptions c60_sparse_best_fit.

(** Sparse targets: the landmarks of an instance without rotation, on a transform whose basis is current and determined by the
    landmarks.  The whole instance, its pose and its weights are recovered from the landmarks.  What is missing, rotated
    instances, is refuted below. *)
Theorem c60_sparse_instances_partial : forall (F : realFieldType) n k align (l : lintrans F n k) g w D i j,
  let d := l_pdm l in let m := o_model d in
  orthonormal (o_simcomps d) -> orthonormal (active m) ->
  (forall c c', c \in active m -> c' \in o_simcomps d -> dot c c' = 0) ->
  similarity_basis (m_mean m) (o_simcomps d) -> exact_alignment align (m_mean m) -> row i (m_mean m) <> row j (m_mean m) ->
  l_W l = o_simcomps d ++ active m -> penrose (V_of (l_W l)) (l_pinv_V l) -> determined (l_W l) ->
  unrotated g -> size w = size (active m) -> similar g (linear_shape m w) D ->
  exists l', linear_set_target align (m_mean m) (first_points D) l = (l', Ok tt) /\
    o_target (l_pdm l') = D /\ sparse_target l' = first_points D /\ o_sim (l_pdm l') = g /\ o_weights (l_pdm l') = w.
Proof.
  move=> F n k align l g w D i j d m Os Om X B E R W PV De U S H.
  have G : (1 + s_a g) ^+ 2 + s_b g ^+ 2 <> 0.
    case: U => -> Ga. rewrite expr0n addr0 => /eqP. rewrite sqrf_eq0 => /eqP. exact: Ga.
  have [d' [T [D' [G' [W' _]]]]] := @instance_fixed F n k align d Os Om X B E i j R g w D G S H.
  have [a A] := @instance_in_span F n k d B g w D U H.
  have L : densify l (usubmx D) = D.
    have A' : D = combine (l_W l) a by rewrite W. by rewrite A' densify_recovers.
  rewrite /linear_set_target as_points_same first_pointsE L T.
  eexists; split; first reflexivity. rewrite /sparse_target /= D'. by [].
Qed.
Print Assumptions c60_sparse_instances_partial.

(** A new transform has the current basis; increments and changes of the number of active components do not update it. *)
Theorem c60_basis_of_constructor : forall (F : realFieldType) n k pinv align ortho (m : lmodel F (n + k)) src,
  (let l := (linear_new pinv align ortho m).1 in l_W l = o_simcomps (l_pdm l) ++ active (o_model (l_pdm l)) /\ l_pinv_V l = pinv _ _ (V_of (l_W l))) /\
  (forall l m' , l_W (linear_increment align ortho src m' l).1 = l_W l) /\
  (forall l v, l_W (linear_set_active align src v l).1 = l_W l) /\
  (forall l q (t : 'M[F]_(q, 2)), l_W (linear_set_target align src t l).1 = l_W l).
Proof.
  move=> F n k pinv align ortho m src. split; first by rewrite /linear_new; case: opdm_new.
  split; first by move=> l m'; rewrite /linear_increment; case: opdm_increment.
  split; first by move=> l v; rewrite /linear_set_active; case: opdm_set_active.
  move=> l q t. rewrite /linear_set_target. case: as_points => [x|]; first by case: opdm_set_target.
  case: as_points => [x|] //. by case: opdm_set_target.
Qed.
Print Assumptions c60_basis_of_constructor.

(** *** The concrete model: three landmarks and one dense point, one shape component *)
Section Concrete.
Variable F : realFieldType.
Add Ring Fr : (@r_ring F).
Notation half := (2%:R^-1 : F).
Definition model4 : lmodel F (3 + 1) := LModel (mean4 F) [:: comp4 F] 1.
Definition pdm4 : opdm F (3 + 1) := Opdm model4 [:: 0] (mean4 F) (identity_sim F) (basis4 F) (nseq 4 0).
Definition pinv_rows p q (A : 'M[F]_(p, q)) : 'M[F]_(q, p) := (invmx (A *m A^T) *m A)^T.
Definition lin4 (W : seq 'M[F]_(3 + 1, 2)) : lintrans F 3 1 := @Lintrans F 3 1 pdm4 W (pinv_rows (V_of W)).
Definition W4 : seq 'M[F]_(3 + 1, 2) := basis4 F ++ [:: comp4 F].

Lemma determined_rows n k (W : seq 'M[F]_(n + k, 2)) : determined W -> full_rank (V_of W)^T.
Proof.
  move=> D x X. have X' : x^T *m V_of W = 0 by rewrite -[RHS]trmx0 -X trmx_mul trmxK.
  have E : first_points (combine W (fun i => nth 0 (val [tuple x j 0 | j < size W]) i)) = 0.
    rewrite first_pointsE combineE. have -> : coeffs W (fun i => nth 0 (val [tuple x j 0 | j < size W]) i) = x^T.
      apply/rowP => i. by rewrite !mxE -tnth_nth tnth_mktuple.
    by rewrite -mul_V X' linear0.
  apply/colP => i. rewrite [RHS]mxE -[RHS](D _ E i) //. by rewrite -tnth_nth tnth_mktuple.
Qed.
Lemma pinv_rowsP n k (W : seq 'M[F]_(n + k, 2)) : determined W -> penrose (V_of W) (pinv_rows (V_of W)).
Proof.
  move=> /determined_rows /pinv_full_rank. rewrite trmxK /pinv_rows. set V := V_of W. set P := _ *m _ => -[A B C D].
  split.
  - by rewrite -[RHS]trmxK -A !trmx_mul !trmxK mulmxA.
  - by rewrite -[RHS]trmxK -{3}B !trmx_mul !trmxK mulmxA.
  - by rewrite -[V]trmxK -trmx_mul trmxK D.
  - by rewrite -{2}[V]trmxK -trmx_mul -{1}C trmx_mul !trmxK.
Qed.
Lemma up3 (s : 'M[F]_(3 + 1, 2)) (i : nat) (j : 'I_2) : (i < 3)%N -> first_points s (inord i) j = s (inord i) j.
Proof. move=> I. rewrite mxE. congr fun_of_matrix. apply: val_inj. by rewrite /= !inordK // (ltn_trans I). Qed.
Lemma hh : half + half = 1.
Proof. by rewrite -mulr2n -[LHS]mulr_natl mulfV // pnatr_eq0. Qed.
Lemma dbl0 (x : F) : x + x = 0 -> x = 0.
Proof. by move/eqP; rewrite -mulr2n mulrn_eq0 /= => /eqP. Qed.
Lemma W4E (a : nat -> F) (i : 'I_4) :
  (combine W4 a) i 0 = a 0%N * half * mean4 F i 0 - a 1%N * half * mean4 F i 1 + a 2%N * half + a 4%N * comp4 F i 0 /\
  (combine W4 a) i 1 = a 1%N * half * mean4 F i 0 + a 0%N * half * mean4 F i 1 + a 3%N * half + a 4%N * comp4 F i 1.
Proof.
  rewrite /combine /W4 /= !big_ord_recl big_ord0 /= !mxE /= /bump /= !add1n. split; mring F.
Qed.
Lemma determined4 : determined W4.
Proof.
  move=> a Z.
  have E i j : (i < 3)%N -> combine W4 a (inord i) j = 0.
    move=> I. by rewrite -up3 // Z mxE.
  have E0 i : (i < 3)%N -> a 0%N * half * mean4 F (inord i) 0 - a 1%N * half * mean4 F (inord i) 1 + a 2%N * half + a 4%N * comp4 F (inord i) 0 = 0.
    move=> I. rewrite -[RHS](E i 0 I). by have [-> _] := W4E a (inord i).
  have E1 i : (i < 3)%N -> a 1%N * half * mean4 F (inord i) 0 + a 0%N * half * mean4 F (inord i) 1 + a 3%N * half + a 4%N * comp4 F (inord i) 1 = 0.
    move=> I. rewrite -[RHS](E i 1 I). by have [_ ->] := W4E a (inord i).
  have x0 := E0 0%N isT. have x1 := E0 1%N isT. have x2 := E0 2%N isT.
  have y0 := E1 0%N isT. have y1 := E1 1%N isT. have y2 := E1 2%N isT.
  rewrite !mean4E // !comp4E //= in x0 x1 x2 y0 y1 y2.
  have A3 : a 3%N * half = 0.
    apply: dbl0. have H := congr2 +%R y0 y2. rewrite addr0 in H. rewrite -[RHS]H. mring F.
  have A1 : a 1%N * half = 0 by rewrite -[RHS]y0 A3; mring F.
  have A0 : a 0%N * half = 0 by rewrite -[RHS]y1 A3; mring F.
  have A2 : a 2%N * half = 0 by apply: dbl0; have H := congr2 +%R x0 x1; rewrite addr0 in H; rewrite -[RHS]H A0 A1; mring F.
  have A4 : a 4%N * half = 0 by rewrite -[RHS]x0 A0 A2; mring F.
  have C x : x * half = 0 -> x = 0 by move/eqP; rewrite mulf_eq0 (negbTE (half0 F)) orbF => /eqP.
  by case=> [|[|[|[|[|]]]]] // _; apply: C.
Qed.

(** The displacement that the basis cannot express: +1, -1, +1, -1 in the second coordinate. *)
Definition comp4y : 'M[F]_(3 + 1, 2) := ModelExample.rot (comp4 F).
Lemma comp4yE (i : nat) (j : 'I_2) : (i < 4)%N -> comp4y (inord i) j = (if j == 0 then 0 else nth 0 [:: half; - half; half; - half] i).
Proof. move=> I. rewrite mxE !comp4E //=. by case: (j == 0); rewrite ?oppr0. Qed.
Lemma comp4i (i : 'I_4) : exists2 p, (p < 4)%N & i = inord p.
Proof. exists i => //. by rewrite inord_val. Qed.
Definition drift : 'M[F]_(3 + 1, 2) := \matrix_(i, j) (- half * mean4 F i j + (if j == 0 then 0 else half)).
Lemma driftE i : drift i 0 = - half * mean4 F i 0 /\ drift i 1 = - half * mean4 F i 1 + half.
Proof. rewrite !mxE /= addr0. by []. Qed.
Lemma rotE i : ModelExample.rot (mean4 F) i 0 = - mean4 F i 1 /\ ModelExample.rot (mean4 F) i 1 = mean4 F i 0.
Proof. by rewrite !mxE. Qed.
Lemma txsE i : txs F 4 i 0 = 1 /\ txs F 4 i 1 = 0. Proof. by rewrite !mxE. Qed.
Lemma tysE i : tys F 4 i 0 = 0 /\ tys F 4 i 1 = 1. Proof. by rewrite !mxE. Qed.
Lemma addE (s t : 'M[F]_(3 + 1, 2)) i j : (s + t) i j = s i j + t i j. Proof. by rewrite mxE. Qed.
Lemma subE (s t : 'M[F]_(3 + 1, 2)) i j : (s - t) i j = s i j - t i j. Proof. by rewrite !mxE. Qed.
Lemma sclE a (s : 'M[F]_(3 + 1, 2)) i j : (a *: s) i j = a * s i j. Proof. by rewrite mxE. Qed.
Lemma ortho2 : orthonormal [:: comp4 F; comp4y].
Proof.
  have H : dot (comp4 F) (comp4 F) = 1 by have := @ortho1 F 0%N 0%N isT isT.
  have Hy : dot comp4y comp4y = 1.
    rewrite -[RHS]H !dotE; apply: eq_bigr => i _. rewrite ![comp4y _ _]mxE /=. mring F.
  have Hxy : dot (comp4 F) comp4y = 0.
    rewrite dotE big1 // => i _. have [p I ->] := comp4i i. rewrite !comp4yE // !comp4E //=. mring F.
  case=> [|[|i]] // [|[|j]] // _ _ /=; rewrite ?H ?Hy ?Hxy //. by rewrite dotC.
Qed.
Lemma ortho24 c c' : c \in [:: comp4 F; comp4y] -> c' \in basis4 F -> dot c c' = 0.
Proof.
  rewrite [c \in _]in_cons mem_seq1 => /orP [/eqP ->|/eqP -> H]; first by apply: ortho14; rewrite inE eqxx.
  have -> : comp4y = lin_part (Sim (-1) 1 0 0) (comp4 F).
    apply/matrixP => i j. have [L0 L1] := lin_partE (Sim (-1) 1 0 0) (comp4 F) i.
    have R0 : comp4y i 0 = - comp4 F i 1 by rewrite mxE. have R1 : comp4y i 1 = comp4 F i 0 by rewrite mxE.
    have [->|->] := ord2 j; rewrite ?L0 ?L1 ?R0 ?R1 /= subrr mul0r mul1r ?sub0r ?addr0 //.
  apply: (orth_lin _ (@basis4_ok F) _ H) => c0 Hc. apply: ortho14 Hc. by rewrite inE.
Qed.

Lemma sum3 (f : 'I_3 -> F) : \sum_i f i = f (inord 0) + (f (inord 1) + f (inord 2)).
Proof. rewrite !big_ord_recl big_ord0 addr0. do ![congr (_ + _)]; congr f; apply: val_inj; by rewrite /= inordK. Qed.
Lemma sum2 (f : 'I_2 -> F) : \sum_i f i = f 0 + f 1.
Proof. rewrite big_ord_recl big_ord1. congr (_ + f _). exact: val_inj. Qed.
(** What set_target makes of the landmarks of S + 2 comp4y, for S in the span of the similarities. *)
Lemma set_target_shifted (d : opdm F (3 + 1)) (g : sim F) (S : 'M[F]_(3 + 1, 2)) :
  m_mean (o_model d) = mean4 F -> o_simcomps d = basis4 F ->
  active (o_model d) = [:: comp4 F] \/ active (o_model d) = [:: comp4 F; comp4y] ->
  similar g (mean4 F) S -> (s_a g + half) ^+ 2 + s_b g ^+ 2 <> 0 ->
  exists l', @linear_set_target F 3 1 (@lsq F 4) (mean4 F) 3 (@first_points F 3 1 (S + 2%:R *: comp4y)) (@Lintrans F 3 1 d W4 (pinv_rows (V_of W4))) = (l', Ok tt) /\
    o_target (l_pdm l') = S + drift.
Proof.
  move=> M Sc Ac G Det. set l := Lintrans _ _.
  have PV : penrose (V_of (l_W l)) (l_pinv_V l) by exact: pinv_rowsP determined4.
  pose g' := Sim (s_a g - half) (s_b g) (s_tx g) (s_ty g + half).
  have G' : similar g' (mean4 F) (S + drift).
    move=> i. have [G0 G1] := G i. have [D0 D1] := driftE i. rewrite !addE G0 G1 D0 D1 /=. split; mring F.
  have [q Q] : exists q : nat -> F, S + drift = combine W4 q.
    exists (fun i => nth 0 [:: (1 + s_a g - half) * 2%:R; s_b g * 2%:R; s_tx g * 2%:R; (s_ty g + half) * 2%:R; 0] i).
    have two x : x * 2%:R * half = x by rewrite mulfK // pnatr_eq0.
    apply/matrixP => i j. have [G0 G1] := G' i. have [W0 W1] := W4E (fun i => nth 0 [:: (1 + s_a g - half) * 2%:R; s_b g * 2%:R; s_tx g * 2%:R; (s_ty g + half) * 2%:R; 0] i) i.
    have [->|->] := ord2 j; rewrite ?G0 ?G1 ?W0 ?W1 /= !two; mring F.
  have D : densify l (@first_points F 3 1 (S + 2%:R *: comp4y)) = S + drift.
    have -> : @first_points F 3 1 (S + 2%:R *: comp4y) = usubmx (combine (l_W l) q) + @first_points F 3 1 (2%:R *: comp4y - drift).
      rewrite -Q -!first_pointsE. apply/matrixP => i j. rewrite ![first_points _ _ _]mxE [RHS]mxE ![first_points _ _ _]mxE.
      rewrite subE !addE. mring F.
    rewrite densify_parts //; first exact: determined4.
    move=> i I. have T : 2%:R * half = half + half by rewrite hh mulfV // pnatr_eq0.
    have Z p : (p < 3)%N -> @first_points F 3 1 (2%:R *: comp4y - drift) (inord p) 0 = half * nth 0 (xs F) p /\
                            @first_points F 3 1 (2%:R *: comp4y - drift) (inord p) 1 = half * nth 0 [:: 1; - (1 + 1); 1] p.
      move=> P. have P' : (p < 4)%N by exact: ltn_trans P _.
      have [D0 D1] := driftE (inord p). rewrite !up3 // !subE !sclE D0 D1 !comp4yE // !mean4E //=.
      case: p P P' D0 D1 => [|[|[|]]] // _ _ _ _ /=; rewrite ?mulrN ?T; split; mring F.
    have Wi p : (p < 3)%N -> lshift 1 (inord p : 'I_3) = inord p :> 'I_4.
      move=> P. apply: val_inj. by rewrite /= !inordK // (ltn_trans P).
    have Z0 := Z 0%N isT. have Z1 := Z 1%N isT. have Z2 := Z 2%N isT. move: Z0 Z1 Z2 => /= [a0 b0] [a1 b1] [a2 b2].
    rewrite sum3 !sum2 a0 b0 a1 b1 a2 b2 !Wi //. case: i I => [|[|[|[|[|]]]]] // _; rewrite [nth _ _ _]/=.
    + rewrite !sclE !mean4E //=. mring F.
    + rewrite !sclE !(rotE _).1 !(rotE _).2 !mean4E //=. mring F.
    + rewrite !sclE !(txsE _).1 !(txsE _).2. mring F.
    + rewrite !sclE !(tysE _).1 !(tysE _).2. mring F.
    + rewrite !comp4E //=. mring F.
  have [i [j R]] : exists i j : 'I_4, row i (mean4 F) <> row j (mean4 F).
    exists (inord 0), (inord 1) => /rowP /(_ 0). rewrite !mxE !inordK //= => /eqP. by rewrite oner_eq0.
  have [|||||||||d' [T [D' _]]] := @instance_fixed F 3 1 (@lsq F 4) d _ _ _ _ _ i j _ g' (nseq (size (active (o_model d))) 0) (S + drift).
  - rewrite Sc. exact: ortho4.
  - case: Ac => ->; [exact: ortho1 | exact: ortho2].
  - move=> c c'. rewrite Sc. case: Ac => ->; [exact: ortho14 | exact: ortho24].
  - rewrite M Sc. exact: basis4_ok.
  - rewrite M. exact: exact4.
  - by rewrite M.
  - rewrite /g' /= => E. apply: Det. rewrite -[RHS]E. congr (_ ^+ 2 + _). rewrite -{2}hh. mring F.
  - by rewrite size_nseq.
  - by rewrite linear_zero M.
  rewrite M in T. rewrite /linear_set_target as_points_same D T. eexists. split; first reflexivity. exact: D'.
Qed.
Lemma drift_moved (S : 'M[F]_(3 + 1, 2)) : @first_points F 3 1 (S + drift) <> @first_points F 3 1 (S + 2%:R *: comp4y).
Proof.
  move=> /matrixP /(_ (inord 1) 1). rewrite !up3 // !addE => /addrI. have [_ ->] := driftE (inord 1).
  rewrite sclE comp4yE // mean4E //= mulr1 addrC subrr mulrN mulfV ?pnatr_eq0 // => /eqP.
  by rewrite eq_sym oppr_eq0 oner_eq0.
Qed.
Lemma half2 : half ^+ 2 <> 0 :> F.
Proof. move/eqP. rewrite sqrf_eq0. by rewrite (negbTE (half0 F)). Qed.
Lemma rows4 : row (inord 0) (mean4 F) <> row (inord 1) (mean4 F).
Proof. move=> /rowP /(_ 0). rewrite !mxE !inordK //= => /eqP. by rewrite oner_eq0. Qed.

(** The hypotheses are met: every instance of the model with scale 2 and any translation is recovered from three landmarks. *)
Example c60_sparse_instances_ex : forall w x y D, similar (Sim 1 0 x y) (linear_shape model4 [:: w]) D ->
  exists l', @linear_set_target F 3 1 (@lsq F 4) (mean4 F) 3 (@first_points F 3 1 D) (lin4 W4) = (l', Ok tt) /\
    o_target (l_pdm l') = D /\ o_sim (l_pdm l') = Sim 1 0 x y /\ o_weights (l_pdm l') = [:: w].
Proof.
  move=> w x y D H.
  have [|l' [T [D' [_ R]]]] := @c60_sparse_instances_partial F 3 1 (@lsq F 4) (lin4 W4) (Sim 1 0 x y) [:: w] D (inord 0) (inord 1)
    (@ortho4 F) (@ortho1 F) (fun c c' => @ortho14 F c c') (@basis4_ok F) (@exact4 F) rows4 erefl (pinv_rowsP determined4) determined4 _ erefl H.
    split=> //=. apply/eqP. by rewrite -(natrD F 1 1) pnatr_eq0.
  by exists l'.
Qed.
End Concrete.

(** Rotated instances: for every field there are a model and an instance of it (a quarter turn) such that setting the landmarks of
    the instance as the target of the new transform gives a target with other landmarks. *)
Theorem c60_rotated_instance_refuted : forall F : realFieldType,
  exists n k align (l : lintrans F n k) g w D,
    let d := l_pdm l in let m := o_model d in
    (orthonormal (o_simcomps d) /\ orthonormal (active m) /\
     (forall c c', c \in active m -> c' \in o_simcomps d -> dot c c' = 0) /\
     similarity_basis (m_mean m) (o_simcomps d) /\ exact_alignment align (m_mean m) /\
     l_W l = o_simcomps d ++ active m /\ penrose (V_of (l_W l)) (l_pinv_V l) /\ determined (l_W l)) /\
    (s_a g = -1 /\ s_b g = 1) /\ size w = size (active m) /\ similar g (linear_shape m w) D /\
    exists l', linear_set_target align (m_mean m) (first_points D) l = (l', Ok tt) /\ sparse_target l' <> first_points D.
Proof.
  move=> F. exists 3%N, 1%N, (@lsq F 4), (lin4 (W4 F)), (Sim (-1) 1 0 0), [:: 2%:R], (ModelExample.rot (mean4 F) + 2%:R *: comp4y F).
  split.
    split; first exact: ortho4. split; first exact: ortho1. split; first by move=> c c'; exact: ortho14.
    split; first exact: basis4_ok. split; first exact: exact4. split=> //.
    split; [exact: (pinv_rowsP (@determined4 F))|exact: (@determined4 F)].
  split=> //. split=> //.
  have R0 (c : 'M[F]_(4, 2)) i : ModelExample.rot c i 0 = - c i 1 by rewrite mxE.
  have R1 (c : 'M[F]_(4, 2)) i : ModelExample.rot c i 1 = c i 0 by rewrite mxE.
  split.
    move=> i. rewrite /linear_shape /= big_ord1 /= !addE !sclE /comp4y !R0 !R1 subrr !mul0r !mul1r sub0r !addr0.
    by rewrite opprD mulrN.
  have [|||l' [T D']] := @set_target_shifted F (pdm4 F) (Sim (-1) 1 0 0) (ModelExample.rot (mean4 F)) erefl erefl.
  - by left.
  - move=> i. rewrite R0 R1 /= subrr !mul0r !mul1r sub0r !addr0. by [].
  - rewrite /= expr1n => /eqP. by rewrite paddr_eq0 ?sqr_ge0 ?ler01 // [1 == 0]oner_eq0 andbF.
  exists l'. split; first exact: T. rewrite /sparse_target D' -first_pointsE. exact: drift_moved.
Qed.
Print Assumptions c60_rotated_instance_refuted.

(** A stale basis: after the number of active components was raised, the landmarks of an instance of the model (even without any
    pose) are no longer recovered. *)
Theorem c60_stale_basis_refuted : forall F : realFieldType,
  exists n k pinv align ortho (m : lmodel F (n + k)) v w,
    let l := (linear_set_active align (m_mean m) v (linear_new pinv align ortho m).1).1 in
    let D := linear_shape (o_model (l_pdm l)) w in
    orthonormal (active (o_model (l_pdm l))) /\ exact_alignment align (m_mean m) /\ size w = size (active (o_model (l_pdm l))) /\
    penrose (V_of (l_W l)) (l_pinv_V l) /\ determined (l_W l) /\
    exists l', linear_set_target align (m_mean m) (first_points D) l = (l', Ok tt) /\ sparse_target l' <> first_points D.
Proof.
  move=> F. pose m : lmodel F (3 + 1) := LModel (mean4 F) [:: comp4 F; comp4y F] 1.
  pose ortho := fun m : lmodel F (3 + 1) => (basis4 F, m).
  exists 3%N, 1%N, (fun p q => @pinv_rows F p q), (@lsq F 4), ortho, m, 2%N, [:: 0; 2%:R].
  set l := (linear_set_active _ _ _ _).1.
  pose m2 : lmodel F (3 + 1) := LModel (mean4 F) [:: comp4 F; comp4y F] 2.
  have [d [L [M Sc]]] : exists d, l = @Lintrans F 3 1 d (W4 F) (pinv_rows (V_of (W4 F))) /\ o_model d = m2 /\ o_simcomps d = basis4 F.
    have [q N] : exists q, opdm_new (@lsq F 4) ortho m = (Opdm m [:: 0] (mean4 F) (lsq (mean4 F) (mean4 F)) (basis4 F) q, Ok tt).
      eexists. rewrite /opdm_new /opdm_construct [ortho _]/ortho. rewrite /opdm_generate instance_ok; last by [].
      rewrite [linear_shape _ _](linear_zero m 1). cbn [bind].
      have := @exact4 F (identity_sim F) (mean4 F) (similar_id _). move/similarP => E. by rewrite [sim_apply _ _](esym E).
    rewrite /l /linear_new N /linear_set_active /opdm_set_active.
    change (set_active _ 2) with (Ok m2). cbn [l_pdm].
    set d0 := Opdm _ _ _ _ _ _.
    have [|||||||||d' [T [D' [_ [_ [M' S']]]]]] := @instance_fixed F 3 1 (@lsq F 4) d0 _ _ _ _ _ (inord 0) (inord 1) _ (identity_sim F) (nseq 2 0) (mean4 F).
    - exact: ortho4. - exact: ortho2. - exact: ortho24. - exact: basis4_ok. - exact: exact4. - exact: rows4.
    - rewrite /= addr0 expr1n expr0n addr0 => /eqP. by rewrite oner_eq0.
    - by []. - rewrite linear_zero. exact: similar_id.
    exists d'. have -> : opdm_sync_state (@lsq F 4) (mean4 F) d0 = (d', Ok tt).
      rewrite -T /opdm_set_target. by [].
    split=> //.
  have Ac : active (o_model (l_pdm l)) = [:: comp4 F; comp4y F] by rewrite L /= M.
  split; first by rewrite Ac; exact: ortho2.
  split; first exact: exact4. split; first by rewrite Ac.
  split; first by rewrite L; exact: (pinv_rowsP (@determined4 F)).
  split; first by rewrite L; exact: determined4.
  have E : linear_shape (o_model (l_pdm l)) [:: 0; 2%:R] = mean4 F + 2%:R *: comp4y F.
    rewrite L /= M /linear_shape /= big_ord_recl big_ord1 /= scale0r add0r. by [].
  have [|||||l' [T D']] := @set_target_shifted F d (identity_sim F) (mean4 F).
  - by rewrite M. - by []. - right. by rewrite M. - exact: similar_id.
  - rewrite /= add0r expr0n addr0. exact: half2.
  exists l'. rewrite E. rewrite L. split; first exact: T. rewrite /sparse_target D' -first_pointsE. exact: drift_moved.
Qed.
Print Assumptions c60_stale_basis_refuted.
