From Verif.Model Require Import Py ModelInstance SimilarityModel Gpa.
From Verif.Spec Require Import ModelInstance Pose Gpa.
From Verif.Proofs Require Import ModelInstance MRing Projection Closest SimilarityModel.
From mathcomp Require Import all_ssreflect all_algebra.
Set Implicit Arguments.
Unset Strict Implicit.
Unset Printing Implicit Defensive.
Import Order.TTheory GRing.Theory Num.Theory.
Local Open Scope ring_scope.

Section Gpa.
Variable F : rcfType.
Variable N : nat.
Notation shape := 'M[F]_(N, 2).
Add Ring Fr : (@r_ring F).

(** The linear part of the alignment. *)
Definition turn_a (s t : shape) : F :=
  let h0 := dot (centred s) (centred t) in let h1 := dot (rotated_ccw (centred s)) (centred t) in
  norm t / norm s * (if len h0 h1 == 0 then 1 else h0 / len h0 h1).
Definition turn_b (s t : shape) : F :=
  let h0 := dot (centred s) (centred t) in let h1 := dot (rotated_ccw (centred s)) (centred t) in
  norm t / norm s * (if len h0 h1 == 0 then 0 else h1 / len h0 h1).
Lemma alignedE (s t : shape) : aligned t s = moved (turn_a s t) (turn_b s t) (centre t 0) (centre t 1) (centred s).
Proof.
  rewrite /aligned movedP /procrustes /= -/(len _ _). set a := turn_a s t. set b := turn_b s t.
  have X i j : centred s i j = s i j - centre s j by rewrite mxE.
  apply/matrixP => i j. rewrite mxE [RHS]mxE !X. rewrite -/(turn_a s t) -/(turn_b s t) -/a -/b.
  case: (ord2 j) => -> /=; mring F.
Qed.

Lemma centre_centred (s : shape) j : (0 < N)%N -> centre (centred s) j = 0.
Proof.
  move=> N0. rewrite /centre. under eq_bigr do rewrite mxE. rewrite sumrB sumr_const card_ord mulrBl -[centre s j *+ N]mulr_natr mulfK ?pnatr_eq0 -?lt0n //.
  by rewrite -/(centre s j) subrr.
Qed.
Lemma aligned_centre (s t : shape) j : (0 < N)%N -> centre (aligned t s) j = centre t j.
Proof.
  move=> N0. rewrite alignedE. have [C0 C1] := moved_centre (turn_a s t) (turn_b s t) (centre t 0) (centre t 1) (centred s) N0.
  case: (ord2 j) => ->; rewrite ?C0 ?C1 !centre_centred // !mulr0 ?subr0 !add0r //.
Qed.
Lemma centreZ c (s : shape) j : centre (c *: s) j = c * centre s j.
Proof. rewrite /centre. under eq_bigr do rewrite mxE. by rewrite -mulr_sumr mulrA. Qed.
Lemma centre_sum (ss : seq shape) j : centre (\sum_(s <- ss) s) j = \sum_(s <- ss) centre s j.
Proof.
  rewrite /centre. under eq_bigr do rewrite summxE. rewrite exchange_big /= mulr_suml. by [].
Qed.
Lemma centre_mean (ss : seq shape) j : (forall s, s \in ss -> centre s j = 0) -> centre (mean_shape ss) j = 0.
Proof.
  move=> H. rewrite /mean_shape centreZ centre_sum big_seq big1 ?mulr0 //.
Qed.
Lemma target_centre m sources k (t : shape) j : (0 < N)%N -> centre t j = 0 -> centre (gpa_target m sources k t) j = 0.
Proof.
  move=> N0. elim: m t => [//|m IH] t C /=. case: ifP => // _. apply: IH. rewrite centreZ centre_mean ?mulr0 // => s /mapP [x _ ->].
  by rewrite aligned_centre.
Qed.

(** The size. *)
Lemma norm_ge0 (s : shape) : 0 <= norm s. Proof. exact: sqrtr_ge0. Qed.
Lemma turn_len (s t : shape) : len (turn_a s t) (turn_b s t) = norm t / norm s.
Proof.
  rewrite /turn_a /turn_b. set h0 := dot _ _. set h1 := dot _ _. set k := _ / _.
  have K : 0 <= k by rewrite divr_ge0 ?norm_ge0.
  have G c u v : 0 <= c -> u ^+ 2 + v ^+ 2 = 1 -> len (c * u) (c * v) = c :> F.
    move=> C U. by rewrite /len !exprMn -mulrDr U mulr1 sqrtr_sqr ger0_norm.
  apply: G => //.
  case: eqP => [_|/eqP L]; first by rewrite expr1n expr0n addr0.
  rewrite !expr_div_n -mulrDl. rewrite /len sqr_sqrtr ?addr_ge0 ?sqr_ge0 // divff //.
  apply: contra L => /eqP L. by rewrite /len L sqrtr0.
Qed.
Lemma aligned_norm (s t : shape) : (0 < N)%N -> norm s != 0 -> norm (aligned t s) = norm t.
Proof.
  move=> N0 S. rewrite alignedE norm_moved // turn_len.
  have -> : norm (centred s) = norm s.
    rewrite /norm. congr (Num.sqrt (dot _ _)); apply/matrixP => i j; by rewrite mxE centre_centred // subr0.
  by rewrite divfK.
Qed.

(** Shapes turned with their target. *)
Lemma rot_moved al be (p : shape) : rotated_ccw (moved al be 0 0 p) = moved al be 0 0 (rotated_ccw p).
Proof.
  apply/matrixP => i j. have [R0 R1] := rotE (moved al be 0 0 p) i. have [S0 S1] := rotE p i.
  case: (ord2 j) => ->; rewrite ?R0 ?R1 [RHS]mxE /= S0 S1 !mxE /=; mring F.
Qed.
Lemma moved_moved a b x y al be u v (p : shape) :
  moved a b x y (moved al be u v p) = moved (a * al - b * be) (a * be + b * al) (a * u - b * v + x) (b * u + a * v + y) p.
Proof. apply/matrixP => i j. rewrite !mxE /=. case: (ord2 j) => -> /=; mring F. Qed.
Lemma aligned_turned al be x y u v (s t : shape) : (0 < N)%N -> al ^+ 2 + be ^+ 2 = 1 ->
  aligned (moved al be u v t) (moved al be x y s) = moved al be u v (aligned t s).
Proof.
  move=> N0 U. rewrite !alignedE.
  have L : len al be = 1 by rewrite /len U sqrtr1.
  have [C0 C1] := moved_centre al be u v t N0.
  have A : turn_a (moved al be x y s) (moved al be u v t) = turn_a s t.
    by rewrite /turn_a !moved_centred // rot_moved !dot_moved_both U !norm_moved // L !mul1r.
  have B : turn_b (moved al be x y s) (moved al be u v t) = turn_b s t.
    by rewrite /turn_b !moved_centred // rot_moved !dot_moved_both U !norm_moved // L !mul1r.
  rewrite A B C0 C1 moved_centred // !moved_moved. congr moved; mring F.
Qed.
Lemma movedZ al be c (s : shape) : moved al be 0 0 (c *: s) = c *: moved al be 0 0 s.
Proof. apply/matrixP => i j. rewrite !mxE. case: (ord2 j) => -> /=; mring F. Qed.
Lemma movedD al be (s t : shape) : moved al be 0 0 (s + t) = moved al be 0 0 s + moved al be 0 0 t.
Proof. apply/matrixP => i j. rewrite !mxE. case: (ord2 j) => -> /=; mring F. Qed.
Lemma moved0 al be : moved al be 0 0 (0 : shape) = 0.
Proof. apply/matrixP => i j. rewrite !mxE. case: (ord2 j) => -> /=; mring F. Qed.
Lemma mean_moved al be (ss : seq shape) : mean_shape [seq moved al be 0 0 s | s <- ss] = moved al be 0 0 (mean_shape ss).
Proof.
  rewrite /mean_shape size_map movedZ. congr (_ *: _). elim: ss => [|s ss IH]; first by rewrite !big_nil moved0.
  by rewrite /= !big_cons IH movedD.
Qed.
Lemma target_turned al be m sources k (t : shape) : (0 < N)%N -> al ^+ 2 + be ^+ 2 = 1 ->
  gpa_target m [seq moved al be 0 0 s | s <- sources] k (moved al be 0 0 t) = moved al be 0 0 (gpa_target m sources k t).
Proof.
  move=> N0 U. elim: m t => [//|m IH] t /=.
  have E : [seq aligned (moved al be 0 0 t) s | s <- [seq moved al be 0 0 s | s <- sources]] = [seq moved al be 0 0 s | s <- [seq aligned t s | s <- sources]].
    rewrite -!map_comp. apply: eq_map => s /=. by rewrite aligned_turned.
  have L : len al be = 1 by rewrite /len U sqrtr1.
  rewrite E mean_moved norm_moved // L mul1r -movedZ.
  set new := _ *: mean_shape _.
  have D : moved al be 0 0 t - moved al be 0 0 new = moved al be 0 0 (t - new).
    rewrite -[- moved _ _ _ _ _]scaleN1r -movedZ -movedD. by rewrite scaleN1r.
  rewrite D dot_moved_both U mul1r. by case: ifP.
Qed.

(** The order. *)
Lemma mean_perm (ss ss' : seq shape) : perm_eq ss ss' -> mean_shape ss = mean_shape ss'.
Proof. move=> P. by rewrite /mean_shape (perm_size P) (perm_big _ P). Qed.
Lemma target_perm m (ss ss' : seq shape) k t : perm_eq ss ss' -> gpa_target m ss k t = gpa_target m ss' k t.
Proof. move=> P. elim: m t => [//|m IH] t /=. by rewrite (mean_perm (perm_map (aligned t) P)) IH. Qed.

(** Copies of one shape. *)
Lemma dot_rotl (p q : shape) : dot (rotated_ccw q) p = - dot (rotated_ccw p) q.
Proof. rewrite !dotE -sumrN. apply: eq_bigr => i _. have [-> ->] := rotE p i. have [-> ->] := rotE q i. mring F. Qed.
Lemma aligned_copy al be x y (s t : shape) : nonzero al be -> correlated s t -> aligned t (moved al be x y s) = aligned t s.
Proof.
  move=> P /correlatedP [N0 H]. rewrite !alignedE moved_centred // moved_moved !mulr0 subrr addr0 !add0r. set p := centred s in H *.
  have L1 := len_nonzero P. have L0 := len_nonzero H. have U : al ^+ 2 + be ^+ 2 = len al be ^+ 2 by rewrite sqr_sqrtr ?addr_ge0 ?sqr_ge0.
  set q := centred t in H L0 *. set h0 := dot p q in H L0 *. set h1 := dot (rotated_ccw p) q in H L0 *.
  have E0 : dot (moved al be 0 0 p) q = al * h0 - (- be) * h1.
    rewrite dotC dot_moved dotC -/h0 dot_rotl -/h1. mring F.
  have E1 : dot (rotated_ccw (moved al be 0 0 p)) q = al * h1 + (- be) * h0.
    rewrite rot_moved dotC dot_moved dotC -/h1 dot_rotl dot_rot_rot -/h0. mring F.
  have Eh : len (al * h0 - - be * h1) (al * h1 + - be * h0) = len al be * len h0 h1.
    rewrite len_mul. congr (_ * _). by rewrite /len sqrrN.
  have A : turn_a (moved al be x y s) t = turn_a s t * al / len al be ^+ 2 + turn_b s t * be / len al be ^+ 2.
    rewrite /turn_a /turn_b moved_centred // -/p -/q E0 E1 -/h0 -/h1 Eh mulf_eq0 (negbTE L0) (negbTE L1) /= norm_moved //.
    rewrite !invfM mulNr opprK. set u := len al be. set n := (len h0 h1)^-1. set k := norm t. set r := (norm s)^-1. mring F.
  have B : turn_b (moved al be x y s) t = turn_b s t * al / len al be ^+ 2 - turn_a s t * be / len al be ^+ 2.
    rewrite /turn_a /turn_b moved_centred // -/p -/q E0 E1 -/h0 -/h1 Eh mulf_eq0 (negbTE L0) (negbTE L1) /= norm_moved //.
    rewrite !invfM. set u := len al be. set n := (len h0 h1)^-1. set k := norm t. set r := (norm s)^-1. mring F.
  rewrite A B. set a := turn_a s t. set b := turn_b s t. set w := len al be ^+ 2 in U *.
  have W : w != 0 by rewrite expf_neq0.
  have Q z : z * (al ^+ 2 + be ^+ 2) / w = z by rewrite U mulfK.
  congr moved.
  - rewrite -[RHS]Q. rewrite !expr2. mring F.
  - rewrite -[RHS]Q. rewrite !expr2. mring F.
Qed.
Lemma norm_neq0 (s : shape) : dot (centred s) (centred s) != 0 -> norm s != 0.
Proof. move=> D. rewrite /norm sqrtr_eq0 -ltNge lt_neqAle eq_sym D. exact: dot_ge0. Qed.
Lemma copy_correlated al be x y (s : shape) : (0 < N)%N -> dot (centred s) (centred s) != 0 -> nonzero al be -> correlated s (moved al be x y s).
Proof.
  move=> N0 D P. apply: correlatedI => //. rewrite moved_centred // !dot_moved dot_rot_rot rot_self !mulr0 subr0 sub0r mulrN opprK.
  case/orP: P => P; rewrite /nonzero; apply/orP; [left|right]; by rewrite mulf_neq0.
Qed.
Lemma mean_nseq n (a : shape) : (0 < n)%N -> mean_shape (nseq n a) = a.
Proof.
  move=> n0. rewrite /mean_shape size_nseq.
  have -> : \sum_(s <- nseq n a) s = n%:R *: a.
    elim: n {n0} => [|n IH]; first by rewrite big_nil scale0r. by rewrite big_cons IH -[n.+1%:R]/((1 + n)%:R) natrD scalerDl scale1r.
  by rewrite scalerA mulVf ?scale1r // pnatr_eq0 -lt0n.
Qed.
Lemma map_same (A : eqType) B (f : A -> B) b l : (forall x, x \in l -> f x = b) -> [seq f x | x <- l] = nseq (size l) b.
Proof.
  elim: l => [//|x l IH] H /=. rewrite H ?mem_head // IH // => y Y. by rewrite H // in_cons Y orbT.
Qed.
(** A copy stays a fixed target. *)
Lemma copies_target m (s : shape) cs t : spread s -> (0 < size cs)%N -> (forall c, c \in cs -> nonzero c.1 c.2) -> correlated s t ->
  let sources := [seq moved c.1 c.2 0 0 s | c <- cs] in
  [seq aligned (gpa_target m sources (norm t) t) x | x <- sources] = nseq (size cs) (aligned t s).
Proof.
  move=> S C0 P C sources. have [N0 D] := spreadP S.
  have AL t' : correlated s t' -> [seq aligned t' x | x <- sources] = nseq (size cs) (aligned t' s).
    move=> C'. rewrite -map_comp. apply: map_same => c /P Pc /=. exact: aligned_copy.
  move: m t C => m t C. move E : (norm t) => k. elim: m t C E => [|m IH] t C E /=; first exact: AL.
  case: ifP => _; first exact: AL. rewrite (AL _ C) mean_nseq // aligned_norm ?norm_neq0 // E divff; last first.
    have [_ Dt] : dot (centred s) (centred s) != 0 /\ dot (centred t) (centred t) != 0.
      split=> //. move/correlatedP: C => [_ H]. apply/negP => /eqP Z. have [A B] := dot_self0 (centred s) Z.
      move: H. by rewrite dotC A dot_rotl B oppr0 /nonzero eqxx.
    rewrite -E. exact: norm_neq0.
  rewrite scale1r. have [_ Det] := correlated_det C.
  have T : aligned t s = moved (1 + s_a (procrustes s t)) (s_b (procrustes s t)) (s_tx (procrustes s t)) (s_ty (procrustes s t)) s.
    by rewrite /aligned movedP.
  have Nz := det_nonzero Det.
  have C' : correlated s (aligned t s) by rewrite T; exact: copy_correlated.
  have E' : aligned (aligned t s) s = aligned t s.
    by rewrite {1}/aligned T procrustes_exact // as_simP.
  rewrite IH ?E' // aligned_norm ?norm_neq0 //.
Qed.
(** The mean of copies. *)
Lemma mean_copies (s : shape) (cs : seq (F * F)) :
  mean_shape [seq moved c.1 c.2 0 0 s | c <- cs] = moved ((size cs)%:R^-1 * \sum_(c <- cs) c.1) ((size cs)%:R^-1 * \sum_(c <- cs) c.2) 0 0 s.
Proof.
  rewrite /mean_shape size_map. set r := _^-1.
  have -> : \sum_(x <- [seq moved c.1 c.2 0 0 s | c <- cs]) x = moved (\sum_(c <- cs) c.1) (\sum_(c <- cs) c.2) 0 0 s.
    elim: cs {r} => [|c cs IH]; rewrite /= ?big_nil ?big_cons ?IH; apply/matrixP => i j; rewrite !mxE; case: (ord2 j) => -> /=; mring F.
  apply/matrixP => i j. rewrite !mxE. case: (ord2 j) => -> /=; mring F.
Qed.
Lemma aligned_self_copy al be (s : shape) : spread s -> nonzero al be -> aligned (moved al be 0 0 s) s = moved al be 0 0 s.
Proof. move=> S P. by rewrite /aligned procrustes_exact // as_simP. Qed.
Lemma spread_centred (s : shape) : spread s -> spread (centred s).
Proof.
  move=> S. have [N0 _] := spreadP S. case: S => i [j [k K]]. exists i, j, k. rewrite !mxE. apply: contra K => /eqP /(congr1 (fun z => z + centre s k)). by rewrite !subrK => ->.
Qed.
Lemma gpaE (ss : seq shape) : (1 < size ss)%N ->
  gpa ss = Ok [seq aligned (gpa_target 100 ss (norm (mean_shape ss)) (mean_shape ss)) s | s <- ss].
Proof. rewrite /gpa leqNgt => /negbTE H. by rewrite [(size ss < 2)%N]H. Qed.
Lemma align_copies (s : shape) (cs : seq (F * F * (F * F))) : spread s -> (1 < size cs)%N -> (forall c, c \in cs -> nonzero c.1.1 c.1.2) ->
  nonzero (\sum_(c <- cs) c.1.1) (\sum_(c <- cs) c.1.2) ->
  align_shapes [seq moved c.1.1 c.1.2 c.2.1 c.2.2 s | c <- cs] =
    Ok (nseq (size cs) (moved ((size cs)%:R^-1 * \sum_(c <- cs) c.1.1) ((size cs)%:R^-1 * \sum_(c <- cs) c.1.2) 0 0 (centred s))).
Proof.
  move=> S C1 P Z. have [N0 D] := spreadP S. have C0 : (0 < size cs)%N by exact: ltnW.
  have R : 0 < (size cs)%:R^-1 :> F by rewrite invr_gt0 ltr0n.
  rewrite /align_shapes gpaE ?size_map //. move: 100%N => m.
  have -> : [seq centred t | t <- [seq moved c.1.1 c.1.2 c.2.1 c.2.2 s | c <- cs]] =
            [seq moved c.1 c.2 0 0 (centred s) | c <- [seq c.1 | c <- cs]].
    rewrite -!map_comp. apply: eq_map => c /=. exact: moved_centred.
  rewrite mean_copies size_map !big_map. set a := _ * \sum_(_ <- _) _. set b := _ * \sum_(_ <- _) _. congr Ok.
  have ab : nonzero a b by rewrite /nonzero /a /b !mulf_eq0 (gt_eqF R).
  have Sc := spread_centred S. have [_ Dc] := spreadP Sc.
  have := @copies_target m (centred s) [seq c.1 | c <- cs] (moved a b 0 0 (centred s)) Sc. rewrite size_map => -> //.
  - by rewrite aligned_self_copy.
  - by move=> c /mapP [x X ->]; apply: P.
  - exact: copy_correlated.
Qed.
(** Turned copies are other shapes. *)
Lemma turned_differs al be (s : shape) : spread s -> al ^+ 2 + be ^+ 2 = 1 -> (al != 1) ->
  moved al be 0 0 (centred s) != centred s.
Proof.
  move=> S U A. have [N0 D] := spreadP S. apply: contra D => /eqP E. apply/eqP. rewrite dotE. apply: big1 => i _.
  have E0 := congr1 (fun m : shape => m i 0) E. have E1 := congr1 (fun m : shape => m i 1) E.
  rewrite mxE /= addr0 in E0. rewrite mxE /= addr0 in E1. set u := centred s i 0 in E0 E1 *. set v := centred s i 1 in E0 E1 *.
  have K : (2%:R * (1 - al)) * (u * u + v * v) = 0.
    have Q : (al * u - be * v - u) ^+ 2 + (be * u + al * v - v) ^+ 2 = 0 by rewrite E0 E1 !subrr expr0n addr0.
    rewrite -[RHS]Q.
    have -> : (al * u - be * v - u) ^+ 2 + (be * u + al * v - v) ^+ 2 = (al ^+ 2 + be ^+ 2 + 1 - 2%:R * al) * (u * u + v * v).
      rewrite !expr2 -[2%:R]/(1 + 1). mring F.
    rewrite U -[2%:R]/(1 + 1). mring F.
  move/eqP: K. by rewrite !mulf_eq0 pnatr_eq0 subr_eq0 [1 == al]eq_sym (negbTE A) /= => /eqP.
Qed.
End Gpa.

(** A loop that stops at the first small step, and after [m] steps. *)
Lemma loopP A (step : A -> A) (small : A -> bool) (loop : nat -> A -> A) : (forall t, loop 0%N t = t) ->
  (forall m t, loop m.+1 t = if small t then t else loop m (step t)) -> forall m t, exists j, (j <= m)%N /\ loop m t = iter j step t /\
  (forall i, (i < j)%N -> ~~ small (iter i step t)) /\ ((j < m)%N -> small (iter j step t)).
Proof.
  move=> L0 LS. elim=> [|m IH] t.
    exists 0%N. by rewrite L0.
  rewrite LS. case Sm: (small t); first by exists 0%N.
  have [j [J [E [H1 H2]]]] := IH (step t). exists j.+1. split=> //. split; first by rewrite iterSr.
  split=> [[|i] I|I]; rewrite ?iterSr /=; [by rewrite Sm|exact: H1|exact: H2].
Qed.
(** The targets, one after the other. *)
Section Targets.
Variable F : rcfType.
Variable N : nat.
Notation shape := 'M[F]_(N, 2).
Add Ring Fr' : (@r_ring F).
Definition next_target (sources : seq shape) (k : F) (t : shape) : shape :=
  let average := mean_shape [seq aligned t s | s <- sources] in (k / norm average) *: average.
Definition step_length (sources : seq shape) (k : F) (t : shape) : F :=
  Num.sqrt (dot (t - next_target sources k t) (t - next_target sources k t)).
Lemma targetS m sources k (t : shape) : gpa_target m.+1 sources k t =
  if step_length sources k t < tolerance F then t else gpa_target m sources k (next_target sources k t).
Proof. by []. Qed.
Lemma targetP m sources k (t : shape) : exists j, (j <= m)%N /\ gpa_target m sources k t = iter j (next_target sources k) t /\
  (forall i, (i < j)%N -> tolerance F <= step_length sources k (iter i (next_target sources k) t)) /\
  ((j < m)%N -> step_length sources k (iter j (next_target sources k) t) < tolerance F).
Proof.
  have [j [J [E [H1 H2]]]] := @loopP _ (next_target sources k) (fun t => step_length sources k t < tolerance F)
    (fun m => gpa_target m sources k) (fun=> erefl) (fun m => targetS m sources k) m t.
  exists j. split; first exact: J. split; first exact: E. split; last exact: H2.
  move=> i I. rewrite leNgt. exact: H1.
Qed.
(** The best angle. *)
Lemma turn_best (s t : shape) al be : norm s != 0 -> al ^+ 2 + be ^+ 2 = turn_a s t ^+ 2 + turn_b s t ^+ 2 ->
  al * dot (centred s) (centred t) + be * dot (rotated_ccw (centred s)) (centred t) <=
  turn_a s t * dot (centred s) (centred t) + turn_b s t * dot (rotated_ccw (centred s)) (centred t).
Proof.
  move=> S. have TL := turn_len s t. move: TL. rewrite /turn_a /turn_b. set h0 := dot _ _. set h1 := dot _ _. set k := _ / _.
  have K : 0 <= k by rewrite divr_ge0 ?norm_ge0. case: eqP => [L|/eqP L] _ E.
  - have [-> ->] : h0 = 0 /\ h1 = 0.
      move: L. rewrite /len => /eqP. rewrite sqrtr_eq0 => L. have Z : h0 ^+ 2 + h1 ^+ 2 = 0 by apply/eqP; rewrite eq_le L addr_ge0 ?sqr_ge0.
      move/eqP: Z. rewrite paddr_eq0 ?sqr_ge0 // !sqrf_eq0 => /andP [/eqP -> /eqP ->]. by [].
    by rewrite !mulr0.
  - set l := len h0 h1 in L E *. have L2 : l ^+ 2 = h0 ^+ 2 + h1 ^+ 2 by rewrite sqr_sqrtr // addr_ge0 ?sqr_ge0.
    have L0 : 0 <= l by exact: sqrtr_ge0.
    have -> : k * (h0 / l) * h0 + k * (h1 / l) * h1 = k * l.
      have -> : k * (h0 / l) * h0 + k * (h1 / l) * h1 = k * ((h0 ^+ 2 + h1 ^+ 2) / l) by rewrite !expr2; mring F.
      by rewrite -L2 expr2 mulfK.
    have E' : al ^+ 2 + be ^+ 2 = k ^+ 2.
      rewrite E ![(k * _) ^+ 2]exprMn -mulrDr !expr_div_n -mulrDl -L2 divff ?mulr1 //. by rewrite sqrf_eq0.
    apply: (@le_trans _ _ `|al * h0 + be * h1|); first exact: ler_norm.
    have Sq u v : 0 <= v -> u ^+ 2 <= v ^+ 2 -> `|u| <= v :> F.
      move=> v0 uv. rewrite leNgt. apply/negP => lt. move: uv. rewrite leNgt => /negP; apply.
      by rewrite -[u ^+ 2]real_normK ?num_real // !expr2 ltr_pmul.
    apply: Sq; first exact: mulr_ge0. rewrite exprMn -E' L2 -subr_ge0.
    have -> : (al ^+ 2 + be ^+ 2) * (h0 ^+ 2 + h1 ^+ 2) - (al * h0 + be * h1) ^+ 2 = (al * h1 - be * h0) ^+ 2 by rewrite !expr2; mring F.
    exact: sqr_ge0.
Qed.
Lemma dotDD (p q r : shape) : dot (p + q - r) (p + q - r) = dot (p - r) (p - r) + 2%:R * dot q (p - r) + dot q q.
Proof.
  have G a b c d e f : (a + b - c) * (a + b - c) + (d + e - f) * (d + e - f) =
    (a - c) * (a - c) + (d - f) * (d - f) + (1 + 1) * (b * (a - c) + e * (d - f)) + (b * b + e * e) :> F by mring F.
  rewrite !dotE -[2%:R]/(1 + 1) mulr_sumr -!big_split. apply: eq_bigr => i _ /=. rewrite !mxE. exact: G.
Qed.
Lemma dot_diff al be (p q : shape) : dot (moved al be 0 0 p - q) (moved al be 0 0 p - q) =
  (al ^+ 2 + be ^+ 2) * dot p p - 2%:R * (al * dot p q + be * dot (rotated_ccw p) q) + dot q q.
Proof.
  have -> : dot (moved al be 0 0 p - q) (moved al be 0 0 p - q) = dot (moved al be 0 0 p) (moved al be 0 0 p) - 2%:R * dot q (moved al be 0 0 p) + dot q q.
    have G a b c d : (a - b) * (a - b) + (c - d) * (c - d) = a * a + c * c - (1 + 1) * (b * a + d * c) + (b * b + d * d) :> F by mring F.
    rewrite !dotE -[2%:R]/(1 + 1) mulr_sumr -sumrB -big_split. apply: eq_bigr => i _ /=.
    have D j : (moved al be 0 0 p - q) i j = moved al be 0 0 p i j - q i j by rewrite mxE [(- q) i j]mxE.
    by rewrite !D G.
  rewrite dot_moved_both dot_moved [dot q p]dotC dot_rotl. mring F.
Qed.
Lemma aligned_best (s t : shape) al be x y : (0 < N)%N -> norm s != 0 -> (forall j, centre t j = 0) ->
  al ^+ 2 + be ^+ 2 = turn_a s t ^+ 2 + turn_b s t ^+ 2 ->
  dot (aligned t s - t) (aligned t s - t) <= dot (moved al be x y s - t) (moved al be x y s - t).
Proof.
  move=> N0 S T E. have Ct : centred t = t by apply/matrixP => i j; rewrite mxE T subr0.
  rewrite alignedE !T. set p := centred s.
  pose cx := al * centre s 0 - be * centre s 1 + x. pose cy := be * centre s 0 + al * centre s 1 + y.
  pose o : shape := \matrix_(i, j) (if j == 0 then cx else cy).
  have -> : moved al be x y s = moved al be 0 0 p + o.
    apply/matrixP => i j. rewrite !mxE. case: (ord2 j) => -> /=; rewrite /cx /cy; mring F.
  rewrite dotDD. have Sc (u : shape) j : (forall j, centre u j = 0) -> \sum_i u i j = 0.
    move=> H. have := H j. rewrite /centre => /eqP. rewrite mulf_eq0 invr_eq0 pnatr_eq0 (gtn_eqF N0) orbF. by move/eqP.
  have P0 j : centre p j = 0 by exact: centre_centred.
  have Z : dot o (moved al be 0 0 p - t) = 0.
    rewrite dotE.
    have -> : \sum_i (o i 0 * (moved al be 0 0 p - t) i 0 + o i 1 * (moved al be 0 0 p - t) i 1) =
              \sum_i ((cx * al + cy * be) * p i 0 + (cy * al - cx * be) * p i 1 - (cx * t i 0 + cy * t i 1)).
      apply: eq_bigr => i _. rewrite !mxE /=. mring F.
    rewrite sumrB !big_split /= -!mulr_sumr !Sc // !mulr0 !addr0 subrr. by [].
  rewrite Z mulr0 addr0. apply: (@le_trans _ _ (dot (moved al be 0 0 p - t) (moved al be 0 0 p - t))); last by rewrite ler_addl dot_ge0.
  rewrite !dot_diff E ler_add2r ler_add2l ler_opp2 ler_wpmul2l ?ler0n //. have := turn_best S E. by rewrite Ct.
Qed.

Lemma extentE (s : shape) : (0 < N)%N -> extent s = 2%:R * N%:R * norm s ^+ 2.
Proof.
  move=> N0. rewrite /norm sqr_sqrtr; last exact: dot_ge0. have [<- _] := centred_dots s s N0. by [].
Qed.
Lemma apartE (s t : shape) : apart s t = dot (s - t) (s - t).
Proof. rewrite dotE. apply: eq_bigr => i _. by rewrite !mxE. Qed.
Lemma extent_eq (s t : shape) : (0 < N)%N -> extent s = extent t -> norm s = norm t.
Proof.
  move=> N0. rewrite !extentE // => H. have NZ : 2%:R * N%:R != 0 :> F by rewrite mulf_neq0 // pnatr_eq0 // -lt0n.
  have := mulfI NZ H. move/eqP. rewrite eqr_expn2 ?norm_ge0 //. by move/eqP.
Qed.
Lemma unmoved (s : shape) : s = moved 1 0 (centre s 0) (centre s 1) (centred s).
Proof.
  have X i j : centred s i j = s i j - centre s j by rewrite mxE.
  apply/matrixP => i j. rewrite [RHS]mxE !X. case: (ord2 j) => -> /=; by rewrite !mul1r !mul0r ?subr0 ?add0r subrK.
Qed.
Lemma centredE (s : shape) : centred s = moved 1 0 (- centre s 0) (- centre s 1) s.
Proof. apply/matrixP => i j. rewrite !mxE. case: (ord2 j) => -> /=; by rewrite !mul1r !mul0r ?subr0 ?add0r. Qed.
Lemma normZ c (s : shape) : (0 < N)%N -> norm (c *: s) = `|c| * norm s.
Proof.
  move=> N0. have -> : c *: s = moved c 0 0 0 s by apply/matrixP => i j; rewrite !mxE; case: (ord2 j) => -> /=; rewrite mul0r ?subr0 ?add0r addr0.
  by rewrite norm_moved // /len expr0n addr0 sqrtr_sqr.
Qed.
Lemma aligned_best_copy (s t : shape) : spread s -> (forall j, centre t j = 0) -> best_copy s t (aligned t (centred s)).
Proof.
  move=> S T. have [N0 D] := spreadP S. have Sc := spread_centred S. have Nz := norm_neq0 (spreadP Sc).2.
  split; [|split].
  - have C : centred (centred s) = centred s by apply/matrixP => i j; rewrite [LHS]mxE centre_centred // subr0.
    rewrite alignedE C {3}centredE moved_moved. by do 4 eexists.
  - rewrite !extentE // aligned_norm //.
  - move=> al be x y E. rewrite !apartE {3 4}(unmoved s) !moved_moved. apply: aligned_best => //.
    rewrite !mulr0 !mulr1 subr0 add0r.
    have E' := extent_eq N0 E. rewrite norm_moved // in E'.
    have Ns : norm (centred s) = norm s.
      rewrite /norm. congr (Num.sqrt (dot _ _)); apply/matrixP => i j; by rewrite mxE centre_centred // subr0.
    have L := turn_len (centred s) t. rewrite Ns in Nz L.
    have Sq u v : u ^+ 2 + v ^+ 2 = len u v ^+ 2 :> F by rewrite sqr_sqrtr ?addr_ge0 ?sqr_ge0.
    by rewrite !Sq L -E' mulfK.
Qed.
End Targets.
