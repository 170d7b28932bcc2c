From Verif.Model Require Import Py ModelInstance SimilarityModel.
From Verif.Spec Require Import ModelInstance Pose.
From Verif.Proofs Require Import ModelInstance MRing Projection Closest.
From mathcomp Require Import all_ssreflect all_algebra.
Set Implicit Arguments.
Unset Strict Implicit.
Unset Printing Implicit Defensive.
Import Order.TTheory GRing.Theory Num.Theory.
Local Open Scope ring_scope.

Section Basis.
Variable F : realFieldType.
Variable N : nat.
Notation shape := 'M[F]_(N, 2).
Add Ring Fr : (@r_ring F).

Lemma rotE (s : shape) i : rotated_ccw s i 0 = - s i 1 /\ rotated_ccw s i 1 = s i 0.
Proof. by rewrite !mxE. Qed.
Lemma movedP (g : sim F) (s : shape) : sim_apply g s = moved (1 + s_a g) (s_b g) (s_tx g) (s_ty g) s.
Proof.
  apply/esym/similarP => i. by rewrite !mxE.
Qed.
Definition as_sim (al be x y : F) : sim F := Sim (al - 1) be x y.
Lemma as_simP al be x y (s : shape) : sim_apply (as_sim al be x y) s = moved al be x y s.
Proof. by rewrite movedP /= addrC subrK. Qed.
Lemma as_sim_det al be x y : sdet (as_sim al be x y) = al ^+ 2 + be ^+ 2.
Proof. by rewrite /sdet /= [1 + _]addrC subrK. Qed.
Lemma nonzero_det al be x y : nonzero al be -> sdet (as_sim al be x y) != 0.
Proof.
  rewrite as_sim_det => H. apply/negP => /eqP E. move: E => /eqP. rewrite paddr_eq0 ?sqr_ge0 // !sqrf_eq0.
  by case/orP: H => /negbTE ->; rewrite ?andbF.
Qed.
Lemma det_nonzero (g : sim F) : sdet g != 0 -> nonzero (1 + s_a g) (s_b g).
Proof.
  rewrite /sdet /nonzero => D. apply/negP => /negP. rewrite negb_or !negbK => /andP [/eqP A /eqP B].
  by rewrite A B expr0n addr0 eqxx in D.
Qed.

(** Composition. *)
Definition compose (t g : sim F) : sim F :=
  let A := 1 + s_a t in let B := s_b t in let a := 1 + s_a g in let b := s_b g in
  Sim (A * a - B * b - 1) (B * a + A * b) (A * s_tx g - B * s_ty g + s_tx t) (B * s_tx g + A * s_ty g + s_ty t).
Lemma compose_apply t g (s : shape) : sim_apply (compose t g) s = sim_apply t (sim_apply g s).
Proof.
  rewrite !movedP /=. apply/matrixP => i j. rewrite !mxE /=. case: (ord2 j) => -> /=; mring F.
Qed.
Lemma compose_det t g : sdet (compose t g) = sdet t * sdet g.
Proof. rewrite /sdet /=. mring F. Qed.

(** The unnormalised similarity model. *)
Lemma similarity_instance (s : shape) w0 w1 w2 w3 :
  instance (similarity_2d_instance_model s) [:: w0; w1; w2; w3] = Ok (moved (1 + w0) w1 w2 w3 s).
Proof.
  rewrite /instance /= /combination /=. congr Ok. rewrite !big_cons big_nil addr0 /=.
  apply/matrixP => i j. have [R0 R1] := rotE s i. move: (rotated_ccw s) R0 R1 => r R0 R1. rewrite !mxE.
  case: (ord2 j) => -> /=; rewrite ?R0 ?R1; mring F.
Qed.

(** The closest similarity transform of the mean moves with the shape. *)
Definition nearest (d : opdm F N) (x : shape) : shape := linear_shape (o_similarity d) (project (o_similarity d) x).
Lemma project_nth (m : lmodel F N) (x : shape) k : (k < size (active m))%N -> nth 0 (project m x) k = dot (x - m_mean m) (nth 0 (active m) k).
Proof. move=> K. by rewrite (nth_map 0). Qed.
Lemma nearest_moves (d : opdm F N) (t : sim F) (x : shape) : orthonormal (o_simcomps d) ->
  similarity_basis (m_mean (o_model d)) (o_simcomps d) -> nearest d (sim_apply t x) = sim_apply t (nearest d x).
Proof.
  move=> O B. set m := o_similarity d. have A : active m = o_simcomps d by rewrite /m /active /= take_size.
  have Om : orthonormal (active m) by rewrite A.
  set e := x - nearest d x. have X : x = nearest d x + e by rewrite addrC subrK.
  have E c : c \in o_simcomps d -> dot e c = 0.
    move=> /(nthP 0) [k K <-]. rewrite -A in K *.
    have -> : e = (x - m_mean m) - \sum_(i < size (active m)) nth 0 (project m x) i *: nth 0 (active m) i.
      by rewrite /e /nearest /linear_shape opprD addrA.
    rewrite dotDl -scaleN1r dotZl span_coeff // project_nth // mulN1r. by rewrite subrr.
  have E' c : c \in o_simcomps d -> dot (lin_part t e) c = 0 by exact: orth_lin.
  have [g G] : exists g, sim_apply g (m_mean m) = nearest d x.
    have [|g /similarP G] := iffLR (B (nearest d x - m_mean m)); last by exists g; rewrite -G addrC subrK.
    exists (project m x). split; first by rewrite project_size A. by rewrite /nearest /linear_shape addrAC subrr add0r A.
  have [w [Sw W]] : exists w, size w = size (active m) /\ sim_apply t (nearest d x) = linear_shape m w.
    have [|w [Sw W]] := iffRL (B (sim_apply t (nearest d x) - m_mean m)).
      exists (compose t g). apply/similarP. by rewrite compose_apply G addrC subrK.
    exists w. rewrite A. split=> //. by rewrite /linear_shape A -W addrC subrK.
  rewrite /nearest -/m. suff -> : project m (sim_apply t x) = w by [].
  rewrite X sim_apply_add W. apply: (@eq_from_nth _ 0); first by rewrite project_size.
  move=> k; rewrite project_size => K. rewrite project_nth // addrAC dotDl E' ?addr0; last by rewrite -A mem_nth.
  by rewrite -project_nth // project_instance.
Qed.
End Basis.

Section Align.
Variable F : rcfType.
Variable N : nat.
Notation shape := 'M[F]_(N, 2).
Add Ring Fr : (@r_ring F).

Lemma moved_centre al be x y (s : shape) : (0 < N)%N ->
  centre (moved al be x y s) 0 = al * centre s 0 - be * centre s 1 + x /\
  centre (moved al be x y s) 1 = be * centre s 0 + al * centre s 1 + y.
Proof.
  move=> N0. have Nn : N%:R != 0 :> F by rewrite pnatr_eq0 -lt0n.
  have S a b c (f : 'I_N -> F) : (forall i, f i = a * s i 0 + b * s i 1 + c) ->
    (\sum_i f i) / N%:R = a * ((\sum_i s i 0) / N%:R) + b * ((\sum_i s i 1) / N%:R) + c.
    move=> H. rewrite (eq_bigr _ (fun i _ => H i)) !big_split /= -!mulr_sumr sumr_const card_ord -[c *+ N]mulr_natr.
    by rewrite !mulrDl mulfK // !mulrA.
  rewrite /centre. split.
  - rewrite (S al (- be) x) ?mulNr // => i. rewrite !mxE /=. mring F.
  - rewrite (S be al y) // => i. by rewrite !mxE.
Qed.
Lemma moved_centred al be x y (s : shape) : (0 < N)%N -> centred (moved al be x y s) = moved al be 0 0 (centred s).
Proof.
  move=> N0. have [C0 C1] := moved_centre al be x y s N0.
  have X i j : centred s i j = s i j - centre s j by rewrite mxE.
  apply/matrixP => i j. rewrite mxE [RHS]mxE !X. case: (ord2 j) => -> /=; rewrite ?C0 ?C1 mxE /=; mring F.
Qed.
Lemma dot_moved al be (p q : shape) : dot p (moved al be 0 0 q) = al * dot p q - be * dot (rotated_ccw p) q.
Proof.
  rewrite !dotE !mulr_sumr -sumrB. apply: eq_bigr => i _. have [-> ->] := rotE p i. rewrite !mxE /=. mring F.
Qed.
Lemma dot_rot_rot (p q : shape) : dot (rotated_ccw (rotated_ccw p)) q = - dot p q.
Proof.
  rewrite !dotE -sumrN. apply: eq_bigr => i _. have [-> ->] := rotE (rotated_ccw p) i. have [-> ->] := rotE p i. mring F.
Qed.
Lemma dot_moved_both al be (p q : shape) : dot (moved al be 0 0 p) (moved al be 0 0 q) = (al ^+ 2 + be ^+ 2) * dot p q.
Proof. rewrite !dotE mulr_sumr. apply: eq_bigr => i _. rewrite !mxE /= !expr2. mring F. Qed.
Lemma rot_self (p : shape) : dot (rotated_ccw p) p = 0.
Proof. rewrite dotE big1 // => i _. have [-> ->] := rotE p i. mring F. Qed.

(** The size of a complex number. *)
Definition len (a b : F) : F := Num.sqrt (a ^+ 2 + b ^+ 2).
Lemma len0 a b : len a b = 0 -> a = 0 /\ b = 0.
Proof.
  rewrite /len => /eqP. rewrite sqrtr_eq0 => L. have P : a ^+ 2 + b ^+ 2 == 0 by rewrite eq_le L addr_ge0 ?sqr_ge0.
  move: P. by rewrite paddr_eq0 ?sqr_ge0 // !sqrf_eq0 => /andP [/eqP -> /eqP ->].
Qed.
Lemma len_mul a b c d : len (a * c - b * d) (a * d + b * c) = len a b * len c d.
Proof.
  rewrite /len -sqrtrM ?addr_ge0 ?sqr_ge0 //. congr Num.sqrt. rewrite !expr2. mring F.
Qed.
Lemma len_nonzero a b : nonzero a b -> len a b != 0.
Proof. move=> P. apply/negP => /eqP /len0 [A B]. by rewrite /nonzero A B eqxx in P. Qed.

(** [correlated] in terms of the centred shapes. *)
Lemma pair_sum (f g : 'I_N -> F) (mf mg : F) : (0 < N)%N -> mf = (\sum_i f i) / N%:R -> mg = (\sum_i g i) / N%:R ->
  \sum_i \sum_j (f i - f j) * (g i - g j) = 2%:R * N%:R * \sum_i (f i - mf) * (g i - mg).
Proof.
  move=> N0 Mf Mg. have Nn : N%:R != 0 :> F by rewrite pnatr_eq0 -lt0n.
  have Sf : \sum_i f i = N%:R * mf by rewrite Mf mulrC mulfVK.
  have Sg : \sum_i g i = N%:R * mg by rewrite Mg mulrC mulfVK.
  have C (a : F) : \sum_(i < N) a = N%:R * a by rewrite sumr_const card_ord mulr_natl.
  set P := \sum_i f i * g i.
  have L : \sum_i \sum_j (f i - f j) * (g i - g j) = 2%:R * N%:R * P - 2%:R * (N%:R * mf) * (N%:R * mg).
    have I i : \sum_j (f i - f j) * (g i - g j) = N%:R * (f i * g i) - f i * (N%:R * mg) - (N%:R * mf) * g i + P.
      rewrite -Sf -Sg -C mulr_sumr mulr_suml /P -!sumrB -big_split /=. apply: eq_bigr => j _. mring F.
    rewrite (eq_bigr _ (fun i _ => I i)) big_split /= !sumrB -!mulr_sumr -mulr_suml Sf Sg C -/P. mring F.
  have R : \sum_i (f i - mf) * (g i - mg) = P - N%:R * mf * mg.
    have -> : \sum_i (f i - mf) * (g i - mg) = \sum_i (f i * g i - f i * mg - mf * g i + mf * mg) by apply: eq_bigr => i _; mring F.
    rewrite big_split /= !sumrB -mulr_suml -mulr_sumr Sf Sg C -/P. mring F.
  rewrite L R. mring F.
Qed.
Lemma centred_dots (s t : shape) : (0 < N)%N ->
  \sum_i \sum_j ((s i 0 - s j 0) * (t i 0 - t j 0) + (s i 1 - s j 1) * (t i 1 - t j 1)) = 2%:R * N%:R * dot (centred s) (centred t) /\
  \sum_i \sum_j ((s i 0 - s j 0) * (t i 1 - t j 1) - (s i 1 - s j 1) * (t i 0 - t j 0)) = 2%:R * N%:R * dot (rotated_ccw (centred s)) (centred t).
Proof.
  move=> N0. have K (u v : shape) a b : \sum_i \sum_j (u i a - u j a) * (v i b - v j b) = 2%:R * N%:R * \sum_i centred u i a * centred v i b.
    rewrite (@pair_sum (fun i => u i a) (fun i => v i b) (centre u a) (centre v b)) //. congr (_ * _). apply: eq_bigr => i _. by rewrite !mxE.
  split.
  - rewrite dotE big_split mulrDr -!K -big_split. apply: eq_bigr => i _. by rewrite -big_split.
  - have -> : dot (rotated_ccw (centred s)) (centred t) = \sum_i centred s i 0 * centred t i 1 - \sum_i centred s i 1 * centred t i 0.
      rewrite dotE -sumrB. apply: eq_bigr => i _. have [-> ->] := rotE (centred s) i. by rewrite mulNr addrC.
    rewrite mulrBr -!K -sumrB. apply: eq_bigr => i _. by rewrite -sumrB.
Qed.
Lemma correlatedP (s t : shape) : correlated s t ->
  (0 < N)%N /\ nonzero (dot (centred s) (centred t)) (dot (rotated_ccw (centred s)) (centred t)).
Proof.
  case: (posnP N) => [N0|N0].
    rewrite /correlated. have Z (f : 'I_N -> F) : \sum_i f i = 0 by rewrite big1 // => i _; have := ltn_ord i; rewrite [X in (_ < X)%N]N0.
    by rewrite !Z eqxx => -[].
  move=> C; split=> //. have [E0 E1] := centred_dots s t N0. rewrite /correlated E0 E1 in C. rewrite /nonzero.
  by case: C => /negP C; apply/orP; [left|right]; apply/negP => /eqP H; apply: C; rewrite H mulr0.
Qed.
Lemma correlatedI (s t : shape) : (0 < N)%N -> nonzero (dot (centred s) (centred t)) (dot (rotated_ccw (centred s)) (centred t)) -> correlated s t.
Proof.
  move=> N0 P. have [E0 E1] := centred_dots s t N0. rewrite /correlated E0 E1.
  have K : 2%:R * N%:R != 0 :> F by rewrite mulf_neq0 // pnatr_eq0 // -lt0n.
  by case/orP: P => P; [left|right]; rewrite mulf_neq0.
Qed.
Lemma spreadP (s : shape) : spread s -> (0 < N)%N /\ dot (centred s) (centred s) != 0.
Proof.
  move=> [i [j [k K]]]. have N0 : (0 < N)%N by case: N i {j s k K} => [[]|].
  split=> //. apply/negP => /eqP D.
  have Z a b : centred s a b = 0.
    have : \sum_i \sum_j centred s i j * centred s i j == 0 by rewrite -/(dot _ _) D.
    rewrite psumr_eq0; last by move=> u _; apply: sumr_ge0 => v _; rewrite -expr2 sqr_ge0.
    move=> /allP /(_ a (mem_index_enum _)) /=. rewrite psumr_eq0; last by move=> v _; rewrite -expr2 sqr_ge0.
    move=> /allP /(_ b (mem_index_enum _)) /=. by rewrite mulf_eq0 orbb => /eqP.
  have := Z i k. have := Z j k. rewrite !mxE => /eqP. rewrite subr_eq0 => /eqP J /eqP. rewrite subr_eq0 => /eqP I.
  by rewrite I J eqxx in K.
Qed.

(** The alignment follows its target. *)
Lemma norm_moved al be x y (t : shape) : (0 < N)%N -> norm (moved al be x y t) = len al be * norm t.
Proof. move=> N0. by rewrite /norm moved_centred // dot_moved_both sqrtrM ?addr_ge0 ?sqr_ge0. Qed.

Lemma procrustes_moves al be x y (s t : shape) : nonzero al be -> correlated s t ->
  procrustes s (moved al be x y t) = compose (as_sim al be x y) (procrustes s t).
Proof.
  move=> P /correlatedP [N0]. rewrite /procrustes. set p := centred s. set q := centred t.
  rewrite moved_centred // -/q !dot_moved dot_rot_rot norm_moved //.
  have [-> ->] := moved_centre al be x y t N0.
  set h0 := dot p q. set h1 := dot (rotated_ccw p) q => H.
  have L0 := len_nonzero H. have L1 := len_nonzero P.
  rewrite -!/(len _ _).
  have -> : len (al * h0 - be * h1) (al * h1 - be * - h0) = len al be * len h0 h1 by rewrite mulrN opprK len_mul.
  rewrite mulf_eq0 (negbTE L0) (negbTE L1) /= /compose /=.
  set u := len al be in L1 *. set n := len h0 h1 in L0 *. set k := norm t / norm s.
  have K f : u * norm t / norm s * (f / (u * n)) = k * (f / n).
    rewrite invfM /k. rewrite -[u * norm t / norm s]mulrA -/k. rewrite [u * k]mulrC -[k * u * _]mulrA. congr (k * _).
    by rewrite mulrCA [u * _]mulrA mulfV // mul1r.
  rewrite !K. set c := k * (h0 / n). set d := k * (h1 / n).
  have A0 : k * ((al * h0 - be * h1) / n) = al * c - be * d by rewrite /c /d mulrBl; mring F.
  have A1 : k * ((al * h1 - be * - h0) / n) = be * c + al * d by rewrite /c /d mulrBl; mring F.
  rewrite A0 A1. have Z (a : F) : 1 + (a - 1) = a by rewrite addrC subrK. rewrite !Z.
  congr Sim; mring F.
Qed.
Lemma procrustes_self' (s : shape) : (0 < N)%N -> dot (centred s) (centred s) != 0 -> procrustes s s = as_sim 1 0 0 0.
Proof.
  move=> N0 D. rewrite /procrustes. set p := centred s in D *. rewrite rot_self.
  have G : 0 <= dot p p by exact: dot_ge0.
  have N1 : norm s != 0.
    apply/negP. rewrite /norm -/p sqrtr_eq0 => L. move/negP: D; apply. by rewrite eq_le L.
  rewrite divff // !mul1r [0 ^+ 2]expr2 mulr0 addr0 sqrtr_sqr ger0_norm // (negbTE D) divff // mul0r.
  rewrite /as_sim. congr Sim; mring F.
Qed.
Lemma procrustes_self (s : shape) : spread s -> procrustes s s = as_sim 1 0 0 0.
Proof. move=> /spreadP [N0 D]. exact: procrustes_self'. Qed.
Lemma spread_correlated (s : shape) : spread s -> correlated s s.
Proof. move=> /spreadP [N0 D]. apply: correlatedI => //. by rewrite /nonzero D. Qed.
Lemma procrustes_exact' al be x y (s : shape) : (0 < N)%N -> dot (centred s) (centred s) != 0 -> nonzero al be ->
  procrustes s (moved al be x y s) = as_sim al be x y.
Proof.
  move=> N0 D P. rewrite procrustes_moves //; last by apply: correlatedI => //; rewrite /nonzero D.
  rewrite procrustes_self' // /compose /=. rewrite /as_sim. congr Sim; mring F.
Qed.
Lemma procrustes_exact al be x y (s : shape) : spread s -> nonzero al be -> procrustes s (moved al be x y s) = as_sim al be x y.
Proof. move=> /spreadP [N0 D]. exact: procrustes_exact'. Qed.
Lemma dot_self0 (p q : shape) : dot p p = 0 -> dot p q = 0 /\ dot (rotated_ccw p) q = 0.
Proof.
  move=> D. have Z a b : p a b = 0.
    have : \sum_i \sum_j p i j * p i j == 0 by rewrite -/(dot _ _) D.
    rewrite psumr_eq0; last by move=> u _; apply: sumr_ge0 => v _; rewrite -expr2 sqr_ge0.
    move=> /allP /(_ a (mem_index_enum _)) /=. rewrite psumr_eq0; last by move=> v _; rewrite -expr2 sqr_ge0.
    move=> /allP /(_ b (mem_index_enum _)) /=. by rewrite mulf_eq0 orbb => /eqP.
  rewrite !dotE. split; rewrite big1 // => i _; last have [-> ->] := rotE p i; rewrite !Z ?oppr0 !mul0r; exact: addr0.
Qed.
(** The alignment of a shape that has a best angle is invertible. *)
Lemma correlated_det (s t : shape) : correlated s t -> dot (centred s) (centred s) != 0 /\ sdet (procrustes s t) != 0.
Proof.
  move=> /correlatedP [N0 H].
  have Ds : dot (centred s) (centred s) != 0.
    apply/negP => /eqP /dot_self0 D. have [A B] := D (centred t). by rewrite A B /nonzero eqxx in H.
  have Dt : dot (centred t) (centred t) != 0.
    apply/negP => /eqP D. have [A _] := dot_self0 (centred s) D. have [B _] := dot_self0 (rotated_ccw (centred s)) D.
    by rewrite dotC A dotC B /nonzero eqxx in H.
  split=> //. have L := len_nonzero H. rewrite /procrustes /sdet /=. set h0 := dot _ _ in H L *. set h1 := dot (rotated_ccw _) _ in H L *.
  rewrite -/(len h0 h1) (negbTE L) [1 + _]addrC subrK. set n := len h0 h1 in L *. set k := norm t / norm s.
  have Nz (u : shape) : dot (centred u) (centred u) != 0 -> norm u != 0.
    move=> D. apply/negP. rewrite /norm sqrtr_eq0 => U. move/negP: D; apply. by rewrite eq_le U dot_ge0.
  have K : k != 0 by rewrite mulf_neq0 ?invr_eq0 // Nz.
  have n2 : n ^+ 2 = h0 ^+ 2 + h1 ^+ 2 by rewrite sqr_sqrtr // addr_ge0 ?sqr_ge0.
  have E : (k * (h0 / n)) ^+ 2 + (k * (h1 / n)) ^+ 2 = k ^+ 2.
    clearbody k n. by rewrite !exprMn -mulrDr -mulrDl -n2 -exprMn mulfV // expr1n mulr1.
  by rewrite E sqrf_eq0.
Qed.
(** A shape that has no best angle has no size either when it is a similarity transform of the source. *)
Lemma uncorrelated_degenerate al be x y (s : shape) : (0 < N)%N ->
  sdet (procrustes s (moved al be x y s)) != 0 -> correlated s (moved al be x y s).
Proof.
  move=> N0 D. apply: correlatedI => //. rewrite moved_centred // !dot_moved rot_self dot_rot_rot.
  set p := centred s in D *. rewrite mulr0 subr0 mulr0 sub0r mulrN opprK.
  apply/negP => /negP. rewrite /nonzero negb_or !negbK => /andP [/eqP A /eqP B].
  have Z : norm (moved al be x y s) = 0.
    rewrite /norm moved_centred // dot_moved_both mulrDl !expr2 -!mulrA A B !mulr0 addr0. exact: sqrtr0.
  move: D. rewrite /procrustes Z mul0r !mul0r /sdet /= [1 + _]addrC subrK expr0n addr0. by rewrite eqxx.
Qed.

(** Models. *)
Lemma gpdm_moves (d d1 : gpdm F N) src t al be x y : nonzero al be -> correlated src t ->
  gpdm_set_target (@procrustes F N) src t d = (d1, Ok tt) ->
  exists2 d2, gpdm_set_target (@procrustes F N) src (moved al be x y t) d = (d2, Ok tt) &
    g_weights d2 = g_weights d1 /\ g_target d2 = moved al be x y (g_target d1) /\ g_model d2 = g_model d1.
Proof.
  move=> P C. rewrite /gpdm_set_target /gpdm_sync_state /= procrustes_moves //. set g := procrustes src t.
  case E : sim_pinv_apply => [t0|] //. have [D T] := pinv_inv E.
  have -> : sim_pinv_apply (compose (as_sim al be x y) g) (moved al be x y t) = Ok t0.
    rewrite [in moved _ _ _ _ t]T -as_simP -compose_apply. apply: pinv_apply. by rewrite compose_det mulf_neq0 // nonzero_det.
  rewrite /gpdm_generate /= instance_ok ?project_size //= => -[<-] /=.
  eexists; first by reflexivity. by rewrite /= compose_apply as_simP.
Qed.

Lemma opdm_set_targetE (d : opdm F N) src t : opdm_set_target (@procrustes F N) src t d =
  let q := project (o_similarity d) t in let g := procrustes src (nearest d t) in
  match sim_pinv_apply g t with
  | Err e => (Opdm (o_model d) (o_weights d) t g (o_simcomps d) q, Err e)
  | Ok t0 => let w := project (o_model d) t0 in
      (Opdm (o_model d) w (sim_apply g (linear_shape (o_model d) w)) g (o_simcomps d) q, Ok tt)
  end.
Proof.
  rewrite /opdm_set_target /opdm_sync_state /opdm_update_global /=.
  have -> : forall (w : seq F) t' g' q', o_similarity (Opdm (o_model d) w t' g' (o_simcomps d) q') = o_similarity d by [].
  rewrite instance_ok ?project_size // -/(nearest d t) /=. case: sim_pinv_apply => [t0|] //.
  by rewrite /opdm_regenerate /opdm_generate /= instance_ok ?project_size.
Qed.
Lemma opdm_moves (d d1 : opdm F N) src t al be x y : orthonormal (o_simcomps d) ->
  similarity_basis (m_mean (o_model d)) (o_simcomps d) -> nonzero al be -> correlated src (nearest d t) ->
  opdm_set_target (@procrustes F N) src t d = (d1, Ok tt) ->
  exists2 d2, opdm_set_target (@procrustes F N) src (moved al be x y t) d = (d2, Ok tt) &
    o_weights d2 = o_weights d1 /\ o_target d2 = moved al be x y (o_target d1) /\ o_model d2 = o_model d1.
Proof.
  move=> O B P C. rewrite !opdm_set_targetE /=.
  have -> : nearest d (moved al be x y t) = moved al be x y (nearest d t) by rewrite -as_simP nearest_moves // as_simP.
  rewrite procrustes_moves //. set g := procrustes src (nearest d t).
  case E : sim_pinv_apply => [t0|] //. have [D T] := pinv_inv E.
  have -> : sim_pinv_apply (compose (as_sim al be x y) g) (moved al be x y t) = Ok t0.
    rewrite [in moved _ _ _ _ t]T -as_simP -compose_apply. apply: pinv_apply. by rewrite compose_det mulf_neq0 // nonzero_det.
  move=> -[<-] /=. eexists; first by reflexivity. by rewrite /= compose_apply as_simP.
Qed.
Lemma opdm_correlated (d d1 : opdm F N) t : (0 < N)%N -> orthonormal (o_simcomps d) ->
  similarity_basis (m_mean (o_model d)) (o_simcomps d) ->
  opdm_set_target (@procrustes F N) (m_mean (o_model d)) t d = (d1, Ok tt) -> correlated (m_mean (o_model d)) (nearest d t).
Proof.
  move=> N0 O B. rewrite opdm_set_targetE /=. case E : sim_pinv_apply => [t0|] // _. have [D _] := pinv_inv E.
  set m := o_similarity d in E D *. have A : active m = o_simcomps d by rewrite /m /active /= take_size.
  have [|g /similarP] := iffLR (B (nearest d t - m_mean m)).
    exists (project m t). split; first by rewrite project_size A. by rewrite /nearest /linear_shape addrAC subrr add0r A.
  rewrite addrC subrK movedP => G. rewrite G in D *. exact: uncorrelated_degenerate.
Qed.

(** A moved copy of the mean. *)
Lemma project_mean (m : lmodel F N) : project m (m_mean m) = nseq (size (active m)) 0.
Proof.
  apply: (@eq_from_nth _ 0); rewrite project_size ?size_nseq // => k K. by rewrite project_nth // subrr dot0l nth_nseq K.
Qed.
Lemma opdm_mean (d : opdm F N) al be x y : orthonormal (o_simcomps d) ->
  similarity_basis (m_mean (o_model d)) (o_simcomps d) -> spread (m_mean (o_model d)) -> nonzero al be ->
  exists d1, opdm_set_target (@procrustes F N) (m_mean (o_model d)) (moved al be x y (m_mean (o_model d))) d = (d1, Ok tt) /\
    o_target d1 = moved al be x y (m_mean (o_model d)) /\ o_weights d1 = nseq (size (active (o_model d))) 0.
Proof.
  move=> O B S P. rewrite opdm_set_targetE /=. set m := m_mean (o_model d).
  have Nm : nearest d m = m by rewrite /nearest (@project_mean (o_similarity d)) linear_zero.
  have -> : nearest d (moved al be x y m) = moved al be x y m by rewrite -!as_simP nearest_moves // Nm.
  rewrite procrustes_exact // -{1}as_simP pinv_apply ?nonzero_det //. eexists; split; first by reflexivity.
  rewrite /= project_mean. split=> //. by rewrite linear_zero as_simP.
Qed.
Lemma gsm_all (d : gsm F N) t al be x y : nonzero al be ->
  (correlated (gs_mean d) t -> gs_target (gsm_set_target (moved al be x y t) d) = moved al be x y (gs_target (gsm_set_target t d))) /\
  (spread (gs_mean d) -> gs_target (gsm_set_target (moved al be x y (gs_mean d)) d) = moved al be x y (gs_mean d)) /\
  (spread (gs_mean d) -> gs_target (gsm_new (gs_mean d)) = gs_mean d /\ gsm_set_target (gs_mean d) (gsm_new (gs_mean d)) = gsm_new (gs_mean d)) /\
  (correlated (gs_mean d) t -> gsm_set_target (gs_target (gsm_set_target t d)) (gsm_set_target t d) = gsm_set_target t d) /\
  gsm_from_vector (gsm_vector (gsm_set_target t d)) d = (gsm_set_target t d, Ok tt).
Proof.
  move=> P. rewrite /gsm_set_target /gsm_new /gsm_vector /gsm_from_vector /=. set m := gs_mean d.
  split; first by move=> C; rewrite procrustes_moves // compose_apply as_simP.
  split; first by move=> S; rewrite procrustes_exact // as_simP.
  split.
    move=> S; split=> //. rewrite procrustes_self // as_simP. congr Gsm. apply/matrixP => i j. rewrite mxE. case: (ord2 j) => -> /=; mring F.
  split=> //. move=> C. have [D K] := correlated_det C. have [N0 _] := correlatedP C.
  have E : procrustes m (sim_apply (procrustes m t) m) = procrustes m t.
    rewrite movedP procrustes_exact' //; last exact: det_nonzero.
    case: (procrustes m t) => a b u v /=. by rewrite /as_sim /= addrAC subrr add0r.
  by rewrite E.
Qed.
End Align.
