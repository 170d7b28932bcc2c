(** C61, C62, C64, C65: the residuals of Lucas-Kanade fitting. *)
From Coq Require Import BinNums BinPos.
From Verif.Model Require Import Py LinAlg Residual.
From Verif.Spec Require Import LinAlg Residual.
From Verif.Proofs Require Import LinAlg Residual MRing.
From mathcomp Require Import all_ssreflect all_algebra.
Set Implicit Arguments.
Unset Strict Implicit.
Unset Printing Implicit Defensive.
Import Order.TTheory GRing.Theory Num.Theory.
Local Open Scope ring_scope.

Section Aux.
Variable F : rcfType.
Add Ring Fr : (@r_ring F).
Lemma unit_pair (a b c d : F) : a ^+ 2 + b ^+ 2 = 1 -> c ^+ 2 + d ^+ 2 = 1 ->
  (-1 <= a * c + b * d /\ a * c + b * d <= 1) /\ (a * c + b * d = 1 -> a = c /\ b = d).
Proof.
  move=> U V. have E : (a - c) ^+ 2 + (b - d) ^+ 2 = (a ^+ 2 + b ^+ 2) + (c ^+ 2 + d ^+ 2) - ((a * c + b * d) + (a * c + b * d)) by mring F.
  have E' : (a + c) ^+ 2 + (b + d) ^+ 2 = (a ^+ 2 + b ^+ 2) + (c ^+ 2 + d ^+ 2) + ((a * c + b * d) + (a * c + b * d)) by mring F.
  have P : 0 <= (a - c) ^+ 2 + (b - d) ^+ 2 by rewrite addr_ge0 ?sqr_ge0. have P' : 0 <= (a + c) ^+ 2 + (b + d) ^+ 2 by rewrite addr_ge0 ?sqr_ge0.
  have D (x : F) : x + x = 2%:R * x by rewrite mulr_natl mulr2n.
  rewrite E U V !D -mulrBr pmulr_rge0 ?ltr0n // subr_ge0 in P. rewrite E' U V !D -mulrDr pmulr_rge0 ?ltr0n // -ler_subl_addl sub0r in P'.
  split=> // H. move/eqP: E; rewrite U V H subrr paddr_eq0 ?sqr_ge0 // !sqrf_eq0 !subr_eq0 => /andP [/eqP -> /eqP ->]. by [].
Qed.
End Aux.

Section Props.
Variable F : rcfType.
Variables k p big : nat.
Variable gradient_here : 'cV[F]_k -> 'cV[F]_k * 'cV[F]_k.
Variable gradient_whole : 'cV[F]_big -> 'cV[F]_k * 'cV[F]_k.
Variable regularise : 'cV[F]_k * 'cV[F]_k -> 'cV[F]_k * 'cV[F]_k.
Notation res_of c := (residual_of p gradient_here gradient_whole regularise c).

(** ** C61 *)
(** With any residual: if the warped image equals the template and the steepest descent images have full rank, then the
    inverse compositional and the forward compositional increments exist and are zero. *)
Theorem c61_inverse : forall c dW t st sdi, (0 < k)%N -> r_sdi (res_of c) (Here _ t) dW = Ok (st, sdi) -> full_rank sdi ->
  exists cost, inverse_step (res_of c) dW t t = Ok (0, cost) /\ compositional_step (res_of c) dW t t = Ok (0, cost).
Proof.
  move=> c dW t st sdi K S R. rewrite /compositional_step /forward_step /inverse_step S /=.
  case: c st sdi S R => st sdi S R; rewrite /= /np_solve ?(gram_unit R) /=.
  - by rewrite subrr !mulmx0 oppr0; eexists.
  - rewrite /np_inv (gram_unit R) /= /ecc_update. move: S => /=. case E: (normalise t) => [w|] //= [_ _].
    have [_ _ W] := normalise_Ok E. rewrite (ecc_factor_same (gram_unit R) W) scale1r subrr mulmx0 /= /np_solve (gram_unit R) /= mulmx0 oppr0.
    by exists (dot w w).
  - move: S => [<- _]. rewrite /gi_error subrr !mulmx0 oppr0. by eexists.
  - move: S => [<- _]. rewrite (gc_qp_same (@orientation_unit _ _ _)) gc_error_same mulmx0 scaler0. have K' : (k%:R == 0 :> F) = false by rewrite pnatr_eq0; case: k K.
    by rewrite K' /= !mulmx0 oppr0; eexists.
Qed.
(** Likewise for forward additive fitting with SSD and ECC. *)
Theorem c61_additive : forall c dW im t st sdi, c = SSD \/ c = ECC -> (exists u, c = ECC -> normalise t = Ok u) ->
  r_sdi (res_of c) (Whole _ im) dW = Ok (st, sdi) -> full_rank sdi ->
  exists cost, additive_step (res_of c) im dW t t = Ok (0, cost).
Proof.
  move=> c dW im t st sdi C [u U] S R. rewrite /additive_step /forward_step S /=.
  case: c C U st sdi S R => C U st sdi S R; rewrite /= /np_solve ?(gram_unit R) /=; try by case: C.
  - by rewrite subrr !mulmx0 oppr0; eexists.
  - rewrite /np_inv (gram_unit R) /= /ecc_update (U erefl) /=.
    have [_ _ W] := normalise_Ok (U erefl). rewrite (ecc_factor_same (gram_unit R) W) scale1r subrr mulmx0 /= /np_solve (gram_unit R) /= mulmx0 oppr0.
    by exists (dot u u).
Qed.

(** ** C62 *)
(** The cost of the sum of squared differences is what its name says; it is zero exactly for identical images. *)
Theorem c62_ssd_cost : forall s dW w t dp cost, forward_step (res_of SSD) s dW w t = Ok (dp, cost) ->
  cost = \sum_i (w i 0 - t i 0) ^+ 2 /\ (cost = 0 <-> w = t).
Proof.
  move=> s dW w t dp cost. rewrite /forward_step /= /np_solve. case: ifP => // _ [_ <-].
  split; first by rewrite dotE; apply: eq_bigr => i _; rewrite !mxE expr2.
  split; last by move=> ->; rewrite subrr dotE big1 // => i _; rewrite mxE mul0r.
  by move=> /dot_eq0 H; apply/eqP; rewrite -subr_eq0 H.
Qed.
(** The SSD increment is the only one that brings the warped image, moved to first order, closest to the template (forward
    algorithms), or the template, moved to first order, closest to the warped image (inverse). *)
Theorem c62_ssd_increment : forall dW w t dp cost,
  (forall im, additive_step (res_of SSD) im dW w t = Ok (dp, cost) ->
     unique_minimum (fun q => \sum_i (moved w (gradient_whole im).1 (gradient_whole im).2 dW q i - t i 0) ^+ 2) dp) /\
  (compositional_step (res_of SSD) dW w t = Ok (dp, cost) ->
     unique_minimum (fun q => \sum_i (moved w (gradient_here w).1 (gradient_here w).2 dW q i - t i 0) ^+ 2) dp) /\
  (inverse_step (res_of SSD) dW w t = Ok (dp, cost) ->
     unique_minimum (fun q => \sum_i (moved t (gradient_here t).1 (gradient_here t).2 dW q i - w i 0) ^+ 2) dp).
Proof.
  have G (g : 'cV[F]_k * 'cV[F]_k) (dW : 'M[F]_(k, p) * 'M[F]_(k, p)) (x y : 'cV[F]_k) : (descent g dW)^T *m descent g dW \in unitmx ->
    unique_minimum (fun q => \sum_i (moved x g.1 g.2 dW q i - y i 0) ^+ 2) (- (invmx ((descent g dW)^T *m descent g dW) *m ((descent g dW)^T *m (x - y)))).
    move=> U. apply: (minimum_eq _ (solve_minimum (x - y) U)) => q. apply: eq_bigr => i _. rewrite -descentE addrAC; congr (_ ^+ 2). by rewrite [LHS]mxE [(- y) i 0]mxE.
  move=> dW w t dp cost; split; [|split].
  - move=> im. rewrite /additive_step /forward_step /= /np_solve. by case: ifP => // U [<- _]; apply: G.
  - rewrite /compositional_step /forward_step /= /np_solve. by case: ifP => // U [<- _]; apply: G.
  - rewrite /inverse_step /= /np_solve. case: ifP => // U [<- _]. have := G _ _ t w U. by rewrite -opprB !mulmxN opprK.
Qed.
(** The same for the inverse algorithm with gradient images: it brings the two components of the gradient of the template, moved
    to first order, closest to those of the warped image.  The crossed derivatives of the regularised gradient must agree (the
    code overwrites one with the other); they need not, which is what is missing. *)
Theorem c62_gradient_images_partial : forall dW w t dp cost, inverse_step (res_of GradientImages) dW w t = Ok (dp, cost) ->
  let g := regularise (gradient_here t) in let h := regularise (gradient_here w) in
  let gy := gradient_here g.1 in let gx := gradient_here g.2 in
  gy.2 = gx.1 ->
  unique_minimum (fun q => \sum_i (moved g.1 gy.1 gy.2 dW q i - h.1 i 0) ^+ 2 + \sum_i (moved g.2 gx.1 gx.2 dW q i - h.2 i 0) ^+ 2) dp.
Proof.
  move=> dW w t dp cost. rewrite /inverse_step /= /np_solve. case: ifP => // U [<- _].
  set g := regularise (gradient_here t) in U *. set h := regularise (gradient_here w). move=> E.
  set gy := gradient_here g.1 in E *. set gx := gradient_here g.2 in E *.
  have M := solve_minimum (col_mx g.1 g.2 - col_mx h.1 h.2) U. move: M. rewrite /gi_error -/h -opprB !mulmxN opprK. apply: minimum_eq => q.
  have S : gi_sdi gradient_here g dW = col_mx (descent gy dW) (descent gx dW) by rewrite /gi_sdi /descent /= -/gy -/gx -E.
  rewrite opprB S mul_col_mx opp_col_mx !add_col_mx sqn_col. congr (_ + _); apply: eq_bigr => i _; rewrite -descentE addrAC; congr (_ ^+ 2); by rewrite [LHS]mxE; congr (_ + _); rewrite [LHS]mxE.
Qed.
(** The forward and inverse increments with SSD, and the inverse increments with the gradient residuals, are zero exactly
    when the residual between warped image and template is orthogonal to the steepest descent images. *)
Theorem c62_stationary : forall dW w t dp cost,
  (forall s, forward_step (res_of SSD) s dW w t = Ok (dp, cost) ->
     (dp = 0 <-> (descent (gradient gradient_here gradient_whole s) dW)^T *m (w - t) = 0)) /\
  (inverse_step (res_of SSD) dW w t = Ok (dp, cost) -> (dp = 0 <-> (descent (gradient_here t) dW)^T *m (w - t) = 0)) /\
  (inverse_step (res_of GradientImages) dW w t = Ok (dp, cost) ->
     let g := regularise (gradient_here t) in let h := regularise (gradient_here w) in
     let gy := gradient_here g.1 in let gx := gradient_here g.2 in
     (dp = 0 <-> forall j, \sum_i (gy.1 i 0 * dW.1 i j + gx.1 i 0 * dW.2 i j) * (h.1 i 0 - g.1 i 0) +
                           \sum_i (gx.1 i 0 * dW.1 i j + gx.2 i 0 * dW.2 i j) * (h.2 i 0 - g.2 i 0) = 0)) /\
  (inverse_step (res_of GradientCorrelation) dW w t = Ok (dp, cost) -> (0 < k)%N ->
     let g := orientation (gradient_here t) in let h := orientation (gradient_here w) in
     let gy := gradient_here g.1 in let gx := gradient_here g.2 in
     (dp = 0 <-> forall j, \sum_i (g.2 i 0 * (gy.1 i 0 * dW.1 i j + gx.1 i 0 * dW.2 i j) - g.1 i 0 * (gx.1 i 0 * dW.1 i j + gx.2 i 0 * dW.2 i j)) *
                                  (g.2 i 0 * h.1 i 0 - g.1 i 0 * h.2 i 0) = 0)).
Proof.
  have TZ m q (A : 'M[F]_(m, q)) (v : 'cV[F]_m) : A^T *m v = 0 <-> forall j, \sum_i A i j * v i 0 = 0.
    split=> [H j|H].
    - have := congr1 (fun M : 'cV[F]_q => M j 0) H. rewrite !mxE => E. rewrite -[RHS]E. by apply: eq_bigr => i _; rewrite mxE.
    - apply/matrixP => j o. rewrite ord1 !mxE -[RHS](H j). by apply: eq_bigr => i _; rewrite mxE.
  have Row (x : 'cV[F]_k) (D : 'M[F]_(k, p)) i j : scale_rows x D i j = x i 0 * D i j by rewrite mxE.
  have Add (A B : 'M[F]_(k, p)) i j : (A + B) i j = A i j + B i j by rewrite mxE.
  have Had (x y : 'cV[F]_k) i : had x y i 0 = x i 0 * y i 0 by rewrite mxE.
  have Neg (x : 'cV[F]_k) i : (- x) i 0 = - x i 0 by rewrite mxE.
  have Z n (A : 'M[F]_n) (x : 'cV[F]_n) : A \in unitmx -> (invmx A *m x = 0 <-> x = 0).
    move=> U; split; last by move=> ->; rewrite mulmx0. by move=> H; rewrite -(mulKVmx U x) H mulmx0.
  move=> dW w t dp cost; split; [|split; [|split]].
  - move=> s. rewrite /forward_step /= /np_solve. case: ifP => // U [<- _]. apply: (iff_trans _ (Z _ _ _ U)).
    split; last by move=> ->; rewrite oppr0. by move=> /eqP; rewrite oppr_eq0 => /eqP.
  - rewrite /inverse_step /= /np_solve. by case: ifP => // U [<- _]; apply: Z.
  - rewrite /inverse_step /= /np_solve. case: ifP => // U [<- _]. apply: (iff_trans (Z _ _ _ U)). apply: (iff_trans (TZ _ _ _ _)).
    have Eq j : \sum_i gi_sdi gradient_here (regularise (gradient_here t)) dW i j * gi_error gradient_here regularise (regularise (gradient_here t)) w i 0 =
      \sum_i ((gradient_here (regularise (gradient_here t)).1).1 i 0 * dW.1 i j + (gradient_here (regularise (gradient_here t)).2).1 i 0 * dW.2 i j) *
             ((regularise (gradient_here w)).1 i 0 - (regularise (gradient_here t)).1 i 0) +
      \sum_i ((gradient_here (regularise (gradient_here t)).2).1 i 0 * dW.1 i j + (gradient_here (regularise (gradient_here t)).2).2 i 0 * dW.2 i j) *
             ((regularise (gradient_here w)).2 i 0 - (regularise (gradient_here t)).2 i 0).
      rewrite big_split_ord /gi_sdi /gi_error opp_col_mx add_col_mx /=. congr (_ + _); apply: eq_bigr => i _.
      - rewrite !col_mxEu. congr (_ * _); [by rewrite mxE !Row|by rewrite mxE [X in _ + X]mxE].
      - rewrite !col_mxEd. congr (_ * _); [by rewrite mxE !Row|by rewrite mxE [X in _ + X]mxE].
    by split=> H j; move: (H j); rewrite Eq.
  - rewrite /inverse_step /=. case: ifP => // Q /=. rewrite /np_solve. case: ifP => // U [<- _] K. rewrite Z //.
    set e := gc_error _ _. have -> : e = \col_i ((orientation (gradient_here t)).2 i 0 * (orientation (gradient_here w)).1 i 0 - (orientation (gradient_here t)).1 i 0 * (orientation (gradient_here w)).2 i 0).
      by apply/matrixP => i j; rewrite [LHS]mxE [RHS]mxE ord1; congr (_ + _); [rewrite mxE|rewrite mxE [X in - X]mxE].
    set v := \col_i _. have Eq j : \sum_i gc_descent (orientation (gradient_here t)) (second_grad gradient_here (orientation (gradient_here t))) dW i j * v i 0 =
      \sum_i ((orientation (gradient_here t)).2 i 0 * ((gradient_here (orientation (gradient_here t)).1).1 i 0 * dW.1 i j + (gradient_here (orientation (gradient_here t)).2).1 i 0 * dW.2 i j) -
              (orientation (gradient_here t)).1 i 0 * ((gradient_here (orientation (gradient_here t)).2).1 i 0 * dW.1 i j + (gradient_here (orientation (gradient_here t)).2).2 i 0 * dW.2 i j)) *
             ((orientation (gradient_here t)).2 i 0 * (orientation (gradient_here w)).1 i 0 - (orientation (gradient_here t)).1 i 0 * (orientation (gradient_here w)).2 i 0).
      apply: eq_bigr => i _. congr (_ * _); last by rewrite mxE.
      rewrite /gc_descent !Add !Row /= !Neg !Had !mulNr mulrDr mulrDr opprD !mulrA !addrA. by [].
    apply: (iff_trans (B := (gc_descent (orientation (gradient_here t)) (second_grad gradient_here (orientation (gradient_here t))) dW)^T *m v = 0)); last first.
      apply: (iff_trans (TZ _ _ _ _)). by split=> H j; move: (H j); rewrite Eq.
    split; last by move=> ->; rewrite scaler0. move=> /eqP. rewrite scaler_eq0 mulf_eq0 invr_eq0 Q orbF pnatr_eq0 (gtn_eqF K) /=. by move/eqP.
Qed.
(** The forward algorithms with the two gradient residuals never look at the template: forward compositional increments are
    always zero, forward additive increments are the same for every template.  (GradientImages and GradientCorrelation
    remember the gradient of whatever image steepest_descent_images was called with, which is the template only for the
    inverse compositional algorithm.) *)
Theorem c62_forward_gradient_refuted : forall c dW w, c = GradientImages \/ c = GradientCorrelation ->
  (forall t dp cost, compositional_step (res_of c) dW w t = Ok (dp, cost) -> dp = 0) /\
  (forall t t' im, additive_step (res_of c) im dW w t = additive_step (res_of c) im dW w t').
Proof.
  move=> c dW w C. split; last by case: c C => [] // [].
  move=> t dp cost. rewrite /compositional_step /forward_step. case: c C => [[]//|[]//|_|_] /=.
  - rewrite /gi_error subrr mulmx0 /np_solve. by case: ifP => // _ [<- _]; rewrite mulmx0 oppr0.
  - case: ifP => // _ /=. rewrite gc_error_same mulmx0 scaler0 /np_solve. by case: ifP => // _ [<- _]; rewrite mulmx0 oppr0.
Qed.

(** ** C64 *)
(** The ECC cost is Pearson's correlation coefficient of the warped image and the template; it lies between -1 and 1 and is 1
    exactly for images that differ in contrast and brightness only. *)
Theorem c64_cost : forall H_inv (sdi : 'M[F]_(k, p)) w t u cost, ecc_update H_inv sdi w t = Ok (u, cost) ->
  cost = correlation w t /\ -1 <= cost <= 1 /\ (cost = 1 <-> exists a b, 0 < a /\ w = relit a b t).
Proof.
  move=> H_inv sdi w t u cost. rewrite /ecc_update. case Ew: (normalise w) => [x|] //=. case Et: (normalise t) => [y|] //= [_ <-].
  have [_ _ X] := normalise_Ok Ew. have [_ _ Y] := normalise_Ok Et. have [B E] := unit_dot X Y.
  split; first by apply: normalise_dot. split=> //. split.
  - by move=> /E XY; apply: (normalise_eq Ew); rewrite Et XY.
  - move=> [a [b [A W]]]. move: Ew. rewrite W normalise_relit // Et => [[<-]]. by [].
Qed.
(** Increments and costs of all three algorithms with ECC are unaffected by changes of contrast and brightness of the image
    (and with it the warped image) and of the template. *)
Theorem c64_relit : forall dW im w t a b a' b', 0 < a -> 0 < a' ->
  additive_step (res_of ECC) (relit a b im) dW (relit a b w) (relit a' b' t) = additive_step (res_of ECC) im dW w t /\
  compositional_step (res_of ECC) dW (relit a b w) (relit a' b' t) = compositional_step (res_of ECC) dW w t /\
  inverse_step (res_of ECC) dW (relit a b w) (relit a' b' t) = inverse_step (res_of ECC) dW w t.
Proof.
  move=> dW im w t a b a' b' A A'.
  rewrite /additive_step /compositional_step /forward_step /inverse_step /= /normalise_source /ecc_update !normalise_relit //.
Qed.
(** Images without variance are refused. *)
Theorem c64_flat : forall dW w (t : 'cV[F]_k), (exists b, forall i, t i 0 = b) -> inverse_step (res_of ECC) dW w t = Err ValueError.
Proof. by move=> dW w t /normalise_none E; rewrite /inverse_step /= E. Qed.

(** ** C65 *)
(** The orientation used by the gradient correlation is the direction of the gradient, which is unique, so that it does not
    depend on the contrast. *)
Theorem c65_orientation : forall (g : 'cV[F]_k * 'cV[F]_k) i,
  oriented (g.1 i 0) (g.2 i 0) ((orientation g).1 i 0) ((orientation g).2 i 0) /\
  (forall s c, oriented (g.1 i 0) (g.2 i 0) s c -> s = (orientation g).1 i 0 /\ c = (orientation g).2 i 0) /\
  (forall a, 0 < a -> orientation (a *: g.1, a *: g.2) = orientation g).
Proof.
  move=> g i. have O : oriented (g.1 i 0) (g.2 i 0) ((orientation g).1 i 0) ((orientation g).2 i 0) by rewrite !mxE; apply: oriented_ok.
  split=> //. split; first by move=> s c H; apply: (oriented_unique H O).
  move=> a A. suff H j : oriented (g.1 j 0) (g.2 j 0) ((orientation (a *: g.1, a *: g.2)).1 j 0) ((orientation (a *: g.1, a *: g.2)).2 j 0).
    rewrite [LHS]surjective_pairing [RHS]surjective_pairing. congr (_, _); apply/matrixP => j j0; rewrite ord1.
    - have [E _] := oriented_unique (H j) (oriented_ok (g.1 j 0) (g.2 j 0)). by rewrite E [RHS]mxE.
    - have [_ E] := oriented_unique (H j) (oriented_ok (g.1 j 0) (g.2 j 0)). by rewrite E [RHS]mxE.
  have [U B] := oriented_ok (a * g.1 j 0) (a * g.2 j 0). rewrite /orientation /= [X in oriented _ _ X _]mxE [X in oriented _ _ _ X]mxE [(a *: g.1) j 0]mxE [(a *: g.2) j 0]mxE.
  split=> //. case: B => [[/eqP B1 [/eqP B2 B3]]|[m [M [E1 E2]]]].
  - left. move: B1 B2; rewrite !mulf_eq0 !(gt_eqF A) /= => /eqP G1 /eqP G2. by [].
  - right. exists (m / a). split; first by rewrite divr_gt0. have Na : a != 0 by rewrite gt_eqF.
    by split; apply: (mulfI Na); rewrite mulrA [a * (m / a)]mulrC divfK // -?E1 -?E2.
Qed.
(** The cost is the mean cosine of the angle between the gradients of the warped image and of the template; it lies between -1
    and 1, and is 1 exactly if all gradients have the same orientation. *)
Theorem c65_cost : forall dW w t dp cost, inverse_step (res_of GradientCorrelation) dW w t = Ok (dp, cost) ->
  let g := orientation (gradient_here t) in let h := orientation (gradient_here w) in
  (0 < k)%N ->
  cost = (\sum_i (g.1 i 0 * h.1 i 0 + g.2 i 0 * h.2 i 0)) / k%:R /\ -1 <= cost <= 1 /\ (cost = 1 <-> g = h).
Proof.
  move=> dW w t dp cost. rewrite /inverse_step /=. case: ifP => // Q /=. case: np_solve => //= x [_ <-] K.
  set g := orientation _ in Q *. set h := orientation _ in Q *.
  have Kp : 0 < k%:R :> F by rewrite ltr0n. have C : 1 / (k%:R / gc_qp g h) = gc_qp g h / k%:R by rewrite invf_div mul1r.
  have S : gc_qp g h = \sum_i (g.1 i 0 * h.1 i 0 + g.2 i 0 * h.2 i 0) by apply: eq_bigr => i _; rewrite addrC.
  rewrite C S. split=> //.
  have Ug i : g.1 i 0 ^+ 2 + g.2 i 0 ^+ 2 = 1 by apply: orientation_unit. have Uh i : h.1 i 0 ^+ 2 + h.2 i 0 ^+ 2 = 1 by apply: orientation_unit.
  have A i : g.1 i 0 * h.1 i 0 + g.2 i 0 * h.2 i 0 <= 1 by case: (unit_pair (Ug i) (Uh i)) => [[]].
  have B i : -1 <= g.1 i 0 * h.1 i 0 + g.2 i 0 * h.2 i 0 by case: (unit_pair (Ug i) (Uh i)) => [[]].
  have N : \sum_(i < k) (1 : F) = k%:R by rewrite sumr_const card_ord.
  split; first (apply/andP; split).
  - rewrite ler_pdivl_mulr // mulN1r -N -sumrN. by apply: ler_sum => i _.
  - rewrite ler_pdivr_mulr // mul1r -N. by apply: ler_sum => i _.
  - split.
    + move=> E. have Z : \sum_i (1 - (g.1 i 0 * h.1 i 0 + g.2 i 0 * h.2 i 0)) = 0.
        rewrite sumrB N. have Kn : (k%:R : F) != 0 by rewrite gt_eqF. by rewrite -(divfK Kn (\sum_i (g.1 i 0 * h.1 i 0 + g.2 i 0 * h.2 i 0))) E mul1r subrr.
      move/eqP: Z. rewrite psumr_eq0; last by move=> i _; rewrite subr_ge0. move=> /allP Z.
      have P i : g.1 i 0 = h.1 i 0 /\ g.2 i 0 = h.2 i 0.
        have := Z i (mem_index_enum _). rewrite /= subr_eq0 eq_sym => /eqP. by case: (unit_pair (Ug i) (Uh i)).
      rewrite [g]surjective_pairing [h]surjective_pairing. by congr (_, _); apply/matrixP => i j; rewrite ord1; case: (P i).
    + move=> E. rewrite -E. under eq_bigr do rewrite -!expr2 Ug. by rewrite N divff // gt_eqF.
Qed.

(** If the crossed derivatives agree (the derivative along x of the sine with the derivative along y of the cosine), then the
    steepest descent images of the gradient correlation are the derivatives of the angle of the gradient,
    cos * d(sin) - sin * d(cos), times the warp Jacobian. *)
Theorem c65_sdi_partial : forall (phi : 'cV[F]_k * 'cV[F]_k) (s : second F k) (dW : 'M[F]_(k, p) * 'M[F]_(k, p)) i j, s10 s = s01 s ->
  gc_descent phi s dW i j =
    (phi.2 i 0 * s00 s i 0 - phi.1 i 0 * s01 s i 0) * dW.1 i j + (phi.2 i 0 * s10 s i 0 - phi.1 i 0 * s11 s i 0) * dW.2 i j.
Proof.
  move=> phi s dW i j E. rewrite /gc_descent /scale_rows /had /=. rewrite !mxE E.
  rewrite !mulrDl. rewrite -!addrA; congr (_ + _). rewrite addrCA; congr (_ + _).
Qed.
End Props.

(** In general they are not: at a pixel whose gradient points along x, the code misses the turning of the gradient along x.
    This is so whichever way menpo orders the second derivatives (in the second case, along y at a pixel whose gradient
    points along y). *)
Theorem c65_sdi_refuted : forall F : rcfType, exists (phi : 'cV[F]_1 * 'cV[F]_1) (s : second F 1) (dW : 'M[F]_(1, 1) * 'M[F]_(1, 1)),
  unit_field phi /\
  phi.1 0 0 * s00 s 0 0 + phi.2 0 0 * s01 s 0 0 = 0 /\ phi.1 0 0 * s10 s 0 0 + phi.2 0 0 * s11 s 0 0 = 0 /\
  gc_descent phi s dW 0 0 = 0 /\
  (phi.2 0 0 * s00 s 0 0 - phi.1 0 0 * s01 s 0 0) * dW.1 0 0 + (phi.2 0 0 * s10 s 0 0 - phi.1 0 0 * s11 s 0 0) * dW.2 0 0 = 1.
Proof.
  move=> F. exists (const_mx 0, const_mx 1), (mk_second (const_mx 0) (const_mx 0) (const_mx 1) (const_mx 0)), (const_mx 0, const_mx 1).
  split; first by move=> i; rewrite !mxE expr0n expr1n add0r.
  rewrite /gc_descent /scale_rows /had /= !mxE. by rewrite !(mulr0, mul0r, mulr1, mul1r, subr0, add0r, addr0, oppr0).
Qed.
Theorem c65_sdi_other_order_refuted : forall F : rcfType, exists (phi : 'cV[F]_1 * 'cV[F]_1) (s : second F 1) (dW : 'M[F]_(1, 1) * 'M[F]_(1, 1)),
  unit_field phi /\
  phi.1 0 0 * s00 s 0 0 + phi.2 0 0 * s10 s 0 0 = 0 /\ phi.1 0 0 * s01 s 0 0 + phi.2 0 0 * s11 s 0 0 = 0 /\
  gc_descent phi s dW 0 0 = 0 /\
  (phi.2 0 0 * s00 s 0 0 - phi.1 0 0 * s10 s 0 0) * dW.1 0 0 + (phi.2 0 0 * s01 s 0 0 - phi.1 0 0 * s11 s 0 0) * dW.2 0 0 = -1.
Proof.
  move=> F. exists (const_mx 1, const_mx 0), (mk_second (const_mx 0) (const_mx 0) (const_mx 1) (const_mx 0)), (const_mx 1, const_mx 0).
  split; first by move=> i; rewrite !mxE expr0n expr1n addr0.
  rewrite /gc_descent /scale_rows /had /= !mxE. by rewrite !(mulr0, mul0r, mulr1, mul1r, subr0, add0r, addr0, oppr0, sub0r).
Qed.

(** ** Images of four pixels with mean zero *)
Section Four.
Variable F : rcfType.
Add Ring Fr4 : (@r_ring F).
Definition hv (a b c : F) : 'cV[F]_4 := \col_i nth 0 [:: a + b + c; a - b - c; b - a - c; c - a - b] i.
Definition four : F := 1 + 1 + 1 + 1.
Lemma dot_hv a b c a' b' c' : dot (hv a b c) (hv a' b' c') = four * (a * a' + b * b' + c * c').
Proof. rewrite dotE !big_ord_recl big_ord0 !mxE /= addr0 /four. mring F. Qed.
Lemma mean_hv a b c : mean (hv a b c) = 0.
Proof. rewrite /mean !big_ord_recl big_ord0 !mxE /= addr0. have -> : a + b + c + (a - b - c + (b - a - c + (c - a - b))) = 0 by mring F. by rewrite mul0r. Qed.
Lemma cov_hv a b c a' b' c' : cov (hv a b c) (hv a' b' c') = four * (a * a' + b * b' + c * c').
Proof. by rewrite -dot_hv dotE /cov; apply: eq_bigr => i _; rewrite !mean_hv !subr0. Qed.
Lemma centred_hv a b c : centred (hv a b c) = hv a b c.
Proof. by apply/matrixP => i j; rewrite ord1 centredE mean_hv subr0. Qed.
Lemma normalise_hv a b c : four * (a * a + b * b + c * c) = 1 -> normalise (hv a b c) = Ok (hv a b c).
Proof. move=> H. by rewrite /normalise centred_hv dot_hv H sqrtr1 oner_eq0 invr1 scale1r. Qed.
Lemma hvD a b c a' : hv a b c + hv 1 0 0 *m a'%:M = hv (a + a') b c.
Proof.
  apply/matrixP => i j. rewrite ord1 mxE [(_ *m _) _ _]mxE big_ord_recl big_ord0 addr0 [(_%:M) _ _]mxE eqxx mulr1n !mxE.
  case: i => [] [|[|[|[|//]]]] H /=; mring F.
Qed.
Definition G : 'cV[F]_4 := hv 1 0 0.
Lemma G_dot a b c : G^T *m hv a b c = (four * a)%:M.
Proof. apply/matrixP => i j. rewrite !ord1 -[LHS]/(dot G (hv a b c)) dot_hv mxE eqxx mulr1n !mul1r !mul0r !addr0. by []. Qed.
Lemma four_gt0 : 0 < four.
Proof. by rewrite /four !addr_gt0 ?ltr01. Qed.
Lemma GG : G^T *m G = four%:M.
Proof. by rewrite /G G_dot mulr1. Qed.
Lemma G_full : full_rank G.
Proof.
  move=> x H. have := congr1 (mulmx G^T) H. rewrite mulmxA GG mulmx0 mul_scalar_mx => /eqP. by rewrite scaler_eq0 (gt_eqF four_gt0) /= => /eqP.
Qed.
Lemma dot11 (x y : F) : dot (x%:M : 'cV[F]_1) y%:M = x * y.
Proof. by rewrite dotE big_ord_recl big_ord0 addr0 !mxE eqxx !mulr1n. Qed.
Lemma inv_four : invmx (four%:M : 'M[F]_1) = (four^-1)%:M.
Proof. by rewrite invmx_scalar. Qed.
Lemma scal_mul (x y : F) : (x%:M : 'M[F]_1) *m (y%:M) = (x * y)%:M.
Proof. by rewrite -scalar_mxM. Qed.
Lemma ecc_hv a b c a' b' c' l : four * (a * a + b * b + c * c) = 1 -> four * (a' * a' + b' * b' + c' * c') = 1 ->
  0 < b * b' + c * c' -> b * b + c * c = l * (b * b' + c * c') ->
  ecc_update (invmx (G^T *m G)) G (hv a b c) (hv a' b' c') = Ok ((four * (l * a - a'))%:M, four * (a * a' + b * b' + c * c')).
Proof.
  move=> W T D L. rewrite /ecc_update !normalise_hv //= dot_hv. congr (Ok (_, _)).
  have N : four != 0 by rewrite gt_eqF // four_gt0. have D' : b * b' + c * c' != 0 by rewrite gt_eqF.
  have -> : ecc_factor (invmx (G^T *m G)) G (hv a b c) (hv a' b' c') = l.
    rewrite /ecc_factor GG inv_four !G_dot !scal_mul !(mulKf N) !dot11 !dot_hv sqr_sqrtr ?W ?ler01 // -W.
    have -> : four * (a' * a + b' * b + c' * c) - four * a' * a = four * (b * b' + c * c') by rewrite /four; mring F.
    rewrite pmulr_rgt0 ?four_gt0 // D. have -> : four * (a * a + b * b + c * c) - four * a * a = l * (four * (b * b' + c * c')).
      have -> : four * (a * a + b * b + c * c) - four * a * a = four * (b * b + c * c) by rewrite /four; mring F.
      by rewrite L mulrCA.
    by rewrite mulfK // mulf_neq0.
  rewrite mulmxBr -scalemxAr !G_dot. apply/matrixP => i j. rewrite !ord1 !mxE !eqxx !mulr1n. by rewrite mulrBr mulrCA.
Qed.
Lemma corr_hv a b c a' b' c' : four * (a' * a' + b' * b' + c' * c') = 1 ->
  correlation (hv a b c) (hv a' b' c') = four * (a * a' + b * b' + c * c') / Num.sqrt (four * (a * a + b * b + c * c)).
Proof. by move=> T; rewrite /correlation !cov_hv T sqrtr1 mulr1. Qed.
Lemma corr_lt (v q rho r : F) : 0 < r -> r * r < q -> 0 < rho -> v < rho * r -> v / Num.sqrt q < rho.
Proof.
  move=> R Q P V. have S : r < Num.sqrt q. by rewrite -[r]gtr0_norm // -sqrtr_sqr ltr_sqrt ?expr2 // (lt_trans _ Q) // mulr_gt0.
  have S0 : 0 < Num.sqrt q by rewrite (lt_trans R).
  rewrite ltr_pdivr_mulr //. apply: (lt_trans V). by rewrite ltr_pmul2l.
Qed.
(** Numerals. *)
Fixpoint fp (n : positive) : F := match n with xH => 1 | xO n => (1 + 1) * fp n | xI n => 1 + (1 + 1) * fp n end.
Arguments fp _%positive.
Lemma fp_gt0 n : 0 < fp n.
Proof. by elim: n => [n IH|n IH|] /=; rewrite ?ltr01 // ?addr_gt0 ?mulr_gt0 ?addr_gt0 ?ltr01. Qed.
Lemma fpu_gt0 n u : 0 < u -> 0 < fp n * u.
Proof. move=> U. apply: mulr_gt0 => //. exact: fp_gt0. Qed.
Lemma fp_lt n m d (x : F) : 0 < x -> fp m - fp n = fp d -> fp n * x < fp m * x.
Proof. move=> X D. by rewrite -subr_gt0 -mulrBl D mulr_gt0 // fp_gt0. Qed.
Lemma forward_witness (u l : F) : fp 50 * u = 1 -> fp 3 * l = fp 5 -> 0 < u ->
  let w := hv (fp 15 * u) (fp 12 * u) (fp 16 * u) in let t := hv (fp 15 * u) (fp 20 * u) 0 in
  exists v cost, ecc_update (invmx (G^T *m G)) G w t = Ok (v, cost) /\ normalise w = Ok w /\ normalise t = Ok t /\
    correlation (w - G *m (invmx (G^T *m G) *m v)) t < correlation w t.
Proof.
  move=> U L P w t. have N : four != 0 by rewrite gt_eqF // four_gt0.
  have W : four * ((fp 15 * u) * (fp 15 * u) + (fp 12 * u) * (fp 12 * u) + (fp 16 * u) * (fp 16 * u)) = 1.
    transitivity ((fp 50 * u) * (fp 50 * u)); [rewrite /four /=; mring F|by rewrite U mulr1].
  have T : four * ((fp 15 * u) * (fp 15 * u) + (fp 20 * u) * (fp 20 * u) + 0 * 0) = 1.
    transitivity ((fp 50 * u) * (fp 50 * u)); [rewrite /four /=; mring F|by rewrite U mulr1].
  have E := ecc_hv (l := l) W T. rewrite /w /t. eexists; eexists; split; [apply: E|split; [exact: normalise_hv|split; [exact: normalise_hv|]]].
  - rewrite mulr0 addr0. by apply: mulr_gt0; apply: fpu_gt0.
  - transitivity (fp 5 * (fp 80 * (u * u))); [rewrite /=; mring F|rewrite -L /=; mring F].
  rewrite GG inv_four scal_mul mulKf //. rewrite -mulmxN -scalemx1 -scaleNr scalemx1 hvD.
  have -> : l * (fp 15 * u) - fp 15 * u = fp 10 * u.
    transitivity (fp 3 * l * (fp 5 * u) - fp 15 * u); [rewrite /=; mring F|rewrite L /=; mring F].
  rewrite !corr_hv // W sqrtr1 divr1.
  have -> : fp 15 * u - fp 10 * u = fp 5 * u by rewrite /=; mring F.
  have U3 : 0 < u * u * u by rewrite !mulr_gt0. have U2 : 0 < u * u by rewrite !mulr_gt0.
  apply: (@corr_lt _ _ _ (fp 35 * u)).
  - exact: fpu_gt0.
  - rewrite (_ : _ * _ = fp 1225 * (u * u)); last by rewrite /=; mring F.
    rewrite (_ : four * _ = fp 1700 * (u * u)); last by rewrite /four /=; mring F.
    apply: (@fp_lt _ _ 475) => //=. mring F.
  - by rewrite mulr0 addr0 pmulr_rgt0 ?four_gt0 // addr_gt0 //; apply: mulr_gt0; apply: fpu_gt0.
  - rewrite (_ : four * (fp 15 * u * _ + _ + _) * _ = fp 65100 * (u * u * u)); last by rewrite /four /=; mring F.
    rewrite (_ : _ * _ = fp 1260 * (u * u) * (fp 50 * u)); last by rewrite U mulr1 /four /=; mring F.
    rewrite (_ : _ * (fp 50 * u) = fp 63000 * (u * u * u)); last by rewrite /=; mring F.
    apply: (@fp_lt _ _ 2100) => //=. mring F.
Qed.
Lemma inverse_witness (u l : F) : fp 500 * u = 1 -> fp 16 * l = fp 7 -> 0 < u ->
  let w := hv (fp 240 * u) (fp 56 * u) (fp 42 * u) in let t := hv (fp 150 * u) (fp 200 * u) 0 in
  exists v cost, ecc_update (invmx (G^T *m G)) G w t = Ok (v, cost) /\ normalise w = Ok w /\ normalise t = Ok t /\
    correlation (t + G *m (invmx (G^T *m G) *m v)) w < correlation t w.
Proof.
  move=> U L P w t. have N : four != 0 by rewrite gt_eqF // four_gt0.
  have W : four * ((fp 240 * u) * (fp 240 * u) + (fp 56 * u) * (fp 56 * u) + (fp 42 * u) * (fp 42 * u)) = 1.
    transitivity ((fp 500 * u) * (fp 500 * u)); [rewrite /four /=; mring F|by rewrite U mulr1].
  have T : four * ((fp 150 * u) * (fp 150 * u) + (fp 200 * u) * (fp 200 * u) + 0 * 0) = 1.
    transitivity ((fp 500 * u) * (fp 500 * u)); [rewrite /four /=; mring F|by rewrite U mulr1].
  have E := ecc_hv (l := l) W T. rewrite /w /t. eexists; eexists; split; [apply: E|split; [exact: normalise_hv|split; [exact: normalise_hv|]]].
  - rewrite mulr0 addr0. by apply: mulr_gt0; apply: fpu_gt0.
  - transitivity (fp 7 * (fp 700 * (u * u))); [rewrite /=; mring F|rewrite -L /=; mring F].
  rewrite GG inv_four scal_mul mulKf // hvD.
  have -> : l * (fp 240 * u) - fp 150 * u = - (fp 45 * u).
    transitivity (fp 16 * l * (fp 15 * u) - fp 150 * u); [rewrite /=; mring F|rewrite L /=; mring F].
  rewrite !corr_hv // T sqrtr1 divr1.
  have -> : fp 150 * u - fp 45 * u = fp 105 * u by rewrite /=; mring F.
  have U3 : 0 < u * u * u by rewrite !mulr_gt0. have U2 : 0 < u * u by rewrite !mulr_gt0.
  apply: (@corr_lt _ _ _ (fp 450 * u)).
  - exact: fpu_gt0.
  - rewrite (_ : _ * _ = fp 202500 * (u * u)); last by rewrite /=; mring F.
    rewrite (_ : four * _ = fp 204100 * (u * u)); last by rewrite /four /=; mring F.
    apply: (@fp_lt _ _ 1600) => //=. mring F.
  - by rewrite mul0r addr0 pmulr_rgt0 ?four_gt0 // addr_gt0 //; apply: mulr_gt0; apply: fpu_gt0.
  - rewrite (_ : four * (fp 150 * u * _ + _ + _) * _ = fp 84960000 * (u * u * u)); last by rewrite /four /=; mring F.
    rewrite (_ : _ * _ = fp 145600 * (u * u) * (fp 500 * u)); last by rewrite U mulr1 /four /=; mring F.
    rewrite (_ : _ * (fp 500 * u) = fp 72800000 * (u * u * u)); last by rewrite /=; mring F.
    apply: (@fp_lt _ _ 12160000) => //=. mring F.
Qed.
Lemma pythagoras (u : F) : four * ((fp 15 * u) * (fp 15 * u) + (fp 20 * u) * (fp 20 * u) + 0 * 0) = (fp 50 * u) * (fp 50 * u).
Proof. rewrite /four /=; mring F. Qed.
End Four.

(** An ECC increment can lower the correlation, with the template, of the linearised warped image (of the linearised template, with the
    warped image), which it is meant to raise.  In Evangelidis and Psarakis' algorithm the increment maximises the correlation of the linearised warped image
    with the template; there the factor multiplies the template, and for the inverse algorithm its numerator is computed from
    the template, neither of which the code does. *)
Theorem c64_increase_refuted : forall F : rcfType, exists (sdi : 'cV[F]_4) w t v cost,
  full_rank sdi /\ ecc_update (invmx (sdi^T *m sdi)) sdi w t = Ok (v, cost) /\ normalise w = Ok w /\ normalise t = Ok t /\
  correlation (w + sdi *m (- (invmx (sdi^T *m sdi) *m v))) t < correlation w t.
Proof.
  move=> F. have P : 0 < (fp F 50)^-1 by rewrite invr_gt0 fp_gt0.
  have [||v [c [E [W [T C]]]]] := @forward_witness F (fp F 50)^-1 (fp F 5 / fp F 3) _ _ P.
  - by rewrite divff // gt_eqF // fp_gt0.
  - by rewrite mulrC divfK // gt_eqF // fp_gt0.
  - by exists (G F), (hv (fp F 15 * (fp F 50)^-1) (fp F 12 * (fp F 50)^-1) (fp F 16 * (fp F 50)^-1)), (hv (fp F 15 * (fp F 50)^-1) (fp F 20 * (fp F 50)^-1) 0), v, c; rewrite mulmxN; split; [exact: G_full|].
Qed.
Theorem c64_increase_inverse_refuted : forall F : rcfType, exists (sdi : 'cV[F]_4) w t v cost,
  full_rank sdi /\ ecc_update (invmx (sdi^T *m sdi)) sdi w t = Ok (v, cost) /\ normalise w = Ok w /\ normalise t = Ok t /\
  correlation (t + sdi *m (invmx (sdi^T *m sdi) *m v)) w < correlation t w.
Proof.
  move=> F. have P : 0 < (fp F 500)^-1 by rewrite invr_gt0 fp_gt0.
  have [||v [c [E [W [T C]]]]] := @inverse_witness F (fp F 500)^-1 (fp F 7 / fp F 16) _ _ P.
  - by rewrite divff // gt_eqF // fp_gt0.
  - by rewrite mulrC divfK // gt_eqF // fp_gt0.
  - by exists (G F), (hv (fp F 240 * (fp F 500)^-1) (fp F 56 * (fp F 500)^-1) (fp F 42 * (fp F 500)^-1)), (hv (fp F 150 * (fp F 500)^-1) (fp F 200 * (fp F 500)^-1) 0), v, c; split; [exact: G_full|].
Qed.

(** The hypotheses are met: four pixels, one parameter, a gradient along y. *)
Example c61_ex : forall (F : rcfType) c, let gh := fun _ : 'cV[F]_4 => (G F, 0 : 'cV[F]_4) in
  c = SSD \/ c = ECC ->
  exists (t : 'cV[F]_4) dW st sdi, r_sdi (residual_of 1 gh (fun _ : 'cV[F]_9 => (G F, 0)) id c) (Here _ t) dW = Ok (st, sdi) /\ full_rank sdi.
Proof.
  move=> F c gh C. set dW := (const_mx 1 : 'M[F]_(4, 1), 0 : 'M[F]_(4, 1)).
  have D : descent (gh 0) dW = G F by apply/matrixP => i j; rewrite ord1 /descent /scale_rows /dW /gh /= !mxE ?mulr1 ?mul0r ?mulr0 ?addr0.
  set u := (fp F 50)^-1.
  have T : four F * ((fp F 15 * u) * (fp F 15 * u) + (fp F 20 * u) * (fp F 20 * u) + 0 * 0) = 1.
    have U : fp F 50 * u = 1 by rewrite divff // gt_eqF // fp_gt0. rewrite -[RHS](mulr1 1) -{1 2}U.
    exact: (pythagoras u).
  exists (hv (fp F 15 * u) (fp F 20 * u) 0), dW. case: c C => [_|_|[]//|[]//]; rewrite /= ?normalise_hv //=.
  - exists tt, (descent (gh 0) dW). split=> //. rewrite D. exact: G_full.
  - exists 0, (descent (gh 0) dW). split=> //. rewrite D. exact: G_full.
Qed.
Print Assumptions c61_inverse.
Print Assumptions c61_additive.
Print Assumptions c62_ssd_cost.
Print Assumptions c62_ssd_increment.
Print Assumptions c62_gradient_images_partial.
Print Assumptions c62_stationary.
Print Assumptions c62_forward_gradient_refuted.
Print Assumptions c64_cost.
Print Assumptions c64_relit.
Print Assumptions c64_flat.
Print Assumptions c64_increase_refuted.
Print Assumptions c64_increase_inverse_refuted.
Print Assumptions c65_orientation.
Print Assumptions c65_cost.
Print Assumptions c65_sdi_partial.
Print Assumptions c65_sdi_refuted.
Print Assumptions c65_sdi_other_order_refuted.
