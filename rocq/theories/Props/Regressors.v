(** C71: the regressors that reduce dimensions. *)
From Verif.Model Require Import Py LinAlg Regression Regressors.
From Verif.Spec Require Import LinAlg Regressors.
From Verif.Proofs Require LinAlg Regressors Regressors2.
From Verif.Proofs Require Import MRing.
From mathcomp Require Import all_ssreflect all_algebra.
Set Implicit Arguments.
Unset Strict Implicit.
Unset Printing Implicit Defensive.
Import Order.TTheory GRing.Theory Num.Theory.
Local Open Scope ring_scope.

Section C71.
Variable F : rcfType.
Add Ring Fr : (@r_ring F).
Variable svd : forall n d, 'M[F]_(n, d) -> 'M[F]_(n, minn n d) * 'cV[F]_(minn n d) * 'M[F]_(minn n d, d).
Variable pca : forall n d, 'M[F]_(n, d) -> {k & ('M[F]_(k, d) * 'cV[F]_k)%type}.
Variable pinv : forall n d, 'M[F]_(n, d) -> 'M[F]_(d, n).

(** Principal component regression with nothing dropped: training succeeds exactly when no singular value is zero (linear
    algebra error otherwise); then every output is the shortest least squares solution, and prediction applies it. *)
Theorem c71_pcr (bias : bool) n d q (X : 'M[F]_(n, d)) (Y : 'M[F]_(n, q)) U s V : svd (add_bias bias X) = (U, s, V) ->
  is_svd (add_bias bias X) U s V -> forall variance, variance = None \/ variance = Some 0 ->
  match pcr_train svd variance bias X Y with
  | Ok st => (forall i, s i 0 != 0) /\ (forall j, least_norm (add_bias bias X) (col j Y) (col j (pcr_R st))) /\
             (forall m (x : 'M[F]_(m, d)), pcr_predict st x = add_bias bias x *m pcr_R st)
  | Err e => e = LinAlgError /\ exists i, s i 0 = 0
  end.
Proof. exact: Regressors2.pcr_none. Qed.

(** With a variance: the best solution among the combinations of the kept directions; a direction is dropped as soon as
    the ones up to it reach the requested part, so the kept part is below the request and at least one is dropped. *)
Theorem c71_pcr_reduced_partial (bias : bool) n d q (X : 'M[F]_(n, d)) (Y : 'M[F]_(n, q)) U s V : svd (add_bias bias X) = (U, s, V) ->
  is_svd (add_bias bias X) U s V -> (exists i, s i 0 != 0) -> forall v, 0 < v -> v <= 1 ->
  exists2 st, pcr_train svd (Some v) bias X Y = Ok st &
    [/\ forall j, best_in_rows (pcr_V st) (add_bias bias X) (col j Y) (col j (pcr_R st)),
        forall m (x : 'M[F]_(m, d)), pcr_predict st x = add_bias bias x *m pcr_R st,
        (pcr_k st < minn n (d + bias))%N & carried s (pcr_k st) < v <= carried s (pcr_k st).+1].
Proof.
  move=> E D [i0 I0] v v0 v1. have V0 : v != 0 by rewrite gt_eqF. case: (D) => _ _ _ S O.
  have T : \sum_i s i 0 != 0.
    apply: contra I0 => /eqP /psumr_eq0P Z. by rewrite Z.
  have T0 : 0 < \sum_i s i 0 by rewrite lt_neqAle eq_sym T sumr_ge0.
  have K : (n_kept s v < minn n (d + bias))%N by exact: Regressors2.n_kept_lt.
  have [st Est] : exists st, pcr_train svd (Some v) bias X Y = Ok st.
    apply: (Regressors2.pcr_some_ok _ E V0) => i Li. apply/eqP => Z.
    (* a zero among the kept ones: everything after it is zero too, so the part carried is already one *)
    have := Regressors2.n_keptE v i S T. rewrite Li => /esym. suff -> : carried s i.+1 = 1 by move=> /lt_le_trans /(_ v1); rewrite ltxx.
    rewrite /carried. have -> : \sum_(j < minn n (d + bias) | (j < i.+1)%N) s j 0 = \sum_j s j 0; last by rewrite mulfV.
    rewrite [RHS](bigID (fun j : 'I__ => (j < i.+1)%N)) /= [X in _ = _ + X]big1 ?addr0 // => j.
    rewrite -leqNgt => /ltnW Lj. apply/eqP. by rewrite eq_le S andbT -Z O.
  exists st => //. have [Ek B P] := Regressors2.pcr_some E D V0 Est. split=> //; rewrite Ek //.
  apply/andP; split; [exact: Regressors2.n_kept_below|exact: Regressors2.n_kept_next].
Qed.
(** When the first direction carries the requested part alone, nothing is kept and every prediction is zero. *)
Theorem c71_pcr_nothing (bias : bool) n d q (X : 'M[F]_(n, d)) (Y : 'M[F]_(n, q)) U s V : svd (add_bias bias X) = (U, s, V) ->
  is_svd (add_bias bias X) U s V -> (exists i, s i 0 != 0) -> forall v, 0 < v -> v <= carried s 1 ->
  exists2 st, pcr_train svd (Some v) bias X Y = Ok st &
    pcr_k st = 0%N /\ forall m (x : 'M[F]_(m, d)), pcr_predict st x = 0.
Proof.
  move=> E D I v v0 vc. have V0 : v != 0 by rewrite gt_eqF. case: (D) (I) => _ _ _ S O [i0 I0].
  have T : \sum_i s i 0 != 0 by apply: contra I0 => /eqP /psumr_eq0P Z; rewrite Z.
  have T0 : 0 < \sum_i s i 0 by rewrite lt_neqAle eq_sym T sumr_ge0.
  have C1 : carried s 1 <= 1.
    rewrite /carried ler_pdivr_mulr // mul1r [X in _ <= X](bigID (fun j : 'I__ => (j < 1)%N)) /= ler_addl. exact: sumr_ge0.
  have [st Est [B P K H]] := c71_pcr_reduced_partial Y E D I v0 (le_trans vc C1). exists st => //.
  have [Ek _ _] := Regressors2.pcr_some E D V0 Est.
  have K0 : n_kept s v = 0%N.
    apply/eqP; rewrite -leqn0 leqNgt; apply/negP => L.
    have L0 : (0 < minn n (d + bias))%N by exact: leq_ltn_trans (leq0n _) K.
    have := Regressors2.n_keptE v (Ordinal L0) S T. by rewrite L => /esym /lt_le_trans /(_ vc); rewrite ltxx.
  split; first by rewrite Ek. move=> m x. by rewrite P (Regressors2.pcr_nothing E D V0 K0 Est) mulmx0.
Qed.

(** Optimal linear regression with nothing dropped never raises and gives the shortest least squares solution, so it agrees
    with principal component regression wherever that one trains. *)
Theorem c71_optimal (bias : bool) n d q k (X : 'M[F]_(n, d)) (Y : 'M[F]_(n, q)) U l : pca (add_bias bias X) = existT _ k (U, l) ->
  is_pca (add_bias bias X) U l -> (forall m (G : 'M[F]_(n, m)), full_rank G -> penrose G (pinv G)) ->
  (forall W, whitened_components U l = Ok W ->
    let: existT k2 (V, l2) := pca (olr_tilde (add_bias bias X) Y W) in is_pca (olr_tilde (add_bias bias X) Y W) V l2) ->
  exists2 R, olr_train pca pinv None bias X Y = Ok R & forall j, least_norm (add_bias bias X) (col j Y) (col j R).
Proof. exact: Regressors2.olr_none. Qed.
Theorem c71_optimal_pcr (bias : bool) n d q k (X : 'M[F]_(n, d)) (Y : 'M[F]_(n, q)) U l U' s V' : pca (add_bias bias X) = existT _ k (U, l) ->
  is_pca (add_bias bias X) U l -> (forall m (G : 'M[F]_(n, m)), full_rank G -> penrose G (pinv G)) ->
  (forall W, whitened_components U l = Ok W ->
    let: existT k2 (V, l2) := pca (olr_tilde (add_bias bias X) Y W) in is_pca (olr_tilde (add_bias bias X) Y W) V l2) ->
  svd (add_bias bias X) = (U', s, V') -> is_svd (add_bias bias X) U' s V' ->
  forall st, pcr_train svd None bias X Y = Ok st -> olr_train pca pinv None bias X Y = Ok (pcr_R st).
Proof.
  move=> E D PI P2 E' D' st Est. have [R -> L] := Regressors2.olr_none E D PI P2.
  have := @Regressors2.pcr_none F svd bias n d q X Y U' s V' E' D' None (or_introl erefl). rewrite Est => [[_ [L' _]]].
  congr Ok. apply/matrixP => i j. have := Regressors2.least_norm_unique (L j) (L' j).
  by move/(congr1 (fun M : 'cV[F]_(d + bias) => M i 0)); rewrite ![(col j _) _ _]mxE.
Qed.
Theorem c71_optimal_reduced_partial (bias : bool) n d q k (X : 'M[F]_(n, d)) (Y : 'M[F]_(n, q)) U l v : pca (add_bias bias X) = existT _ k (U, l) ->
  is_pca (add_bias bias X) U l -> (forall m (G : 'M[F]_(n, m)), full_rank G -> penrose G (pinv G)) ->
  (forall W, whitened_components (first_rows (n_kept l v) U) (first_rows (n_kept l v) l) = Ok W ->
    let: existT k2 (V, l2) := pca (olr_tilde (add_bias bias X) Y W) in is_pca (olr_tilde (add_bias bias X) Y W) V l2) ->
  exists2 R, olr_train pca pinv (Some v) bias X Y = Ok R &
    (forall j, best_in_rows (first_rows (n_kept l v) U) (add_bias bias X) (col j Y) (col j R)) /\
    ((0 < k)%N -> 0 < v -> v <= 1 -> (n_kept l v < k)%N /\ carried l (n_kept l v) < v <= carried l (n_kept l v).+1).
Proof.
  move=> E D PI P2. have [R -> B] := Regressors2.olr_some E D PI P2. exists R => //. split=> // k0 v0 v1.
  case: (D) => _ L _. have S i : 0 <= l i 0 by exact: ltW.
  have T : \sum_i l i 0 != 0.
    apply/negP => /eqP /psumr_eq0P Z. have := L (Ordinal k0). by rewrite Z ?ltxx.
  split; first exact: Regressors2.n_kept_lt. have K : (n_kept l v < k)%N by exact: Regressors2.n_kept_lt.
  apply/andP; split; [exact: Regressors2.n_kept_below|exact: Regressors2.n_kept_next].
Qed.

(** Procrustes regression: with at least as many outputs as inputs the orthogonal map that fits best; with fewer outputs it
    fits the inputs from the outputs. *)
Theorem c71_procrustes (bias : bool) n d q (X : 'M[F]_(n, d)) (Y : 'M[F]_(n, q)) U s V :
  svd ((add_bias bias X)^T *m Y) = (U, s, V) -> is_svd ((add_bias bias X)^T *m Y) U s V ->
  exists2 R, opp_train svd pca false bias X Y = Ok R &
    ((d + bias <= q)%N -> R *m R^T = 1%:M /\ forall Q, Q *m Q^T = 1%:M -> fro (add_bias bias X *m R - Y) <= fro (add_bias bias X *m Q - Y)) /\
    ((q <= d + bias)%N -> R^T *m R = 1%:M /\ forall Q, Q^T *m Q = 1%:M -> fro (add_bias bias X - Y *m R^T) <= fro (add_bias bias X - Y *m Q^T)).
Proof.
  move=> E D. exists (U *m V); first by rewrite /opp_train; cbn [bind]; rewrite E.
  split=> H; [apply: (Regressors.opp_wide D)|apply: (Regressors.opp_tall D)]; by [apply/minn_idPl|apply/minn_idPr].
Qed.
(** With fewer outputs than inputs, as in every use (two coordinates per landmark against a descriptor), another orthogonal
    map may fit the outputs better. *)
Definition X31 : 'M[F]_2 := \matrix_(i, j) (if i == j then if i == 0 then 3%:R else 1 else 0).
Definition Y14 : 'M[F]_(2, 1) := \matrix_(i, j) (if i == 0 then 1 else 4%:R).
Definition Q01 : 'M[F]_(2 + false, 1) := \matrix_(i, j) (val i == 1%N)%:R.
Lemma ab n d (X : 'M[F]_(n, d)) i (j : 'I_(d + false)) (j' : 'I_d) : val j = val j' -> add_bias false X i j = X i j'.
Proof.
  move=> H. rewrite /add_bias mxE. case: split_ordP => a Ea; last by case: a Ea.
  congr (X i _). apply: val_inj. by rewrite -H Ea.
Qed.
Definition i0 : 'I_(2 + false) := Ordinal (isT : (0 < 2 + false)%N).
Definition i1 : 'I_(2 + false) := Ordinal (isT : (1 < 2 + false)%N).
Lemma sum2f (g : 'I_(2 + false) -> F) : \sum_i g i = g i0 + g i1.
Proof. rewrite big_ord_recl big_ord1. by congr (g _ + g _); apply: val_inj. Qed.
Lemma fit31 (R : 'M[F]_(2 + false, 1)) : fro (add_bias false X31 *m R - Y14) = (3%:R * R i0 0 - 1) ^+ 2 + (R i1 0 - 4%:R) ^+ 2.
Proof.
  rewrite /fro big_ord_recl big_ord1 !big_ord1.
  have E i : (add_bias false X31 *m R - Y14) i 0 = X31 i 0 * R i0 0 + X31 i 1 * R i1 0 - Y14 i 0.
    by rewrite mxE [(_ *m _) _ _]mxE [in X in _ + X]mxE sum2f (@ab _ _ X31 i i0 0) // (@ab _ _ X31 i i1 1).
  by rewrite !E /X31 /Y14 !mxE /= mul0r mul0r mul1r addr0 add0r.
Qed.
Lemma moment31 i : ((add_bias false X31)^T *m Y14) i 0 = if val i == 0%N then 3%:R else 4%:R.
Proof.
  rewrite mxE big_ord_recl big_ord1 [(_^T) _ _]mxE [(_^T) i (lift _ _)]mxE.
  case: i => [[|[|//]]] H.
  - by rewrite (@ab _ _ X31 _ _ 0) // (@ab _ _ X31 _ _ 0) // /X31 /Y14 !mxE /= mul0r addr0 mulr1.
  - by rewrite (@ab _ _ X31 _ _ 1) // (@ab _ _ X31 _ _ 1) // /X31 /Y14 !mxE /= mul0r add0r mul1r.
Qed.
Lemma procrustes_at : exists (Q : 'M[F]_(2 + false, 1)), Q = Q01 /\
  forall U s V, svd ((add_bias false X31)^T *m Y14) = (U, s, V) -> is_svd ((add_bias false X31)^T *m Y14) U s V ->
  exists2 R, opp_train svd pca false false X31 Y14 = Ok R & fro (add_bias false X31 *m Q01 - Y14) < fro (add_bias false X31 *m R - Y14).
Proof.
  exists Q01. split=> //.
  move=> U s V E D. have [R HR [_ /(_ isT) [O _]]] := c71_procrustes E D. exists R => //.
  have ER : R = U *m V by move: HR; rewrite /opp_train; cbn [bind]; rewrite E => [[]].
  have N : R i0 0 ^+ 2 + R i1 0 ^+ 2 = 1.
    have := congr1 (fun M : 'M[F]_1 => M 0 0) O. by rewrite mxE sum2f !mxE -!expr2.
  case: D => _ _ EM S _.
  have C i : ((add_bias false X31)^T *m Y14) i 0 = s 0 0 * R i 0.
    rewrite EM ER mxE big_ord1 mul_mx_diag mxE [s^T _ _]mxE [in RHS]mxE big_ord1. by rewrite mulrA [s _ _ * _]mulrC.
  have C0 := C i0. have C1 := C i1. rewrite moment31 /= in C0. rewrite moment31 /= in C1. move: (S 0) C0 C1 N.
  rewrite !fit31 /Q01 !mxE /=. move: (s 0 0) (R i0 0) (R i1 0) => t a b t0 Ca Cb N.
  have T2 : t ^+ 2 = 5%:R ^+ 2.
    have -> : t ^+ 2 = t ^+ 2 * (a ^+ 2 + b ^+ 2) by rewrite N mulr1.
    rewrite mulrDr -!exprMn -Ca -Cb -!natrX -natrD. by [].
  have T : t = 5%:R by apply/eqP; rewrite -(@eqr_expn2 _ 2) // ?ler0n // T2.
  rewrite {}T in Ca Cb. have F5 : (5%:R : F) != 0 by rewrite pnatr_eq0.
  have -> : a = 3%:R / 5%:R by rewrite Ca mulrC mulKf.
  have -> : b = 4%:R / 5%:R by rewrite Cb mulrC mulKf.
  have -> : (3%:R * (3%:R / 5%:R) - 1) ^+ 2 + (4%:R / 5%:R - 4%:R) ^+ 2 = 272%:R / 25%:R :> F.
    have -> : 3%:R * (3%:R / 5%:R) - 1 = 4%:R / 5%:R :> F.
      by apply: (mulIf F5); rewrite mulrBl mul1r mulrA !divfK // -natrM -natrB.
    have -> : 4%:R / 5%:R - 4%:R = - (16%:R / 5%:R) :> F.
      by apply: (mulIf F5); rewrite mulrBl mulNr !divfK // -natrM -opprB -natrB.
    have F25 : (25%:R : F) = 5%:R ^+ 2 by rewrite -natrX.
    by rewrite sqrrN !expr_div_n -mulrDl F25 -!natrX -natrD.
  have -> : (3%:R * 0 - 1) ^+ 2 + (1 - 4%:R) ^+ 2 = 10%:R :> F.
    have -> : 1 - 4%:R = - 3%:R :> F by rewrite -opprB -[1]/(1%:R) -natrB.
    by rewrite mulr0 sub0r !sqrrN expr1n -natrX -[1]/(1%:R) -natrD.
  by rewrite ltr_pdivl_mulr ?ltr0n // -natrM ltr_nat.
Qed.
Theorem c71_procrustes_refuted : exists (X : 'M[F]_2) (Y : 'M[F]_(2, 1)) (Q : 'M[F]_(2 + false, 1)), Q^T *m Q = 1%:M /\
  forall U s V, svd ((add_bias false X)^T *m Y) = (U, s, V) -> is_svd ((add_bias false X)^T *m Y) U s V ->
  exists2 R, opp_train svd pca false false X Y = Ok R & fro (add_bias false X *m Q - Y) < fro (add_bias false X *m R - Y).
Proof.
  exists X31, Y14, Q01. split.
    apply/matrixP => i j. rewrite !ord1 mxE sum2f !mxE /=. by rewrite mul0r add0r mulr1.
  by have [Q [_ H]] := procrustes_at.
Qed.

(** Whitened training data: its second moments are the reciprocals of the eigenvalues, so it is white only when it was. *)
Theorem c71_whiten_partial n d k (X : 'M[F]_(n, d)) U l c : pca X = existT _ k (U, l) -> U *m U^T = 1%:M -> (forall i, 0 < l i 0) ->
  c *: (X^T *m X) = U^T *m diag_mx l^T *m U ->
  exists2 X', opp_whiten pca X = Ok X' & c *: (X'^T *m X') = U^T *m invmx (diag_mx l^T) *m U /\
    (c *: (X'^T *m X') = U^T *m U <-> forall i, l i 0 = 1).
Proof.
  move=> E O L EX. rewrite /opp_whiten E (Regressors2.white_ok U L). cbn [bind]. eexists; first reflexivity.
  have W := Regressors2.whitened O L EX. rewrite W. split=> //.
  have DU : diag_mx l^T \in unitmx by rewrite Regressors.diag_unit; apply/forallP => i; rewrite gt_eqF.
  split=> [H i|H].
  - have : U *m (U^T *m invmx (diag_mx l^T) *m U) *m U^T = U *m (U^T *m U) *m U^T by rewrite H.
    rewrite !mulmxA O !mul1mx -[_ *m U *m U^T]mulmxA O mulmx1 => I.
    have : diag_mx l^T *m invmx (diag_mx l^T) = diag_mx l^T by rewrite I mulmx1.
    rewrite mulmxV // => /(congr1 (fun M : 'M[F]_k => M i i)). by rewrite !mxE eqxx !mulr1n.
  - have -> : diag_mx l^T = 1%:M by rewrite -diag_const_mx; congr diag_mx; apply/rowP => i; rewrite !mxE H.
    by rewrite invmx1 mulmx1.
Qed.
End C71.

(** Concrete decompositions. *)
Section Examples.
Variable F : rcfType.
(** One column: the eigenvalue is the sum of squares. *)
Definition pca1 n d (X : 'M[F]_(n, d)) : {k & ('M[F]_(k, d) * 'cV[F]_k)%type} :=
  let t := \sum_i \sum_j X i j ^+ 2 in
  if t == 0 then existT _ 0%N (0, 0) else existT _ 1%N (const_mx 1, const_mx t).
Lemma pca1_ok n (X : 'M[F]_(n, 1)) : let: existT k (U, l) := pca1 X in is_pca X U l.
Proof.
  rewrite /pca1. set t := \sum_i _. have G : X^T *m X = t%:M.
    apply/matrixP => i j. rewrite !ord1 mxE [t%:M _ _]mxE eqxx mulr1n. apply: eq_bigr => a _. by rewrite big_ord1 mxE expr2.
  have t0 : 0 <= t by apply: sumr_ge0 => i _; apply: sumr_ge0 => j _; rewrite sqr_ge0.
  case: eqP => [Z|/eqP N]; split=> //.
  - by apply/matrixP => [[]].
  - by case.
  - exists 1; first exact: ltr01. rewrite scale1r G Z mulmx0. by apply/matrixP => i j; rewrite !mxE mul0rn.
  - apply/matrixP => i j. by rewrite !ord1 !mxE big_ord1 !mxE mulr1.
  - by move=> i; rewrite mxE lt_neqAle eq_sym N.
  - exists 1; first exact: ltr01. rewrite scale1r G. apply/matrixP => i j.
    by rewrite !ord1 !mxE big_ord1 !mxE big_ord1 !mxE !mulr1n mul1r mulr1.
Qed.
Definition pinv1 n d (X : 'M[F]_(n, d)) : 'M[F]_(d, n) := invmx (X^T *m X) *m X^T.
Lemma pinv1_ok n m (G : 'M[F]_(n, m)) : full_rank G -> penrose G (pinv1 G).
Proof. exact: LinAlg.pinv_full_rank. Qed.

(** Optimal linear regression of any outputs on one feature meets every hypothesis. *)
Example c71_optimal_example n q (X : 'M[F]_(n, 1)) (Y : 'M[F]_(n, q)) :
  exists2 R, olr_train pca1 pinv1 None false X Y = Ok R & forall j, least_norm (add_bias false X) (col j Y) (col j R).
Proof.
  have := pca1_ok (add_bias false X). case E : (pca1 (add_bias false X)) => [k [U l]] D.
  apply: (c71_optimal (U := U) (l := l)) => //; first exact: pinv1_ok.
  move=> W _. have K : k = 0%N \/ k = 1%N.
    move: E. rewrite /pca1. case: eqP => _ /(congr1 (@projT1 _ _)) /= ->; by [left|right].
  case: K W => -> W; last exact: pca1_ok. rewrite /pca1 big1; last by case. rewrite eqxx. split.
  - by apply/matrixP => [[]].
  - by case.
  - by exists 1; [exact: ltr01|apply/matrixP => [[]]].
Qed.

(** A diagonal matrix and its decomposition; a column and its decomposition. *)
Definition svd31 n d (X : 'M[F]_(n, d)) : 'M[F]_(n, minn n d) * 'cV[F]_(minn n d) * 'M[F]_(minn n d, d) :=
  (\matrix_(i, j) (val i == val j)%:R, \col_i (if val i == 0%N then 3%:R else 1), \matrix_(i, j) (val i == val j)%:R).
Lemma svd31_ok : let: (U, s, V) := svd31 (add_bias false (X31 F)) in is_svd (add_bias false (X31 F)) U s V.
Proof.
  have I : (\matrix_(i, j) (val i == val j)%:R : 'M[F]_2) = 1%:M by apply/matrixP => i j; rewrite !mxE.
  rewrite /svd31 /=. split.
  - by rewrite I trmx1 mulmx1.
  - by rewrite I trmx1 mulmx1.
  - rewrite I mul1mx mulmx1. apply/matrixP => i j. rewrite (@ab F _ _ (X31 F) i j j) // !mxE.
    by case: eqP => _; rewrite ?mulr1n ?mulr0n.
  - move=> i; rewrite mxE; case: ifP => _; by rewrite ?ler0n ?ler01.
  - move=> i j L; rewrite !mxE. case: (val i == _) / eqP => [_|N]; case: (val j == _) / eqP => [M|_] //.
    + by rewrite ler1n.
    + by move: L; rewrite M leqn0 => /eqP.
Qed.
(** The requested part is not kept: 98% asked for, 75% kept. *)
Theorem c71_pcr_kept_refuted : exists (svd : forall n d, 'M[F]_(n, d) -> 'M[F]_(n, minn n d) * 'cV[F]_(minn n d) * 'M[F]_(minn n d, d)) (X : 'M[F]_2) U s V v, [/\ svd _ _ (add_bias false X) = (U, s, V), is_svd (add_bias false X) U s V, 0 < v < 1 &
  forall Y : 'M[F]_(2, 1), exists2 st, pcr_train svd (Some v) false X Y = Ok st & carried s (pcr_k st) < v].
Proof.
  exists svd31, (X31 F), (svd31 (add_bias false (X31 F))).1.1, (svd31 (add_bias false (X31 F))).1.2, (svd31 (add_bias false (X31 F))).2, (98%:R / 100%:R).
  split=> //; first exact: svd31_ok.
    by rewrite divr_gt0 ?ltr0n // ltr_pdivr_mulr ?ltr0n // mul1r ltr_nat.
  move=> Y. have [] := @c71_pcr_reduced_partial F svd31 false _ _ _ (X31 F) Y _ _ _ erefl svd31_ok _ (98%:R / 100%:R).
  - exists 0. by rewrite mxE /= pnatr_eq0.
  - by rewrite divr_gt0 ?ltr0n.
  - by rewrite ler_pdivr_mulr ?ltr0n // mul1r ler_nat.
  - by move=> st Est [_ _ _ /andP [C _]]; exists st.
Qed.
Example c71_pcr_example : exists2 st, pcr_train svd31 None false (X31 F) (Y14 F) = Ok st & least_norm (add_bias false (X31 F)) (col 0 (Y14 F)) (col 0 (pcr_R st)).
Proof.
  have := @c71_pcr F svd31 false _ _ _ (X31 F) (Y14 F) _ _ _ erefl svd31_ok None (or_introl erefl).
  case: (pcr_train _ _ _ _ _) => [st [_ [H _]]|e [_ [i]]]; first by exists st.
  rewrite mxE. case: ifP => _ /eqP; by rewrite ?pnatr_eq0 ?oner_eq0.
Qed.
Definition svd34 n d (X : 'M[F]_(n, d)) : 'M[F]_(n, minn n d) * 'cV[F]_(minn n d) * 'M[F]_(minn n d, d) :=
  (\matrix_(i, j) ((if val i == 0%N then 3%:R else 4%:R) / 5%:R), const_mx 5%:R, const_mx 1).
Lemma svd34_ok : let M := (add_bias false (X31 F))^T *m Y14 F in let: (U, s, V) := svd34 M in is_svd M U s V.
Proof.
  have F5 : (5%:R : F) != 0 by rewrite pnatr_eq0. rewrite /svd34 /=. split.
  - apply/matrixP => i j. rewrite !ord1 mxE (@sum2f F) !mxE /= -!expr2 !expr_div_n -mulrDl -!natrX -natrD. by rewrite mulfV // pnatr_eq0.
  - apply/matrixP => i j. by rewrite !ord1 !mxE big_ord1 !mxE mulr1.
  - apply/matrixP => i j. rewrite !ord1 (@moment31 F) mxE big_ord1 mul_mx_diag !mxE mulr1 divfK //.
  - by move=> i; rewrite mxE ler0n.
  - by move=> i j _; rewrite !mxE.
Qed.
Example c71_procrustes_example : exists2 R, opp_train svd34 pca1 false false (X31 F) (Y14 F) = Ok R &
  R^T *m R = 1%:M /\ fro (add_bias false (X31 F) *m Q01 F - Y14 F) < fro (add_bias false (X31 F) *m R - Y14 F).
Proof.
  have [R ER [_ /(_ isT) [O _]]] := @c71_procrustes F svd34 pca1 false _ _ _ (X31 F) (Y14 F) _ _ _ erefl svd34_ok. exists R => //. split=> //.
  have [Q [_ /(_ _ _ _ erefl svd34_ok) [R' E' L]]] := procrustes_at svd34 pca1. by move: E' L; rewrite ER => [[<-]].
Qed.
(** Whitening is not whitening, and prediction does not apply it. *)
Theorem c71_whiten_refuted : exists (pca : forall n d, 'M[F]_(n, d) -> {k & ('M[F]_(k, d) * 'cV[F]_k)%type}) (X : 'M[F]_1) k U l X', [/\ pca _ _ X = existT _ k (U, l), is_pca X U l, opp_whiten pca X = Ok X' &
  (1%:R^-1 *: (X^T *m X) = U^T *m diag_mx l^T *m U /\ 1%:R^-1 *: (X'^T *m X') != U^T *m U) /\ X' != X].
Proof.
  have T4 : \sum_i \sum_j (2%:R%:M : 'M[F]_1) i j ^+ 2 = 4%:R by rewrite !big_ord1 mxE eqxx mulr1n -natrX.
  have E : pca1 (2%:R%:M : 'M[F]_1) = existT _ 1%N (const_mx 1, const_mx 4%:R).
    by rewrite /pca1 T4 pnatr_eq0.
  have := pca1_ok (2%:R%:M : 'M[F]_1). rewrite E => P. case: (P) => O L _.
  have EX : (1%:R^-1 : F) *: (((2%:R%:M : 'M[F]_1))^T *m (2%:R%:M : 'M[F]_1)) = (const_mx 1 : 'M[F]_1)^T *m diag_mx (const_mx 4%:R : 'cV[F]_1)^T *m (const_mx 1 : 'M[F]_1).
    rewrite invr1 scale1r. apply/matrixP => i j. rewrite !ord1 tr_scalar_mx -scalar_mxM !mxE big_ord1 !mxE big_ord1 !mxE eqxx !mulr1n.
    by rewrite mul1r mulr1 -natrM.
  have [X' EX' [W1 W2]] := c71_whiten_partial E O L EX.
  exists pca1, 2%:R%:M, 1%N, (const_mx 1), (const_mx 4%:R), X'. split=> //. split; [split=> //|].
  - apply/eqP => /W2 /(_ 0). rewrite mxE => /eqP. by rewrite (eqr_nat F 4 1).
  - apply/eqP => C. rewrite C EX in W1. have D4 : (const_mx 1 : 'M[F]_1)^T *m diag_mx (const_mx 4%:R : 'cV[F]_1)^T *m (const_mx 1 : 'M[F]_1) = 4%:R%:M.
      apply/matrixP => i j. rewrite !ord1 !mxE big_ord1 !mxE big_ord1 !mxE eqxx !mulr1n. by rewrite mul1r mulr1.
    have D1 : diag_mx (const_mx 4%:R : 'cV[F]_1)^T = 4%:R%:M by apply/matrixP => i j; rewrite !ord1 !mxE eqxx.
    rewrite D4 D1 invmx_scalar in W1. have := congr1 (fun M : 'M[F]_1 => M 0 0) W1.
    rewrite !mxE big_ord1 !mxE big_ord1 !mxE eqxx !mulr1n mul1r mulr1 => /eqP.
    rewrite -(inj_eq (mulfI (_ : 4%:R != 0 :> F))) ?pnatr_eq0 // mulfV ?pnatr_eq0 // -natrM. by rewrite (eqr_nat F 16 1).
Qed.
End Examples.

Print Assumptions c71_pcr.
Print Assumptions c71_pcr_reduced_partial.
Print Assumptions c71_pcr_nothing.
Print Assumptions c71_optimal.
Print Assumptions c71_optimal_pcr.
Print Assumptions c71_optimal_reduced_partial.
Print Assumptions c71_procrustes.
Print Assumptions c71_procrustes_refuted.
Print Assumptions c71_whiten_partial.
Print Assumptions c71_optimal_example.
Print Assumptions c71_pcr_kept_refuted.
Print Assumptions c71_pcr_example.
Print Assumptions c71_procrustes_example.
Print Assumptions c71_whiten_refuted.
