(** Proofs about the regressors that reduce dimensions: the trained states of the model. *)
From Verif.Model Require Import Py LinAlg Regression Regressors.
From Verif.Spec Require Import LinAlg Regressors.
From Verif.Proofs Require Import LinAlg MRing Regressors.
From mathcomp Require Import all_ssreflect all_algebra.
Set Implicit Arguments.
Unset Strict Implicit.
Unset Printing Implicit Defensive.
Import Order.TTheory GRing.Theory Num.Theory.
Local Open Scope ring_scope.

Section RCF.
Variable F : rcfType.
Add Ring Fr : (@r_ring F).

(** Slices as products with a selection of columns. *)
Definition sel r k : 'M[F]_(r, k) := \matrix_(i, j) ((val i == val j)%:R).
Lemma insub_sum k r (g : 'I_r -> F) (j : 'I_k) : \sum_(i < r) g i * (val i == val j)%:R = if insub (val j) is Some j' then g j' else 0.
Proof.
  case: insubP => [j' _ E|N].
  - rewrite (bigD1 j') //= big1 ?addr0; last by move=> i H; rewrite -E val_eqE (negbTE H) mulr0.
    by rewrite E eqxx mulr1.
  - rewrite big1 // => i _. case: eqP => [E|_]; last by rewrite mulr0. by rewrite -E ltn_ord in N.
Qed.
Lemma first_colsE k n r (M : 'M[F]_(n, r)) : first_cols k M = M *m sel r k.
Proof. apply/matrixP => i j. rewrite !mxE -(insub_sum (fun j' => M i j')). by apply: eq_bigr => l _; rewrite mxE. Qed.
Lemma first_rowsE k r n (M : 'M[F]_(r, n)) : first_rows k M = (sel r k)^T *m M.
Proof. apply/matrixP => i j. rewrite !mxE -(insub_sum (fun i' => M i' j)). by apply: eq_bigr => l _; rewrite !mxE mulrC. Qed.
Lemma sel_ortho r k : (k <= r)%N -> (sel r k)^T *m sel r k = 1%:M.
Proof.
  move=> L. apply/matrixP => i j. rewrite [LHS]mxE [RHS]mxE.
  rewrite (eq_bigr (fun a : 'I_r => (val a == val i)%:R * (val a == val j)%:R)); last by move=> a _; rewrite !mxE.
  rewrite (insub_sum (fun a : 'I_r => (val a == val i)%:R)).
  case: insubP => [j' _ E|]; last by rewrite (leq_trans (ltn_ord j) L). by rewrite E eq_sym.
Qed.
Lemma sel_diag r k (s : 'cV[F]_r) : (k <= r)%N -> diag_mx s^T *m sel r k = sel r k *m diag_mx (first_rows k s)^T.
Proof.
  move=> L. apply/matrixP => i j. rewrite mul_diag_mx mul_mx_diag !mxE.
  case: insubP => [j' _ E|]; last by rewrite (leq_trans (ltn_ord j) L).
  rewrite -E. case: eqP => [/val_inj ->|_]; by rewrite ?mulr1 ?mul1r ?mulr0 ?mul0r.
Qed.
Lemma n_kept_le r (s : 'cV[F]_r) v : (n_kept s v <= r)%N.
Proof. by rewrite /n_kept; apply: leq_trans (max_card _) _; rewrite card_ord. Qed.
Lemma n_keptE r (s : 'cV[F]_r) v (i : 'I_r) : (forall i, 0 <= s i 0) -> \sum_i s i 0 != 0 ->
  (i < n_kept s v)%N = (carried s i.+1 < v).
Proof.
  move=> S T. rewrite /n_kept. have T0 : 0 < \sum_i s i 0 by rewrite lt_neqAle eq_sym T sumr_ge0.
  rewrite closed_count => [|a b L /andP [_ H]]; first by rewrite /= T.
  rewrite /= T /=. apply: le_lt_trans H. rewrite ler_pmul2r ?invr_gt0 // /cumsum.
  rewrite [X in _ <= X](bigID (fun j : 'I_r => (j <= a)%N)) /=.
  rewrite [X in _ <= X + _](eq_bigl (fun j : 'I_r => (j <= a)%N)); last first.
    move=> j. rewrite andb_idl // => H. exact: leq_trans H L.
  by rewrite ler_addl sumr_ge0.
Qed.
Lemma n_kept_below r (s : 'cV[F]_r) v : (forall i, 0 <= s i 0) -> \sum_i s i 0 != 0 -> 0 < v -> carried s (n_kept s v) < v.
Proof.
  move=> S T V. case E : (n_kept s v) => [|m].
    by rewrite /carried big1 ?mul0r // => i; rewrite ltn0.
  have Lm : (m < r)%N by rewrite -E n_kept_le. have := n_keptE v (Ordinal Lm) S T. by rewrite E ltnSn => /esym.
Qed.
Lemma n_kept_next r (s : 'cV[F]_r) v : (forall i, 0 <= s i 0) -> \sum_i s i 0 != 0 -> (n_kept s v < r)%N ->
  v <= carried s (n_kept s v).+1.
Proof. move=> S T L. have := n_keptE v (Ordinal L) S T. by rewrite ltnn => /esym /negbT; rewrite -leNgt. Qed.
Lemma carried_all r (s : 'cV[F]_r) : \sum_i s i 0 != 0 -> carried s r = 1.
Proof.
  move=> T. rewrite /carried. have -> : \sum_(i < r | (i < r)%N) s i 0 = \sum_i s i 0; last exact: mulfV.
  by apply: eq_bigl => i; rewrite ltn_ord.
Qed.
Lemma n_kept_lt r (s : 'cV[F]_r) v : (forall i, 0 <= s i 0) -> \sum_i s i 0 != 0 -> 0 < v -> v <= 1 -> (n_kept s v < r)%N.
Proof.
  move=> S T v0 v1. have := n_kept_le s v. rewrite leq_eqVlt => /orP [/eqP C|//].
  have := n_kept_below S T v0. by rewrite C carried_all // => /lt_le_trans /(_ v1); rewrite ltxx.
Qed.
Lemma np_inv_ok r (A B : 'M[F]_r) : np_inv A = Ok B -> A \in unitmx /\ B = invmx A.
Proof. by rewrite /np_inv; case: ifP => // U [<-]. Qed.

(** A reduced decomposition. *)
Section Cut.
Variables (n d r k : nat) (X : 'M[F]_(n, d)) (U : 'M[F]_(n, r)) (s : 'cV[F]_r) (V : 'M[F]_(r, d)).
Hypothesis (D : is_svd X U s V) (L : (k <= r)%N).
Lemma cut_U : (first_cols k U)^T *m first_cols k U = 1%:M.
Proof. case: D => O _ _ _ _. by rewrite !first_colsE trmx_mul mulmxA -[_ *m U^T *m U]mulmxA O mulmx1 sel_ortho. Qed.
Lemma cut_V : first_rows k V *m (first_rows k V)^T = 1%:M.
Proof. case: D => _ O _ _ _. by rewrite !first_rowsE trmx_mul trmxK mulmxA -[_ *m V *m V^T]mulmxA O mulmx1 sel_ortho. Qed.
Lemma cut_X : X *m (first_rows k V)^T = first_cols k U *m diag_mx (first_rows k s)^T.
Proof.
  case: D => _ O -> _ _. rewrite first_colsE first_rowsE trmx_mul trmxK mulmxA -[U *m _ *m V *m V^T]mulmxA O mulmx1.
  by rewrite -!mulmxA sel_diag.
Qed.
End Cut.
Lemma full_X n d r (X : 'M[F]_(n, d)) (U : 'M[F]_(n, r)) s (V : 'M[F]_(r, d)) : is_svd X U s V -> X *m V^T = U *m diag_mx s^T.
Proof. by case=> _ O -> _ _; rewrite -[_ *m V *m V^T]mulmxA O mulmx1. Qed.

Variable svd : forall n d, 'M[F]_(n, d) -> 'M[F]_(n, minn n d) * 'cV[F]_(minn n d) * 'M[F]_(minn n d, d).
Section PCR.
Variables (bias : bool) (n d q : nat) (X : 'M[F]_(n, d)) (Y : 'M[F]_(n, q)).
Variables (U : 'M[F]_(n, minn n (d + bias))) (s : 'cV[F]_(minn n (d + bias))) (V : 'M[F]_(minn n (d + bias), d + bias)).
Hypothesis (E : svd (add_bias bias X) = (U, s, V)) (D : is_svd (add_bias bias X) U s V).
Lemma pcr_none variance : variance = None \/ variance = Some 0 ->
  match pcr_train svd variance bias X Y with
  | Ok st => (forall i, s i 0 != 0) /\ (forall j, least_norm (add_bias bias X) (col j Y) (col j (pcr_R st))) /\
             (forall m (x : 'M[F]_(m, d)), pcr_predict st x = add_bias bias x *m pcr_R st)
  | Err e => e = LinAlgError /\ exists i, s i 0 = 0
  end.
Proof.
  move=> VN. have -> : pcr_train svd variance bias X Y = let? inv_S := np_inv (diag_mx s^T) in Ok (mk_pcr V (V^T *m inv_S *m U^T *m Y)).
    by rewrite /pcr_train E; case: VN => -> //; rewrite eqxx.
  rewrite /np_inv diag_unit. case: forallP => H; cbn [bind]; last first.
    split=> //. have : ~~ [forall i, s i 0 != 0] by apply/forallP.
    rewrite negb_forall => /existsP [i]. rewrite negbK => /eqP I. by exists i.
  have S0 : diag_mx s^T \in unitmx by rewrite diag_unit; apply/forallP.
  case: (D) => OU OV EX _ _. split; first exact: H. split.
  - move=> j. apply: pcr_least_norm => //; exact: full_X.
  - move=> m x. exact: pcr_predicts.
Qed.
Lemma pcr_some v st : v != 0 -> pcr_train svd (Some v) bias X Y = Ok st ->
  [/\ pcr_k st = n_kept s v,
      forall j, best_in_rows (pcr_V st) (add_bias bias X) (col j Y) (col j (pcr_R st)) &
      forall m (x : 'M[F]_(m, d)), pcr_predict st x = add_bias bias x *m pcr_R st].
Proof.
  move=> V0. rewrite /pcr_train E (negbTE V0). set k := n_kept s v. have L : (k <= minn n (d + bias))%N by exact: n_kept_le.
  case EI : np_inv => [B|e] //; cbn [bind]. case: (np_inv_ok EI) => S0 -> [<-] /=. split=> //.
  - move=> j. apply: pcr_best => //; [exact: (cut_U D L)|exact: (cut_X D L)].
  - move=> m x. apply: pcr_predicts; exact: (cut_V D L).
Qed.
Lemma pcr_some_ok v : v != 0 -> (forall i : 'I_(minn n (d + bias)), (i < n_kept s v)%N -> s i 0 != 0) -> exists st, pcr_train svd (Some v) bias X Y = Ok st.
Proof.
  move=> V0 H. rewrite /pcr_train E (negbTE V0). set k := n_kept s v in H *. have L : (k <= minn n (d + bias))%N by exact: n_kept_le.
  have S0 : diag_mx (first_rows k s)^T \in unitmx.
    rewrite diag_unit; apply/forallP => i. rewrite mxE. case: insubP => [j _ Ej|]; last by rewrite (leq_trans (ltn_ord i) L).
    apply: H. by rewrite (_ : (j : nat) = i) // ltn_ord.
  by rewrite /np_inv S0; cbn [bind]; eexists.
Qed.
Lemma pcr_nothing v st : v != 0 -> n_kept s v = 0%N -> pcr_train svd (Some v) bias X Y = Ok st -> pcr_R st = 0.
Proof.
  move=> V0 K T. have [Ek B _] := pcr_some V0 T. apply/matrixP => i j. case: (B j) => z [Ez _].
  have -> : pcr_R st i j = (col j (pcr_R st)) i 0 by rewrite mxE. rewrite {}Ez.
  rewrite mxE [RHS]mxE big1 // => a _. have La : (val a < n_kept s v)%N by rewrite -Ek ltn_ord. by rewrite K in La.
Qed.
End PCR.

(** Optimal linear regression. *)
Lemma gram_null n d m (X : 'M[F]_(n, d)) (N : 'M[F]_(d, m)) : X^T *m X *m N = 0 -> X *m N = 0.
Proof.
  move=> H. apply/matrixP => i j. have Z : X *m col j N = 0.
    apply: sqn_eq0. rewrite -gram_quad. have -> : col j N = N *m delta_mx j 0 by rewrite colE.
    by rewrite -!mulmxA [X^T *m (X *m _)]mulmxA [X^T *m X *m _]mulmxA H mul0mx mulmx0 mxE.
  have := congr1 (fun M : 'cV[F]_n => M i 0) Z. rewrite [RHS]mxE => Z'. rewrite [RHS]mxE -[RHS]Z'.
  by rewrite !mxE; apply: eq_bigr => a _; rewrite [col _ _ _ _]mxE.
Qed.
Lemma pca_all n d k (X : 'M[F]_(n, d)) (U : 'M[F]_(k, d)) l : is_pca X U l -> X *m U^T *m U = X.
Proof.
  case=> O _ [c c0 E]. apply/eqP. rewrite -subr_eq0 -oppr_eq0 opprB. apply/eqP.
  have -> : X - X *m U^T *m U = X *m (1%:M - U^T *m U) by rewrite mulmxBr mulmx1 mulmxA.
  apply: gram_null. have : c *: (X^T *m X *m (1%:M - U^T *m U)) = 0.
    by rewrite scalemxAl E -mulmxA mulmxBr mulmx1 [U *m (_ *m _)]mulmxA O mul1mx subrr mulmx0.
  move=> H. have := congr1 (fun M => c^-1 *: M) H. by rewrite scalerA mulVf ?gt_eqF // scale1r scaler0.
Qed.
Lemma pca_gram k q k2 (B : 'M[F]_(k, q)) (V : 'M[F]_(k2, k)) l : is_pca (B *m B^T) V l -> V^T *m (V *m B) = B.
Proof.
  move=> P. have E := pca_all P. have N : B *m B^T *m (1%:M - V^T *m V) = 0 by rewrite mulmxBr mulmx1 mulmxA E subrr.
  have Z : B^T *m (1%:M - V^T *m V) = 0 by apply: gram_null; rewrite trmxK.
  have := congr1 (fun M => M^T) Z. rewrite trmx_mul trmxK linearB /= trmx1 trmx_mul trmxK trmx0 mulmxBl mul1mx mulmxA => /eqP.
  by rewrite subr_eq0 => /eqP.
Qed.
Lemma pinv_scaled n m (c : F) (G : 'M[F]_(n, m)) (P : 'M[F]_(m, n)) : c *: (G^T *m G) = 1%:M -> penrose G P -> P = c *: G^T.
Proof.
  move=> I [P1 P2 P3 P4]. have PG : P *m G = 1%:M.
    have := congr1 (fun M => c *: G^T *m M) P1. rewrite !mulmxA -![c *: G^T *m G]scalemxAl I mul1mx. by [].
  have E : c *: G^T *m (G *m P) = P by rewrite mulmxA -scalemxAl I mul1mx.
  by rewrite -{1}E -P3 trmx_mul mulmxA -scalemxAl -trmx_mul PG trmx1 -scalemxAl mul1mx.
Qed.
Lemma sqrt_diag k (l : 'cV[F]_k) : (forall i, 0 < l i 0) ->
  let W := map_mx Num.sqrt (invmx (diag_mx l^T)) in W^T = W /\ W *m W = invmx (diag_mx l^T).
Proof.
  move=> P W. have U : diag_mx l^T \in unitmx by rewrite diag_unit; apply/forallP => i; rewrite gt_eqF.
  have EI : invmx (diag_mx l^T) = diag_mx (\row_i (l i 0)^-1).
    apply: (can_inj (mulKmx U)). rewrite mulmxV // mulmx_diag -[1%:M]diag_const_mx. congr diag_mx. apply/rowP => i.
    by rewrite !mxE mulfV // gt_eqF.
  have EW : W = diag_mx (\row_i Num.sqrt (l i 0)^-1).
    apply/matrixP => i j. rewrite /W EI !mxE. by case: eqP => _; rewrite ?mulr1n ?mulr0n ?sqrtr0.
  split; first by rewrite EW tr_diag_mx. rewrite EW EI mulmx_diag. congr diag_mx. apply/rowP => i.
  by rewrite !mxE -expr2 sqr_sqrtr // invr_ge0 ltW.
Qed.
Section OLR.
Variables (n d q k k2 : nat) (X : 'M[F]_(n, d)) (Y : 'M[F]_(n, q)) (U : 'M[F]_(k, d)) (l : 'cV[F]_k) (c : F).
Hypothesis (O : U *m U^T = 1%:M) (L : forall i, 0 < l i 0) (c0 : 0 < c) (EX : c *: (X^T *m X *m U^T) = U^T *m diag_mx l^T).
Let D := diag_mx l^T.
Let W := map_mx Num.sqrt (invmx D) *m U.
Variables (V : 'M[F]_(k2, k)) (l2 : 'cV[F]_k2).
Hypothesis (A2 : is_pca (W *m (X^T *m Y *m Y^T *m X) *m W^T) V l2).
Let H := V *m W.
Variable P : 'M[F]_(k2, n).
Hypothesis PP : penrose (X *m H^T) P.
Let D_unit : D \in unitmx. Proof. by rewrite diag_unit; apply/forallP => i; rewrite gt_eqF. Qed.
Lemma olr_white : c *: (W *m X^T *m X *m W^T) = 1%:M.
Proof.
  have [Wt WW] := sqrt_diag L. rewrite /W trmx_mul Wt. set S := map_mx _ _ in Wt WW *.
  rewrite -!mulmxA [X^T *m (X *m _)]mulmxA [X^T *m X *m (U^T *m _)]mulmxA scalemxAr scalemxAr [c *: (_ *m S)]scalemxAl EX -/D.
  rewrite -mulmxA [U *m (U^T *m _)]mulmxA O mul1mx.
  have C : S *m D = D *m S.
    have E1 : S *m invmx D = invmx D *m S by rewrite -WW mulmxA.
    have : D *m (S *m invmx D) *m D = D *m (invmx D *m S) *m D by rewrite E1.
    by rewrite !mulmxA mulmxV // mul1mx -!mulmxA mulVmx // mulmx1.
  by rewrite -C mulmxA WW mulVmx.
Qed.
Lemma olr_solution : H^T *m (P *m Y) = c *: (U^T *m invmx D *m U *m X^T *m Y).
Proof.
  have OV : V *m V^T = 1%:M by case: A2.
  have I : c *: ((X *m H^T)^T *m (X *m H^T)) = 1%:M.
    rewrite /H. move: olr_white. move: W => W0 E0.
    have -> : (X *m (V *m W0)^T)^T *m (X *m (V *m W0)^T) = V *m (W0 *m X^T *m X *m W0^T) *m V^T.
      by rewrite !trmx_mul !trmxK !mulmxA.
    by rewrite scalemxAl scalemxAr E0 mulmx1.
  have Ht : (X *m H^T)^T = H *m X^T by move: H => H0; rewrite trmx_mul trmxK.
  rewrite (pinv_scaled I PP) Ht -!scalemxAl -!scalemxAr. congr (_ *: _).
  have B : is_pca ((W *m X^T *m Y) *m (W *m X^T *m Y)^T) V l2.
    move: A2. move: W => W0. by rewrite !trmx_mul !trmxK !mulmxA.
  have EB := pca_gram B. rewrite /H.
  have -> : (V *m W)^T *m (V *m W *m X^T *m Y) = W^T *m (V^T *m (V *m (W *m X^T *m Y))).
    move: W => W0. by rewrite trmx_mul !mulmxA.
  rewrite EB /W trmx_mul. have [Wt WW] := sqrt_diag L. rewrite Wt -/D in WW *. move: (map_mx _ _) WW => S0 WW.
  by rewrite -WW !mulmxA.
Qed.
Lemma olr_best j : best_in_rows U X (col j Y) (col j (H^T *m (P *m Y))).
Proof.
  rewrite olr_solution. set z := c *: (invmx D *m (U *m (X^T *m col j Y))).
  have E : col j (c *: (U^T *m invmx D *m U *m X^T *m Y)) = U^T *m z.
    by rewrite /z -scalemxAr !colE -!scalemxAl -!mulmxA.
  exists z. rewrite E. split=> //. move=> z'. rewrite !mulmxA. set G := X *m U^T.
  have GG : c *: (G^T *m G) = D by rewrite /G trmx_mul trmxK -!mulmxA scalemxAr [X^T *m (X *m _)]mulmxA EX mulmxA O mul1mx.
  have N : G^T *m (G *m z - col j Y) = 0.
    rewrite mulmxBr mulmxA /z -scalemxAr scalemxAl GG [D *m (invmx D *m _)]mulmxA mulmxV // mul1mx /G trmx_mul trmxK -mulmxA subrr. by [].
  split; first exact: (normal_least N).
  move=> /(normal_same N) Z. congr (_ *m _). apply/eqP. rewrite -subr_eq0.
  have : D *m (z' - z) = 0 by rewrite -GG -scalemxAl -mulmxA Z mulmx0 scaler0.
  move/(congr1 (fun M => invmx D *m M)). rewrite mulmxA mulVmx // mul1mx mulmx0 => ->. by [].
Qed.
Lemma olr_least_norm j : c *: (X^T *m X) = U^T *m D *m U -> least_norm X (col j Y) (col j (H^T *m (P *m Y))).
Proof.
  move=> EF. rewrite olr_solution. set y := col j Y.
  have -> : col j (c *: (U^T *m invmx D *m U *m X^T *m Y)) = c *: (U^T *m (invmx D *m (U *m (X^T *m y)))).
    by rewrite /y !colE -!scalemxAl -!mulmxA.
  have XU : X *m U^T *m U = X by apply: (@pca_all _ _ _ X U l); split=> //; exists c.
  have UX : U^T *m (U *m X^T) = X^T by rewrite -{2}XU !trmx_mul trmxK.
  apply: (@normal_least_norm _ _ _ _ _ (c *: (c *: (X *m (U^T *m (invmx D *m (invmx D *m (U *m (X^T *m y))))))))).
  - rewrite mulmxBr mulmxA -scalemxAr scalemxAl EF -!mulmxA [U *m (U^T *m _)]mulmxA O mul1mx [D *m (invmx D *m _)]mulmxA mulmxV //.
    rewrite mul1mx [U *m (X^T *m _)]mulmxA [U^T *m _]mulmxA UX subrr. by [].
  - rewrite -!scalemxAr. congr (_ *: _). rewrite [X^T *m (X *m _)]mulmxA scalemxAl EF -!mulmxA [U *m (U^T *m _)]mulmxA O mul1mx.
    by rewrite [D *m (invmx D *m _)]mulmxA mulmxV // mul1mx.
Qed.
End OLR.
(** Whitening. *)
Lemma whitened n d k (X : 'M[F]_(n, d)) (U : 'M[F]_(k, d)) (l : 'cV[F]_k) (c : F) : U *m U^T = 1%:M -> (forall i, 0 < l i 0) ->
  c *: (X^T *m X) = U^T *m diag_mx l^T *m U ->
  let W := map_mx Num.sqrt (invmx (diag_mx l^T)) *m U in let X' := X *m W^T *m W in
  c *: (X'^T *m X') = U^T *m invmx (diag_mx l^T) *m U.
Proof.
  move=> O L EX W X'. have [Wt WW] := sqrt_diag L. set D := diag_mx l^T in EX W X' Wt WW *.
  have DU : D \in unitmx by rewrite diag_unit; apply/forallP => i; rewrite gt_eqF.
  have EW : W^T *m W = U^T *m invmx D *m U.
    by rewrite /W trmx_mul Wt; move: (map_mx _ _) WW => S0 WW; rewrite -WW !mulmxA.
  have Ws : (U^T *m invmx D *m U)^T = U^T *m invmx D *m U by rewrite !trmx_mul trmxK trmx_inv tr_diag_mx !mulmxA.
  have -> : X'^T *m X' = (U^T *m invmx D *m U) *m (X^T *m X) *m (U^T *m invmx D *m U).
    rewrite /X' -[X *m _ *m _]mulmxA EW. move: (U^T *m _ *m _) Ws => M Ms. by rewrite trmx_mul Ms !mulmxA.
  rewrite scalemxAl scalemxAr EX.
  by rewrite -!mulmxA ![U *m (U^T *m _)]mulmxA O !mul1mx [D *m (invmx D *m _)]mulmxA mulmxV // mul1mx.
Qed.

Variable pca : forall n d, 'M[F]_(n, d) -> {k & ('M[F]_(k, d) * 'cV[F]_k)%type}.
Variable pinv : forall n d, 'M[F]_(n, d) -> 'M[F]_(d, n).
Lemma white_ok d k (U : 'M[F]_(k, d)) (l : 'cV[F]_k) : (forall i, 0 < l i 0) ->
  whitened_components U l = Ok (map_mx Num.sqrt (invmx (diag_mx l^T)) *m U).
Proof. move=> L. rewrite /whitened_components /np_inv (_ : _ \in _ = true) // diag_unit; apply/forallP => i; by rewrite gt_eqF. Qed.
Lemma cut_pos r k (l : 'cV[F]_r) : (k <= r)%N -> (forall i, 0 < l i 0) -> forall i, 0 < (first_rows k l) i 0.
Proof. move=> H L i. rewrite mxE. case: insubP => [j _ _|]; by [rewrite L|rewrite (leq_trans (ltn_ord i) H)]. Qed.
Lemma cut_pca n d r k (X : 'M[F]_(n, d)) (U : 'M[F]_(r, d)) (l : 'cV[F]_r) c : (k <= r)%N -> U *m U^T = 1%:M ->
  c *: (X^T *m X) = U^T *m diag_mx l^T *m U ->
  first_rows k U *m (first_rows k U)^T = 1%:M /\
  c *: (X^T *m X *m (first_rows k U)^T) = (first_rows k U)^T *m diag_mx (first_rows k l)^T.
Proof.
  move=> H O E. rewrite (first_rowsE k U). split.
    by rewrite trmx_mul trmxK mulmxA -[_ *m U *m U^T]mulmxA O mulmx1 sel_ortho.
  by rewrite scalemxAl E trmx_mul trmxK -!mulmxA [U *m (U^T *m _)]mulmxA O mul1mx sel_diag.
Qed.
Section Train.
Variables (bias : bool) (n d q k : nat) (X : 'M[F]_(n, d)) (Y : 'M[F]_(n, q)) (U : 'M[F]_(k, d + bias)) (l : 'cV[F]_k).
Hypothesis (E : pca (add_bias bias X) = existT _ k (U, l)) (D : is_pca (add_bias bias X) U l).
Hypothesis PI : forall m (G : 'M[F]_(n, m)), full_rank G -> penrose G (pinv G).
Lemma white_full c k' k2 (U' : 'M[F]_(k', d + bias)) (l' : 'cV[F]_k') (V : 'M[F]_(k2, k')) : U' *m U'^T = 1%:M -> (forall i, 0 < l' i 0) -> V *m V^T = 1%:M ->
  c *: ((add_bias bias X)^T *m add_bias bias X *m U'^T) = U'^T *m diag_mx l'^T ->
  full_rank (add_bias bias X *m (V *m (map_mx Num.sqrt (invmx (diag_mx l'^T)) *m U'))^T).
Proof.
  move=> O L OV EX v. have := olr_white O L EX. move: (map_mx _ _ *m U') => W EW Z.
  have EV : v = c *: (V *m (W *m (add_bias bias X)^T *m (add_bias bias X *m (V *m W)^T *m v))).
    have -> : V *m (W *m (add_bias bias X)^T *m (add_bias bias X *m (V *m W)^T *m v)) = V *m (W *m (add_bias bias X)^T *m add_bias bias X *m W^T) *m V^T *m v.
      by rewrite trmx_mul !mulmxA.
    by rewrite scalemxAl [X in X *m v]scalemxAl scalemxAr EW mulmx1 OV mul1mx.
  by rewrite EV Z !mulmx0 scaler0.
Qed.
Lemma olr_none : (forall W, whitened_components U l = Ok W ->
    let: existT k2 (V, l2) := pca (olr_tilde (add_bias bias X) Y W) in is_pca (olr_tilde (add_bias bias X) Y W) V l2) ->
  exists2 R, olr_train pca pinv None bias X Y = Ok R & forall j, least_norm (add_bias bias X) (col j Y) (col j R).
Proof.
  case: (D) => O L [c c0 EX] P2. move: P2. rewrite /olr_train E (white_ok U L) => /(_ _ erefl).
  set W := _ *m U. cbn [bind]. case: (pca (olr_tilde _ _ _)) => k2 [V l2] P2. eexists; first reflexivity. move=> j.
  have EXU : c *: ((add_bias bias X)^T *m add_bias bias X *m U^T) = U^T *m diag_mx l^T.
    by rewrite scalemxAl EX -mulmxA O mulmx1.
  have FR : full_rank (add_bias bias X *m (V *m W)^T) by apply: white_full EXU => //; case: P2.
  exact: (olr_least_norm O L c0 EXU P2 (PI FR)).
Qed.
Lemma olr_some v : (forall W, whitened_components (first_rows (n_kept l v) U) (first_rows (n_kept l v) l) = Ok W ->
    let: existT k2 (V, l2) := pca (olr_tilde (add_bias bias X) Y W) in is_pca (olr_tilde (add_bias bias X) Y W) V l2) ->
  exists2 R, olr_train pca pinv (Some v) bias X Y = Ok R &
    forall j, best_in_rows (first_rows (n_kept l v) U) (add_bias bias X) (col j Y) (col j R).
Proof.
  case: (D) => O L [c c0 EX] P2. move: P2. rewrite /olr_train E. set h := n_kept l v. have Lh : (h <= k)%N by exact: n_kept_le.
  have [Oh Eh] := cut_pca Lh O EX. have Ph := cut_pos Lh L. rewrite (white_ok _ Ph) => /(_ _ erefl).
  set W := _ *m first_rows h U. cbn [bind]. case: (pca (olr_tilde _ _ _)) => k2 [V l2] P2. eexists; first reflexivity. move=> j.
  have FR : full_rank (add_bias bias X *m (V *m W)^T) by apply: white_full Eh => //; case: P2.
  exact: (olr_best Oh Ph Eh P2 (PI FR)).
Qed.
End Train.
Lemma least_norm_unique n d (X : 'M[F]_(n, d)) y w w' : least_norm X y w -> least_norm X y w' -> w = w'.
Proof.
  case=> L M [L' M']. have [A B] := M w' L'. have [A' B'] := M' w L. symmetry. exact: B A'.
Qed.
End RCF.
