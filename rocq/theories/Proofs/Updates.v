(** Proofs about the increments of CLM, unified and APS. *)
From Verif.Model Require Import Py Einsum ModelInstance Jacobian LinAlg Updates.
From Verif.Spec Require Import ModelInstance LinAlg Updates.
From Verif.Proofs Require Import LinAlg MRing.
From mathcomp Require Import all_ssreflect all_algebra.
Set Implicit Arguments.
Unset Strict Implicit.
Unset Printing Implicit Defensive.
Import Order.TTheory GRing.Theory Num.Theory.
Local Open Scope ring_scope.

Section P.
Variable F : realFieldType.
Add Ring Fr : (@r_ring F).

Lemma tr11 (A : 'M[F]_1) : A 0 0 = A^T 0 0.
Proof. by rewrite mxE. Qed.
Lemma quadD n (Q : 'M[F]_n) (a b : 'cV[F]_n) : Q^T = Q -> quad Q (a + b) = quad Q a + quad Q b + 2%:R * (b^T *m (Q *m a)) 0 0.
Proof.
  move=> S. rewrite /quad [(a + b)^T]linearD /= mulmxDl mulmxDl !mulmxDr !addE.
  have -> : (a^T *m Q *m b) 0 0 = (b^T *m (Q *m a)) 0 0 by rewrite tr11 !trmx_mul trmxK S.
  rewrite -!mulmxA. move: ((a^T *m _) 0 0) ((b^T *m (Q *m a)) 0 0) ((b^T *m _) 0 0) => x y z. mring F.
Qed.
Lemma quad0 n (v : 'cV[F]_n) : quad 0 v = 0.
Proof. by rewrite /quad mulmx0 mul0mx zeroE. Qed.
Lemma quad1 n (v : 'cV[F]_n) : quad 1%:M v = sqn v.
Proof. by rewrite /quad mulmx1 sqnE. Qed.
Lemma quadZ n (Q : 'M[F]_n) c (v : 'cV[F]_n) : quad (c *: Q) v = c * quad Q v.
Proof. by rewrite /quad -scalemxAr -scalemxAl mxE. Qed.
Lemma quadN n (Q : 'M[F]_n) (v : 'cV[F]_n) : quad Q (- v) = quad Q v.
Proof. by rewrite /quad [(- v)^T]linearN /= mulNmx mulmxN mulNmx opprK. Qed.
Lemma quad_diag n (w v : 'cV[F]_n) : quad (diag_mx w^T) v = wsqn w v.
Proof. by rewrite /quad wsqnE. Qed.
Lemma quadM n m (Q : 'M[F]_n) (J : 'M[F]_(n, m)) v : quad Q (J *m v) = quad (J^T *m Q *m J) v.
Proof. by rewrite /quad trmx_mul !mulmxA. Qed.
Lemma quadDl n (Q R : 'M[F]_n) v : quad (Q + R) v = quad Q v + quad R v.
Proof. by rewrite /quad mulmxDr mulmxDl addE. Qed.

(** A function with an exact second order expansion at x: the only minimum is where the gradient vanishes. *)
Lemma grad_minimum P (f D : 'cV[F]_P -> F) (x g : 'cV[F]_P) :
  (forall h, f (x + h) = f x + D h + 2%:R * (h^T *m g) 0 0) -> g = 0 ->
  (forall h, 0 <= D h) -> (forall h, D h = 0 -> h = 0) -> unique_minimum f x.
Proof.
  move=> E G P0 Def. have {}E y : f y = f x + D (y - x) by rewrite -[in LHS](subrK x y) addrC E G mulmx0 zeroE mulr0 addr0.
  split=> y; rewrite (E y); first by rewrite ler_addl.
  rewrite ger_addl => H. have /Def /eqP : D (y - x) = 0 by apply/eqP; rewrite eq_le H P0.
  by rewrite subr_eq0 => /eqP.
Qed.
Lemma quad_expand n P (Q : 'M[F]_n) (J : 'M[F]_(n, P)) e x h : Q^T = Q ->
  quad Q (e + J *m (x + h)) = quad Q (e + J *m x) + quad Q (J *m h) + 2%:R * (h^T *m (J^T *m (Q *m (e + J *m x)))) 0 0.
Proof. by move=> S; rewrite mulmxDr addrA quadD // trmx_mul !mulmxA. Qed.
Lemma quad_expandB n P (Q : 'M[F]_n) (J : 'M[F]_(n, P)) e x h : Q^T = Q ->
  quad Q (e - J *m (x + h)) = quad Q (e - J *m x) + quad Q (J *m h) + 2%:R * (h^T *m (J^T *m (Q *m (J *m x - e)))) 0 0.
Proof.
  move=> S. rewrite -[quad Q (e - _)]quadN -[quad Q (e - J *m x)]quadN !opprB ![_ - e]addrC. exact: quad_expand.
Qed.
Lemma sqn_expandB n P (J : 'M[F]_(n, P)) e x h :
  sqn (e - J *m (x + h)) = sqn (e - J *m x) + sqn (J *m h) + 2%:R * (h^T *m (J^T *m (J *m x - e))) 0 0.
Proof. by rewrite -!quad1 quad_expandB ?trmx1 // mul1mx. Qed.
Lemma wsqn_expand n (w p x h : 'cV[F]_n) :
  wsqn w (p + (x + h)) = wsqn w (p + x) + wsqn w h + 2%:R * (h^T *m (diag_mx w^T *m (p + x))) 0 0.
Proof. by rewrite addrA wsqnD. Qed.

(** ** CLM *)
Lemma prior_ge0 k rho2 (ev : 'cV[F]_k) : 0 <= rho2 -> (forall i, 0 < ev i 0) -> forall i, 0 <= shape_prior rho2 ev i 0.
Proof.
  move=> R E i. rewrite /shape_prior mxE. case: splitP => j _; rewrite mxE //. by apply: divr_ge0 => //; apply: ltW.
Qed.
Lemma penaltyE k rho2 (ev : 'cV[F]_k) v : shape_penalty rho2 ev v = wsqn (shape_prior rho2 ev) v.
Proof.
  rewrite /shape_penalty /wsqn big_split_ord /= [X in X + _]big1 ?add0r; last first.
    by move=> i _; rewrite /shape_prior col_mxEu mxE mul0r.
  rewrite mulr_sumr; apply: eq_bigr => i _. rewrite /shape_prior col_mxEd !mxE. by rewrite mulrA mulrAC.
Qed.
Lemma clm_pre_ok n P (J : 'M[F]_(n, P)) (w : 'cV[F]_P) : (forall i, 0 <= w i 0) -> full_rank J ->
  clm_precompute J w = Ok (invmx (J^T *m J) *m J^T, invmx (J^T *m J + diag_mx w^T)).
Proof. by move=> W R; rewrite /clm_precompute /np_solve gram_unit //= /np_inv prior_unit. Qed.
Lemma unit_full n P (J : 'M[F]_(n, P)) : J^T *m J \in unitmx -> full_rank J.
Proof. by move=> U x E; rewrite -[x]mul1mx -(mulVmx U) -!mulmxA E !mulmx0. Qed.
Lemma clm_ml_ok n P (J : 'M[F]_(n, P)) (w p : 'cV[F]_P) e : (forall i, 0 <= w i 0) -> full_rank J ->
  exists2 dp, clm_step false J w p e = Ok dp & unique_minimum (clm_ml J e) dp.
Proof.
  move=> W R. rewrite /clm_step clm_pre_ok //=. eexists; first by []. rewrite /clm_increment /=.
  have U := gram_unit R.
  apply: (@grad_minimum _ _ (fun h => sqn (J *m h)) _ (J^T *m (J *m (invmx (J^T *m J) *m J^T *m e) - e))).
  - move=> h. exact: sqn_expandB.
  - by rewrite mulmxBr !mulmxA mulmxV // mul1mx subrr.
  - move=> h; exact: sqn_ge0.
  - by move=> h /sqn_eq0 /R.
Qed.
Lemma clm_map_ok n k (J : 'M[F]_(n, 4 + k)) rho2 (ev : 'cV[F]_k) p e : 0 <= rho2 -> (forall i, 0 < ev i 0) -> full_rank J ->
  exists2 dp, clm_step true J (shape_prior rho2 ev) p e = Ok dp & unique_minimum (clm_map J e rho2 ev p) dp.
Proof.
  move=> R0 E0 R. have W := prior_ge0 R0 E0. rewrite /clm_step clm_pre_ok //=. eexists; first by []. rewrite /clm_increment /=.
  set w := shape_prior rho2 ev. have U := prior_unit W R. rewrite -/w in U.
  set x := - _. apply: (@grad_minimum _ _ (fun h => sqn (J *m h) + wsqn w h) _ (J^T *m (J *m x - e) + diag_mx w^T *m (p + x))).
  - move=> h. rewrite /clm_map /clm_ml !penaltyE sqn_expandB wsqn_expand [h^T *m (_ + _)]mulmxDr addE mulrDr.
    move: (sqn _) (sqn _) (wsqn _ _) (wsqn _ _) (2%:R * _) (2%:R * _) => a b c d u v. mring F.
  - have X : (J^T *m J + diag_mx w^T) *m x = J^T *m e - diag_mx w^T *m p.
      by rewrite /x mulmxN mulmxA mulmxV // mul1mx opprB diag_colE.
    rewrite mulmxBr mulmxDr mulmxA [diag_mx _ *m p + _]addrC addrACA -mulmxDl X.
    by rewrite addrACA subrr add0r addNr.
  - move=> h; apply: addr_ge0; [exact: sqn_ge0|exact: wsqn_ge0].
  - by move=> h /eqP; rewrite paddr_eq0 ?sqn_ge0 ?wsqn_ge0 // => /andP [/eqP /sqn_eq0 /R].
Qed.
Lemma clm_raises n P (J : 'M[F]_(n, P)) (w : 'cV[F]_P) map p e : (forall i, 0 <= w i 0) ->
  clm_step map J w p e = Err LinAlgError <-> ~ full_rank J.
Proof.
  move=> W; split=> [|N]; first by move=> H /(clm_pre_ok W) E; move: H; rewrite /clm_step E.
  rewrite /clm_step /clm_precompute /np_solve. by case: ifP => // /unit_full.
Qed.

(** ** Unified *)
Lemma unified_expand n s P a i_s i_r (j : 'M[F]_(n, P)) (jc : 'M[F]_(s, P)) e ec x h :
  unified a i_s i_r j jc e ec (x + h) = unified a i_s i_r j jc e ec x + (a * (i_s * sqn (j *m h)) + (1 - a) * (i_r * sqn (jc *m h)))
  + 2%:R * (h^T *m (((a * i_s) *: (j^T *m (j *m x - e))) + (((1 - a) * i_r) *: (jc^T *m (jc *m x - ec))))) 0 0.
Proof.
  rewrite /unified !sqn_expandB [h^T *m (_ + _)]mulmxDr addE -!scalemxAr ![(_ *: (h^T *m _)) 0 0]mxE.
  move: (sqn _) (sqn _) (sqn _) (sqn _) ((h^T *m _) 0 0) ((h^T *m _) 0 0) => x1 x2 x3 x4 u v. mring F.
Qed.
Section Alt.
Variables (n s P : nat) (a i_s i_r : F) (j : 'M[F]_(n, P)) (jc : 'M[F]_(s, P)).
Hypothesis (A0 : 0 <= a) (A1 : a <= 1) (S0 : 0 <= i_s) (R0 : 0 <= i_r).
Let D (h : 'cV[F]_P) : F := a * (i_s * sqn (j *m h)) + (1 - a) * (i_r * sqn (jc *m h)).
Lemma D_ge0 h : 0 <= D h.
Proof. by apply: addr_ge0; apply: mulr_ge0; rewrite ?subr_ge0 //; apply: mulr_ge0 => //; exact: sqn_ge0. Qed.
Lemma D_def h : full_rank (stack a i_s i_r j jc) -> D h = 0 -> h = 0.
Proof.
  move=> R /eqP. have N1 : 0 <= a * (i_s * sqn (j *m h)) by apply: mulr_ge0 => //; apply: mulr_ge0 => //; exact: sqn_ge0.
  have N2 : 0 <= (1 - a) * (i_r * sqn (jc *m h)) by apply: mulr_ge0; rewrite ?subr_ge0 //; apply: mulr_ge0 => //; exact: sqn_ge0.
  rewrite /D paddr_eq0 // !mulrA => /andP [E1 E2]. apply: R. rewrite mul_col_mx -!scalemxAl.
  have K m (c : F) (v : 'cV[F]_m) : c * sqn v == 0 -> c *: v = 0.
    by rewrite mulf_eq0 => /orP [/eqP ->|/eqP /sqn_eq0 ->]; rewrite ?scale0r ?scaler0.
  by rewrite (K _ _ _ E1) (K _ _ _ E2) col_mx0.
Qed.
Let H : 'M[F]_P := a *: ((i_s *: j)^T *m j) + (1 - a) *: ((i_r *: jc)^T *m jc).
Lemma quad_H h : quad H h = D h.
Proof.
  rewrite /H /D quadDl !quadZ !linearZ /= -!scalemxAl !quadZ /quad !gram_quad //.
Qed.
Lemma H_mul (x : 'cV[F]_P) : H *m x = (a * i_s) *: (j^T *m (j *m x)) + ((1 - a) * i_r) *: (jc^T *m (jc *m x)).
Proof. by rewrite /H !linearZ /= mulmxDl -!scalemxAl !scalerA !mulmxA. Qed.
Let b (e : 'cV[F]_n) (ec : 'cV[F]_s) : 'cV[F]_P := a *: ((i_s *: j)^T *m e) + (1 - a) *: ((i_r *: jc)^T *m ec).
Lemma b_mul (e : 'cV[F]_n) (ec : 'cV[F]_s) : b e ec = (a * i_s) *: (j^T *m e) + ((1 - a) * i_r) *: (jc^T *m ec).
Proof. by rewrite /b !linearZ /= -!scalemxAl !scalerA. Qed.
Lemma grad_E (x : 'cV[F]_P) (e : 'cV[F]_n) (ec : 'cV[F]_s) : (a * i_s) *: (j^T *m (j *m x - e)) + ((1 - a) * i_r) *: (jc^T *m (jc *m x - ec)) = H *m x - b e ec.
Proof. by rewrite H_mul b_mul !mulmxBr !scalerBr opprD addrACA. Qed.

Lemma alt_ml_ok (w p : 'cV[F]_P) e ec : full_rank (stack a i_s i_r j jc) ->
  exists2 dp, alt_step false a j jc i_s i_r w p e ec = Ok dp & unique_minimum (unified a i_s i_r j jc e ec) dp.
Proof.
  move=> R. have U : H \in unitmx by apply: posdef_unit => v; rewrite -[LHS]/(quad H v) quad_H; exact: D_def.
  rewrite /alt_step. have [x -> E] := np_solve_ok (b e ec) U. exists x => //.
  apply: (@grad_minimum _ _ D _ (H *m x - b e ec)).
  - by move=> h; rewrite unified_expand grad_E.
  - by rewrite E subrr.
  - exact: D_ge0.
  - by move=> h; exact: D_def.
Qed.
Lemma alt_map_ok (w p : 'cV[F]_P) e ec : (forall i, 0 <= w i 0) -> full_rank (stack a i_s i_r j jc) ->
  exists2 dp, alt_step true a j jc i_s i_r w p e ec = Ok dp &
  unique_minimum (fun dp => unified a i_s i_r j jc e ec dp + wsqn w (p + dp)) dp.
Proof.
  move=> W R. have Df h : D h + wsqn w h = 0 -> h = 0.
    by move=> /eqP; rewrite paddr_eq0 ?D_ge0 ?wsqn_ge0 // => /andP [/eqP /(D_def R)].
  have U : H + diag_mx w^T \in unitmx.
    apply: posdef_unit => v. by rewrite -[LHS]/(quad (H + diag_mx w^T) v) quadDl quad_H quad_diag => /Df.
  rewrite /alt_step. set c := _ - _ - _.
  have Ec : c = diag_mx w^T *m p - b e ec by rewrite /c /b diag_colE opprD addrA.
  have [x -> E] := np_solve_ok c U. exists (- x) => //.
  apply: (@grad_minimum _ _ (fun h => D h + wsqn w h) _ (H *m (- x) - b e ec + diag_mx w^T *m (p - x))).
  - move=> h. rewrite unified_expand grad_E wsqn_expand [h^T *m (_ + diag_mx _ *m _)]mulmxDr addE mulrDr -/D.
    move: (unified _ _ _ _ _ _ _ _) (wsqn _ _) (wsqn _ _) (2%:R * _) (2%:R * _) => u v x1 x2 x3. rewrite /D. mring F.
  - rewrite mulmxBr mulmxN [- (H *m x) - _]addrC addrACA -opprD -mulmxDl E Ec.
    by rewrite opprB addrA [- b e ec + _]addrC subrK subrr.
  - move=> h; apply: addr_ge0; [exact: D_ge0|exact: wsqn_ge0].
  - exact: Df.
Qed.
End Alt.

Section PO.
Variables (n m s P : nat) (i_s i_r : F) (U : 'M[F]_(n, m)) (PU : 'M[F]_(m, n)) (j : 'M[F]_(n, P)) (jc : 'M[F]_(s, P)).
Hypothesis (PE : penrose U PU) (S0 : 0 <= i_s) (R0 : 0 < i_r) (RC : full_rank jc).
Let q := project_out U PU j.
Let D (h : 'cV[F]_P) : F := i_s * sqn (q *m h) + i_r * sqn (jc *m h).
Let H : 'M[F]_P := (i_s *: q)^T *m q + (i_r *: jc)^T *m jc.
Lemma po_D_ge0 h : 0 <= D h.
Proof. by apply: addr_ge0; apply: mulr_ge0; rewrite ?sqn_ge0 // ltW. Qed.
Lemma po_D_def h : D h = 0 -> h = 0.
Proof.
  move=> /eqP. rewrite /D paddr_eq0; try by apply: mulr_ge0; rewrite ?sqn_ge0 // ltW.
  by move=> /andP [_]; rewrite mulf_eq0 (gt_eqF R0) /= => /eqP /sqn_eq0 /RC.
Qed.
Lemma po_quad h : quad H h = D h.
Proof. by rewrite /H /D quadDl !linearZ /= -!scalemxAl !quadZ /quad !gram_quad. Qed.
Lemma po_unit : H \in unitmx.
Proof. apply: posdef_unit => v. rewrite -[LHS]/(quad H v) po_quad. exact: po_D_def. Qed.
Lemma po_prior_unit (w : 'cV[F]_P) : (forall i, 0 <= w i 0) -> H + diag_mx w^T \in unitmx.
Proof.
  move=> W; apply: posdef_unit => v. rewrite -[LHS]/(quad (H + diag_mx w^T) v) quadDl po_quad quad_diag => /eqP.
  by rewrite paddr_eq0 ?po_D_ge0 ?wsqn_ge0 // => /andP [/eqP /po_D_def].
Qed.
Lemma po_preE (w : 'cV[F]_P) : (forall i, 0 <= w i 0) -> po_precompute U PU j jc i_s i_r w =
  Ok (invmx H *m (i_s *: q)^T, invmx H *m (i_r *: jc)^T, invmx (H + diag_mx w^T), i_s *: q, i_r *: jc).
Proof.
  move=> W. rewrite /po_precompute -/q /np_solve /np_inv. have -> := po_unit. by rewrite /= (po_prior_unit W).
Qed.
Lemma po_min_q (e : 'cV[F]_n) (ec : 'cV[F]_s) :
  unique_minimum (fun x => i_s * sqn (project_out U PU (e - j *m x)) + i_r * sqn (ec - jc *m x))
    (invmx H *m (i_s *: q)^T *m e + invmx H *m (i_r *: jc)^T *m ec).
Proof.
  set x := _ + _. set g := (i_s *: (q^T *m (q *m x - project_out U PU e))) + (i_r *: (jc^T *m (jc *m x - ec))).
  have Q1 y : project_out U PU (e - j *m y) = project_out U PU e - q *m y.
    by rewrite /q !project_outE mulmxBr mulmxA.
  apply: (@grad_minimum _ _ D _ g).
  - move=> h. rewrite !Q1 !sqn_expandB /g [h^T *m (_ + _)]mulmxDr addE -!scalemxAr ![(_ *: (h^T *m _)) 0 0]mxE /D.
    move: (sqn _) (sqn _) (sqn _) (sqn _) ((h^T *m _) 0 0) ((h^T *m _) 0 0) => x1 x2 x3 x4 u v. mring F.
  - have X : H *m x = (i_s *: q)^T *m e + (i_r *: jc)^T *m ec.
      by rewrite /x mulmxDr !mulmxA mulmxV ?po_unit // !mul1mx.
    have -> : g = H *m x - ((i_s *: q)^T *m e + (i_r *: jc)^T *m ec).
      have := QJ_e PE j e. rewrite -/q /g; move: (project_out U PU e) => pe Ee.
      by rewrite /H mulmxDl ![(_ *: _)^T]linearZ /= -!scalemxAl [q^T *m (_ - pe)]mulmxBr [jc^T *m (_ - _)]mulmxBr -Ee !scalerBr !mulmxA opprD addrACA.
    by rewrite X subrr.
  - exact: po_D_ge0.
  - exact: po_D_def.
Qed.
Lemma po_ml_ok a (w p : 'cV[F]_P) (e : 'cV[F]_n) (ec : 'cV[F]_s) : (forall i, 0 <= w i 0) ->
  exists2 dp, po_step false a U PU j jc i_s i_r w p e ec = Ok dp &
  profile_minimum (fun c dp => i_s * sqn (e - j *m dp - U *m c) + i_r * sqn (ec - jc *m dp)) dp.
Proof.
  move=> W. rewrite /po_step po_preE //=. set dp := _ + _. exists dp => //.
  have [M1 M2] := po_min_q e ec. rewrite -/dp in M1 M2. exists (PU *m (e - j *m dp)) => c' y.
  have E0 : sqn (e - j *m dp - U *m (PU *m (e - j *m dp))) = sqn (project_out U PU (e - j *m dp)) by [].
  have E1 : sqn (project_out U PU (e - j *m y)) <= sqn (e - j *m y - U *m c').
    by rewrite (sqn_project PE) ler_addl sqn_ge0.
  have E2 : i_s * sqn (project_out U PU (e - j *m y)) + i_r * sqn (ec - jc *m y) <= i_s * sqn (e - j *m y - U *m c') + i_r * sqn (ec - jc *m y).
    by rewrite ler_add2r ler_wpmul2l.
  rewrite E0; split; first by apply: le_trans (M1 y) E2.
  by move=> L; apply: M2; apply: le_trans E2 L.
Qed.
End PO.

(** ** APS *)
Section APS.
Variables (n s P : nat) (Qa : 'M[F]_n) (Qd : 'M[F]_s) (w : F) (J : 'M[F]_(n, P)) (S : 'M[F]_(s, P)).
Hypothesis (PQa : psd Qa) (PQd : psd Qd) (W0 : 0 <= w).
Hypothesis Def : forall h, quad Qa (J *m h) + w * quad Qd (S *m h) = 0 -> h = 0.
Let Hs := H_s S Qd w.
Let JQ := J_a_T_Q_a J Qa.
Lemma JQE : JQ = J^T *m Qa.
Proof. by case: PQa => E _; rewrite /JQ /J_a_T_Q_a trmx_mul E. Qed.
Lemma Hs_quad h : quad Hs h = w * quad Qd (S *m h).
Proof. by rewrite /Hs /H_s quadZ quadM. Qed.
Lemma aps_quad h : quad (JQ *m J + Hs) h = quad Qa (J *m h) + w * quad Qd (S *m h).
Proof. by rewrite quadDl Hs_quad JQE [quad Qa (J *m h)]quadM. Qed.
Lemma aps_unit : JQ *m J + Hs \in unitmx.
Proof. apply: posdef_unit => v. rewrite -[LHS]/(quad (JQ *m J + Hs) v) aps_quad. exact: Def. Qed.
Lemma aps_pE up (p : 'cV[F]_P) : aps_parameters up p = p - (if up then pose_part p else 0).
Proof.
  case: up; last by rewrite subr0. apply/matrixP => i k. rewrite ord1 !mxE. by case: ifP => _; rewrite ?subrr ?subr0.
Qed.
(** Where the gradient of the objective vanishes. *)
Lemma aps_stationary e p g q : JQ *m e + JQ *m J *m (q - p) + Hs *m (q - g) = 0 -> unique_minimum (aps Qa Qd w J S e p g) q.
Proof.
  case: (PQa) => Sa Pa. case: (PQd) => Sd Pd. rewrite JQE => N.
  apply: (@grad_minimum _ _ (fun h => quad Qa (J *m h) + w * quad Qd (S *m h)) _
            (J^T *m (Qa *m (e + J *m (q - p))) + w *: (S^T *m (Qd *m (S *m (q - g)))))).
  - move=> h. rewrite /aps [q + h - p]addrAC [q + h - g]addrAC quad_expand // [S *m (q - g + h)]mulmxDr [quad Qd (_ + _)]quadD //.
    rewrite [h^T *m (_ + _)]mulmxDr addE -scalemxAr [(_ *: (h^T *m _)) 0 0]mxE [(S *m h)^T]trmx_mul -[h^T *m S^T *m _]mulmxA.
    move: (quad Qa _) (quad Qa _) (quad Qd _) (quad Qd _) ((h^T *m _) 0 0) ((h^T *m _) 0 0) => x1 x2 x3 x4 u v. mring F.
  - by rewrite -[RHS]N [Qa *m (e + _)]mulmxDr [J^T *m (_ + _)]mulmxDr /Hs /H_s -scalemxAl !mulmxA.
  - move=> h. by apply: addr_ge0 => //; apply: mulr_ge0.
  - exact: Def.
Qed.
Lemma aps_forward_ok up (e : 'cV[F]_n) (p : 'cV[F]_P) :
  exists2 q, aps_forward up J Qa Hs e p = Ok q & unique_minimum (aps Qa Qd w J S e p (if up then pose_part p else 0)) q.
Proof.
  rewrite /aps_forward -/JQ. have [x -> E] := np_solve_ok (JQ *m e + Hs *m aps_parameters up p) aps_unit.
  exists (p - x) => //. apply: aps_stationary. move: E; rewrite aps_pE. set g := if up then _ else _. rewrite mulmxDl => E.
  have -> : p - x - p = - x by rewrite addrAC subrr sub0r.
  by rewrite [p - x - g]addrAC [Hs *m (_ - x)]mulmxBr mulmxN addrACA -opprD E subrr.
Qed.
Lemma aps_inverse_ok up (e : 'cV[F]_n) (p : 'cV[F]_P) :
  aps_inverse up J Qa Hs e p = aps_forward up J Qa Hs e p.
Proof. by rewrite /aps_inverse /aps_forward /np_inv /np_solve -/JQ aps_unit. Qed.
End APS.

Lemma masked_ok n m (Q : 'M[F]_n) (mask : 'I_m -> 'I_n) : psd Q ->
  psd (masked_precision Q mask) /\ forall i k, masked_precision Q mask i k = Q (mask i) (mask k).
Proof.
  case=> S Pq. have E i k : masked_precision Q mask i k = Q (mask i) (mask k) by rewrite mxE -{1}S mxE.
  split=> //. split; first by apply/matrixP => i k; rewrite mxE !E -{1}S mxE.
  move=> v. pose B : 'M[F]_(n, m) := \matrix_(i, k) (i == mask k)%:R.
  suff -> : masked_precision Q mask = B^T *m Q *m B by rewrite -quadM.
  apply/matrixP => i k. rewrite E [RHS]mxE (bigD1 (mask k)) //= big1 ?addr0.
    rewrite [B _ _]mxE eqxx mulr1 [RHS]mxE (bigD1 (mask i)) //= big1 ?addr0; first by rewrite !mxE eqxx mul1r.
    by move=> l ln; rewrite !mxE (negbTE ln) mul0r.
  by move=> l ln; rewrite [B _ _]mxE (negbTE ln) mulr0.
Qed.
Lemma appearance_cost_full n (Q : 'M[F]_n) (x : 'cV[F]_n) : aps_appearance_cost Q x = Ok (quad Q x).
Proof. by rewrite /aps_appearance_cost; case: eqP => // E; rewrite (eq_irrelevance E erefl) castmx_id. Qed.
Lemma appearance_cost_masked n m (Q : 'M[F]_n) (x : 'cV[F]_m) : m <> n -> aps_appearance_cost Q x = Err ValueError.
Proof. by move=> N; rewrite /aps_appearance_cost; case: eqP. Qed.
Lemma deformation_costE s P (Qd : 'M[F]_s) (mean : 'cV[F]_s) w (S : 'M[F]_(s, P)) p :
  aps_deformation_cost Qd mean w (mean + S *m p) = quad (H_s S Qd w) p.
Proof. by rewrite /aps_deformation_cost [mean + _]addrC addrK -[(_ *m _) 0 0]/(quad Qd (S *m p)) mulrC /H_s quadZ quadM. Qed.
End P.
