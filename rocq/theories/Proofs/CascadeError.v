(** From rows to arrays, and what a regression gains on its own training data. *)
From Coq Require List.
From Verif.Model Require Import Py LinAlg Regression Regressors SdmTrain CascadeError.
From Verif.Spec Require Import LinAlg Regression Regressors CascadeError.
From Verif.Proofs Require Import LinAlg Regression Regressors Regressors2 MRing.
From Verif.Proofs Require SdmTrain CascadeTrace.
From mathcomp Require Import all_ssreflect all_algebra.
Set Implicit Arguments.
Unset Strict Implicit.
Unset Printing Implicit Defensive.
Import Order.TTheory GRing.Theory Num.Theory.
Local Open Scope ring_scope.

Section Lists.
Variable F : realFieldType.
Definition energy k (l : seq 'rV[F]_k) : F := \sum_(v <- l) \sum_j v 0 j ^+ 2.
Definition minus k (a b : seq 'rV[F]_k) : seq 'rV[F]_k := [seq p.1 - p.2 | p <- zip a b].

Lemma combineE T U (a : seq T) : forall b : seq U, List.combine a b = zip a b.
Proof. by elim: a => [|x a IH] [|y b] //=; rewrite IH. Qed.
Lemma lengthE T (a : seq T) : List.length a = size a. Proof. by []. Qed.
Lemma concatE T (a : seq (seq T)) : List.concat a = flatten a. Proof. by elim: a => //= x a ->. Qed.

Section Turn.
Variables (S X R : Type) (k : nat) (vector : S -> 'rV[F]_k).
Variable reg_train : seq X -> seq (option 'rV[F]_k) -> res R.
Variable reg_predict : R -> seq X -> res (seq 'rV[F]_k).
Notation add := (fun a b : 'rV[F]_k => a + b).
Notation sub := (fun a b : 'rV[F]_k => a - b).
Definition flat (gts : seq S) (c : seq (seq S)) : seq 'rV[F]_k := flatten [seq [seq vector p.1 - vector s | s <- p.2] | p <- zip gts c].

Lemma drows_flat gts c : SdmTrain.drows vector sub gts c = [seq Some v | v <- flat gts c].
Proof.
  rewrite /SdmTrain.drows /flat combineE concatE map_flatten -map_comp. congr flatten. rewrite -/map. apply: eq_map => p /=.
  by rewrite /SdmTrain.drow -map_comp.
Qed.
Lemma total_flat gts c : total_error vector gts c = energy (flat gts c).
Proof.
  rewrite /total_error /energy /flat big_flatten big_map. apply: eq_bigr => p _. rewrite big_map. apply: eq_bigr => s _.
  by apply: eq_bigr => j _; rewrite !mxE.
Qed.
Lemma row_moved g : forall s s' (e : seq 'rV[F]_k), size s' = size s -> size e = size s ->
  [seq vector x | x <- s'] = [seq p.1 + p.2 | p <- zip [seq vector x | x <- s] e] ->
  [seq vector g - vector x | x <- s'] = minus [seq vector g - vector x | x <- s] e /\
  \sum_(q <- zip s s') distance2 vector q.1 q.2 = energy e.
Proof.
  elim=> [|x s IH] [|x' s'] [|v e] //=; first by rewrite /energy !big_nil.
  move=> [E1] [E2] [EV ER]. have [A B] := IH s' e E1 E2 ER. split.
    by rewrite /minus /= -/(minus _ _) -A EV opprD addrA.
  rewrite big_cons B /energy big_cons /= /distance2 EV. congr (_ + _). apply: eq_bigr => j _. by rewrite !mxE opprD addrA subrr sub0r sqrrN.
Qed.
Lemma flat_moved gts : forall c c' (e : seq 'rV[F]_k), size c = size gts -> map size c' = map size c -> size e = size (flatten c) ->
  [seq vector x | x <- flatten c'] = [seq p.1 + p.2 | p <- zip [seq vector x | x <- flatten c] e] ->
  flat gts c' = minus (flat gts c) e /\ total_move vector c c' = energy e.
Proof.
  elim: gts => [|g gts IH] [|s c] [|s' c'] e //=.
    by move=> _ _ /size0nil -> _; rewrite /flat /= /total_move /energy !big_nil.
  move=> [E1] [E2 E3]. rewrite size_cat => E4. rewrite !map_cat -(cat_take_drop (size s) e).
  have T : size (take (size s) e) = size s by rewrite size_takel // E4 leq_addr.
  rewrite zip_cat ?size_map ?T // map_cat => EV.
  have [EA EB] : [seq vector x | x <- s'] = [seq p.1 + p.2 | p <- zip [seq vector x | x <- s] (take (size s) e)] /\
      [seq vector x | x <- flatten c'] = [seq p.1 + p.2 | p <- zip [seq vector x | x <- flatten c] (drop (size s) e)].
    move/eqP: EV. rewrite eqseq_cat ?size_map ?size_zip ?size_map ?T ?minnn ?E2 //. by move=> /andP [/eqP ? /eqP ?].
  have [A B] := row_moved g E2 T EA. have [|C D] := IH c c' (drop (size s) e) E1 E3 _ EB; first by rewrite size_drop E4 addKn.
  split.
    rewrite /flat /= -/(flat gts c') -/(flat gts c) A C /minus zip_cat ?map_cat // size_map T //.
  by rewrite /total_move /= big_cons -/(total_move vector c c') /= B D /energy big_cat.
Qed.

(** Training on the rows and predicting for the same rows leaves no more than there was. *)
Definition helpful_at (f : seq X) : Prop := forall D r est, reg_train f [seq Some v | v <- D] = Ok r -> reg_predict r f = Ok est ->
  size est = size D /\ energy (minus D est) + energy est <= energy D.
Lemma turn_error feat gts c c' : (forall f, feat c = Ok f -> helpful_at f) -> List.length c = List.length gts ->
  CascadeTrace.turn add sub reg_train reg_predict vector feat gts c c' ->
  total_error vector gts c' + total_move vector c c' <= total_error vector gts c.
Proof.
  move=> H L [f [r [est [Hf [Ht [Hp [Hl Hv]]]]]]]. rewrite drows_flat in Ht. have [HS HE] := H f Hf _ _ _ Ht Hp.
  rewrite combineE !concatE in Hv.
  have Sz : size (flat gts c) = size (flatten c).
    rewrite /flat !size_flatten /shape -map_comp. move: L. rewrite !lengthE. clear. elim: gts c => [|g gts IH] [|s c] //= [L].
    by rewrite size_map IH.
  rewrite Sz in HS. have [A B] := @flat_moved gts c c' est L Hl HS Hv. by rewrite !total_flat A B.
Qed.
End Turn.
End Lists.

Section Arrays.
Variable F : realFieldType.
Add Ring Fr : (@r_ring F).
Lemma energy_rows n d (A : 'M[F]_(n, d)) : energy (rows_of A) = fro A.
Proof. rewrite /energy /rows_of big_map big_enum /=. apply: eq_bigr => i _. by apply: eq_bigr => j _; rewrite mxE. Qed.
Lemma rowsK n d (l : seq 'rV[F]_d) : size l = n -> rows_of (array_of n l) = l.
Proof.
  move=> Sz. apply: (@eq_from_nth _ 0); first by rewrite size_map size_enum_ord. rewrite size_map size_enum_ord => i Li.
  rewrite (nth_map (Ordinal Li)) ?size_enum_ord //. apply/rowP => j. by rewrite !mxE nth_enum_ord.
Qed.
Lemma minus_rows n d (A B : 'M[F]_(n, d)) : minus (rows_of A) (rows_of B) = rows_of (A - B).
Proof.
  rewrite /minus /rows_of. elim: (enum 'I_n) => //= i l ->. congr cons. by apply/rowP => j; rewrite !mxE.
Qed.
Definition gains n k (Y P : 'M[F]_(n, k)) : Prop := fro (Y - P) + fro P <= fro Y.
Lemma helpful_rows (R : Type) d k (tr : forall n, 'M[F]_(n, d) -> 'M[F]_(n, k) -> res R) (pr : forall n, R -> 'M[F]_(n, d) -> 'M[F]_(n, k)) f :
  (forall Y r, tr (size f) (array_of (size f) f) Y = Ok r -> gains Y (pr _ r (array_of (size f) f))) ->
  helpful_at (train_rows tr) (predict_rows pr) f.
Proof.
  move=> H D r est. rewrite /train_rows size_map. case: eqP => // Sz Ht [<-].
  split; first by rewrite size_map size_enum_ord. have := H _ _ Ht. rewrite /gains -!energy_rows -minus_rows.
  have -> : written [seq Some v | v <- D] = D by rewrite /written -map_comp -[RHS]map_id; apply: eq_map.
  by rewrite rowsK.
Qed.

(** Columns. *)
Lemma fro_cols n d (A : 'M[F]_(n, d)) : fro A = \sum_j sqn (col j A).
Proof. rewrite /fro exchange_big /=. apply: eq_bigr => j _. by apply: eq_bigr => i _; rewrite mxE. Qed.
Lemma gains_cols n k (Y P : 'M[F]_(n, k)) : (forall j, sqn (col j Y - col j P) + sqn (col j P) <= sqn (col j Y)) -> gains Y P.
Proof.
  move=> H. rewrite /gains !fro_cols -big_split /=. apply: ler_sum => j _. rewrite (_ : col j (Y - P) = col j Y - col j P) //.
  by apply/colP => i; rewrite !mxE.
Qed.
Lemma gains_cross n k (Y P : 'M[F]_(n, k)) : fro P <= \tr (Y^T *m P) -> gains Y P.
Proof.
  move=> H. rewrite /gains fro_sub -subr_ge0. rewrite (_ : _ - _ = 2%:R * (\tr (Y^T *m P) - fro P)); last first.
    by rewrite mulrBr (mulr_natl (fro P)) mulr2n !opprD !opprK !addrA subrr add0r addrC !addrA [LHS]addrC !addrA.
  by rewrite mulr_ge0 ?ler0n // subr_ge0.
Qed.
(** The best among the multiples of a vector. *)
Lemma dotC n (a b : 'cV[F]_n) : (a^T *m b) 0 0 = (b^T *m a) 0 0.
Proof. rewrite [LHS]mxE [RHS]mxE. apply: eq_bigr => i _. by rewrite !mxE mulrC. Qed.
Lemma sqn_sub n (a b : 'cV[F]_n) : sqn (a - b) = sqn a + sqn b - 2%:R * (a^T *m b) 0 0.
Proof. by rewrite sqnD sqnN raddfN mulNmx mxE mulrN (dotC b). Qed.
Lemma best_multiple n (p y : 'cV[F]_n) : (forall t, sqn (p - y) <= sqn (t *: p - y)) -> sqn (y - p) + sqn p = sqn y.
Proof.
  move=> H. set a := sqn p. set b := (p^T *m y) 0 0.
  suff E : a = b.
    rewrite sqn_sub (dotC y) -/b -E -/a mulr_natl mulr2n opprD !addrA. by rewrite addrK subrK.
  have [a0|a0] := eqVneq a 0.
    by rewrite a0 /b (sqn_eq0 a0) trmx0 mul0mx mxE.
  have P : 0 < a by rewrite lt_neqAle eq_sym a0 sqn_ge0.
  have Q t : sqn (t *: p - y) = t ^+ 2 * a + sqn y - 2%:R * (t * b).
    rewrite sqn_sub. congr (_ + _ - 2%:R * _).
      rewrite /a /sqn big_distrr /=. apply: eq_bigr => i _. by rewrite mxE exprMn.
    rewrite /b !mxE big_distrr /=. apply: eq_bigr => i _. by rewrite !mxE mulrA.
  have := H (b / a). rewrite Q sqn_sub -/a -/b -subr_ge0.
  have -> : (b / a) ^+ 2 * a + sqn y - 2%:R * (b / a * b) - (a + sqn y - 2%:R * b) = - (a - b) ^+ 2 / a.
    have -> : (b / a) ^+ 2 * a = b ^+ 2 / a by rewrite expr2 -mulrA divfK // mulrAC -expr2.
    have -> : b / a * b = b ^+ 2 / a by rewrite mulrAC -expr2.
    have -> : - (a - b) ^+ 2 / a = 2%:R * b - a - b ^+ 2 / a.
      apply: (mulIf a0). rewrite divfK // !mulrBl divfK //. rewrite !expr2. mring F.
    set u := b ^+ 2 / a. mring F.
  rewrite pmulr_lge0 ?invr_gt0 // oppr_ge0 => Z. apply/eqP. by rewrite -subr_eq0 -sqrf_eq0 eq_le Z sqr_ge0.
Qed.
Lemma gains_multiple n d k (X : 'M[F]_(n, d)) (Y : 'M[F]_(n, k)) (W : 'M[F]_(d, k)) :
  (forall j t, sqn (X *m col j W - col j Y) <= sqn (X *m (t *: col j W) - col j Y)) -> fro (Y - X *m W) + fro (X *m W) = fro Y.
Proof.
  move=> H. rewrite !fro_cols -big_split /=. apply: eq_bigr => j _. rewrite (_ : col j (Y - X *m W) = col j Y - X *m col j W).
    rewrite (_ : col j (X *m W) = X *m col j W); last by rewrite !colE mulmxA. apply: best_multiple => t. by rewrite scalemxAr.
  rewrite colE mulmxBl -!colE. congr (_ - _). by rewrite !colE mulmxA.
Qed.

(** Newton: ridge regression. *)
Lemma irl_gains (alpha : F) bias inc n d k (X : 'M[F]_(n, d)) (Y : 'M[F]_(n, k)) s : irl_train alpha bias inc X Y = Ok s ->
  fro (Y - irl_predict s X) + fro (irl_predict s X) = fro Y - 2%:R * (alpha * fro (irl_W s)).
Proof.
  set B := add_bias bias X. move=> T. have U : B^T *m B + alpha%:M \in unitmx.
    move: T. rewrite /irl_train -/B symmetrised ?gram_sym // /add_diagonal. case: eqP => [->|_]; rewrite /np_inv /np_solve.
      rewrite (_ : 0%:M = 0) ?addr0; last by rewrite -scalemx1 scale0r. by case: (_ \in _); case: inc.
    by case: (_ \in _); case: inc.
  move: T. rewrite irl_train_ok // => [[<-]]. rewrite /irl_predict /= -/B. set S := B^T *m B + alpha%:M in U *. set W := invmx S *m _.
  have N : B^T *m Y = S *m W by rewrite /W mulKVmx.
  rewrite fro_sub. have -> : \tr (Y^T *m (B *m W)) = fro (B *m W) + alpha * fro W.
    rewrite mulmxA -[Y^T *m B]trmxK trmx_mul trmxK N /S mulmxDl linearD /= mulmxDl mxtraceD !frE. congr (_ + _).
      by rewrite !trmx_mul !trmxK !mulmxA.
    by rewrite mul_scalar_mx linearZ /= -scalemxAl mxtraceZ.
  set u := fro Y. set v := fro (B *m W). set w := alpha * fro W. mring F.
Qed.
End Arrays.
Section Reduced.
Variable F : rcfType.
Lemma least_gains n d k (X : 'M[F]_(n, d)) (Y : 'M[F]_(n, k)) (W : 'M[F]_(d, k)) : (forall j, least_norm X (col j Y) (col j W)) ->
  fro (Y - X *m W) + fro (X *m W) = fro Y.
Proof. move=> H. apply: gains_multiple => j t. by have [L _] := H j. Qed.
Lemma best_gains n d k m (V : 'M[F]_(m, d)) (X : 'M[F]_(n, d)) (Y : 'M[F]_(n, k)) (W : 'M[F]_(d, k)) :
  (forall j, best_in_rows V X (col j Y) (col j W)) -> fro (Y - X *m W) + fro (X *m W) = fro Y.
Proof.
  move=> H. apply: gains_multiple => j t. have [z [E L]] := H j. rewrite [in X in _ <= X]E scalemxAr. by have [] := L (t *: z).
Qed.
End Reduced.
