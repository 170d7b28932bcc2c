(** C100: along the cascade the training error never increases. *)
From Coq Require List.
From Verif.Model Require Import Py LinAlg Regression Regressors ModelInstance SdmOrtho CascadeError.
From Verif.Model Require SdmAlgorithm.
From Verif.Spec Require Import LinAlg Regressors ModelInstance SdmAlgorithm CascadeError.
From Verif.Spec Require SdmTrain Regression.
From Verif.Proofs Require Import MRing CascadeError SdmOrtho ModelInstance Projection.
From Verif.Proofs Require LinAlg Regression Regressors Regressors2 SdmAlgorithm CascadeTrace ModelExample.
From Verif.Props Require SdmAlgorithm SdmOrtho Regressors Regression.
From mathcomp Require Import all_ssreflect all_algebra.
Set Implicit Arguments.
Unset Strict Implicit.
Unset Printing Implicit Defensive.
Import Order.TTheory GRing.Theory Num.Theory.
Local Open Scope ring_scope.

Lemma onthE (T : Type) (l : seq T) : forall i, List.nth_error l i = onth l i.
Proof. by elim: l => [|x l IH] [|i] //=. Qed.

(** The history of the estimates of one training: before every iteration, and at the end. *)
Definition history {S R M E : Type} (o : SdmAlgorithm.outcome S R M E) : seq (seq (seq S)) := SdmAlgorithm.o_currents o ++ [:: SdmAlgorithm.o_final o].

Section Descent.
Variable F : realFieldType.
Variables (S : Type) (k : nat) (vector : S -> 'rV[F]_k).
(** What [descends] says about the two ends. *)
Lemma total_move_ge0 (c c' : seq (seq S)) : 0 <= total_move vector c c'.
Proof. rewrite /total_move. apply: sumr_ge0 => p _. apply: sumr_ge0 => q _. apply: sumr_ge0 => j _. exact: sqr_ge0. Qed.
Lemma descends_ends gts : forall h c0, descends vector gts (c0 :: h) -> total_error vector gts (last c0 h) <= total_error vector gts c0.
Proof.
  elim=> [|c1 h IH] c0 D //=. apply: le_trans (IH c1 _) _; first by move=> i c c'; exact: (D i.+1).
  have := D 0%N c0 c1 erefl erefl. apply: le_trans. by rewrite ler_addl total_move_ge0.
Qed.
End Descent.

Lemma before_last (T : Type) (x : T) l : forall i c c', List.nth_error (l ++ [:: x]) i = Some c -> List.nth_error (l ++ [:: x]) i.+1 = Some c' -> List.In c l.
Proof.
  elim: l => [|y l IH] [|i] c c' /=; [by []|by case: i|by move=> [->]; left|]. move=> A B. right. exact: IH A B.
Qed.
Lemma nth_error_lt (T : Type) (l : seq T) : forall i x, List.nth_error l i = Some x -> (i < size l)%N.
Proof. by elim: l => [|y l IH] [|i] x //=; apply: IH. Qed.
Section Trace.
Variable F : realFieldType.
Variables (S R M E X Z : Type) (k : nat) (vector : S -> 'rV[F]_k).
Variable reg_train : seq X -> seq (option 'rV[F]_k) -> res R.
Variable reg_predict : R -> seq X -> res (seq 'rV[F]_k).
Lemma trace_descends (o : SdmAlgorithm.outcome S Z M E) feat gts cur n :
  (forall c f, List.In c (SdmAlgorithm.o_currents o) -> feat c = Ok f -> helpful_at reg_train reg_predict f) ->
  length (SdmAlgorithm.o_currents o) = n -> List.nth_error (history o) 0 = Some cur ->
  (forall i c c', List.nth_error (history o) i = Some c -> List.nth_error (history o) i.+1 = Some c' ->
     length c = length gts /\ CascadeTrace.turn (fun a b => a + b) (fun a b => a - b) reg_train reg_predict vector feat gts c c') ->
  [/\ size (SdmAlgorithm.o_currents o) = n, onth (history o) 0 = Some cur, descends vector gts (history o) &
      forall i c, onth (history o) i = Some c -> map size c = map size cur].
Proof.
  move=> H L H0 TR. split=> //; first by rewrite -onthE.
  - move=> i c c'. rewrite -!onthE => Hc Hc'. have [Lc Tc] := TR i c c' Hc Hc'.
    apply: turn_error Lc Tc => f. apply: H. exact: (before_last Hc Hc').
  - elim=> [|i IH] c; rewrite -onthE => Hc; first by move: H0; rewrite Hc => [[->]].
    case Ei : (List.nth_error (history o) i) => [ci|].
      have [_ [f [r [est [_ [_ [_ [Es _]]]]]]]] := TR i ci c Ei Hc. apply: etrans (IH ci _); [exact: Es|by rewrite -onthE].
    exfalso. move: Ei Hc. clear. by elim: (history o) i => [|x l IH] [|i] //= A B; apply: IH A B.
Qed.
End Trace.

Lemma newton_helpful (F : realFieldType) (alpha : F) bias inc d k (f : seq 'rV[F]_d) : 0 <= alpha ->
  helpful_at (@newton_train F alpha bias inc d k) (@newton_predict F bias d k) f.
Proof.
  move=> A0. apply: helpful_rows => Y r TR.
  rewrite /gains (irl_gains TR) ler_subl_addr ler_addl mulr_ge0 ?ler0n // mulr_ge0 // /fro. by apply: sumr_ge0 => i _; apply: sumr_ge0 => j _; exact: sqr_ge0.
Qed.
Lemma rows_nth (F : realFieldType) n d (A : 'M[F]_(n, d)) j v : List.nth_error (rows_of A) j = Some v -> exists i : 'I_n, val i = j /\ v = row i A.
Proof.
  move=> H. have L : (j < n)%N.
    have := nth_error_lt H. by rewrite size_map size_enum_ord.
  exists (Ordinal L). split=> //. have := List.nth_error_nth _ _ (0 : 'rV[F]_d) H. move=> <-.
  have NE (T : Type) (x : T) l : forall i, List.nth i l x = nth x l i by elim: l => [|y l IH] [|i] //=.
  rewrite NE (nth_map (Ordinal L)) ?size_enum_ord //. congr row. apply: val_inj. by rewrite /= nth_enum_ord.
Qed.
Lemma newton_rowwise (F : realFieldType) (bias : bool) d k : rowwise (@newton_predict F bias d k)
  (fun (r : irl_state F (d + bias) k) x => Ok (irl_predict r x)).
Proof.
  move=> r f p [<-]. split; first by rewrite !lengthE size_map size_enum_ord.
  move=> j x Hx. have L : (j < size f)%N by exact: nth_error_lt Hx.
  case Ev : (List.nth_error _ j) => [v|]; last first.
    move/List.nth_error_None: Ev. rewrite lengthE size_map size_enum_ord => /ssrnat.leP. by rewrite leqNgt L.
  exists v. split=> //. have [i [Ei ->]] := rows_nth Ev. rewrite Verif.Props.SdmOrtho.c77_irl_rowwise. congr (Ok (irl_predict r _)).
  have NE (T : Type) (y : T) l : forall i, List.nth i l y = nth y l i by elim: l => [|z l IH] [|h] //=.
  apply/rowP => c. rewrite !mxE Ei -NE (List.nth_error_nth _ _ _ Hx). by [].
Qed.
Lemma sample_ext (S : Type) (a b : seq (seq S)) : map size a = map size b ->
  (forall i l x, sample a i l = Some x -> sample b i l = Some x) -> a = b.
Proof.
  elim: a b => [|s a IH] [|t b] //= [E1 E2] H. congr cons; last first.
    apply: IH E2 _ => i l x. exact: (H i.+1 l x).
  have {H} := H 0%N. rewrite /sample /=. move: E1. clear. elim: s t => [|x s IH] [|y t] //= [E] H. congr cons.
    by have := H 0%N x erefl => - [->]. apply: IH => // l. exact: (H l.+1).
Qed.
Lemma onth_last (T : Type) (l : seq T) x : onth (l ++ [:: x]) (size l) = Some x. Proof. by elim: l. Qed.
Lemma sample_some (S : Type) (a b : seq (seq S)) i l x : map size a = map size b -> sample a i l = Some x -> exists y, sample b i l = Some y.
Proof.
  elim: a b i => [|s a IH] [|t b] [|i] //= [E1 E2]; last exact: IH.
  rewrite /sample /=. move: E1. clear. elim: s t l => [|z s IH] [|y t] [|l] //= [E]; [by exists y|exact: IH].
Qed.

(** ** Algorithms that regress coordinates *)
Section Free.
Variable F : realFieldType.
Variables (S I A E : Type) (d k : nat).
Variable as_vec : S -> 'rV[F]_k.
Variable from_vec : S -> 'rV[F]_k -> S.
Hypothesis vec_from : forall s v, as_vec (from_vec s v) = v.
Variable patches : I -> S -> res 'rV[F]_d.
Variable build_appearance : nat -> seq 'rV[F]_d -> res A.
Variable appearance_feature : A -> 'rV[F]_d -> res 'rV[F]_d.
Variable compute_error : S -> S -> S -> res E.
Variable garbage : 'rV[F]_k.
Section Any.
Variable R : Type.
Variable reg_train : seq 'rV[F]_d -> seq (option 'rV[F]_k) -> res R.
Variable reg_increment : R -> seq 'rV[F]_d -> seq (option 'rV[F]_k) -> res R.
Variable reg_predict : R -> seq 'rV[F]_d -> res (seq 'rV[F]_k).
Notation train := (SdmAlgorithm.train (fun a b : 'rV[F]_k => a + b) (fun a b : 'rV[F]_k => a - b) SdmAlgorithm.free_set_target (SdmAlgorithm.free_from_vector from_vec)
  as_vec (fun s : S => s) patches build_appearance appearance_feature SdmAlgorithm.free_build reg_train reg_increment reg_predict compute_error garbage).
Lemma free_descends app vb n a images gts cur a' o np : let kd := SdmAlgorithm.mkKind false app in
  (forall c f, List.In c (SdmAlgorithm.o_currents o) ->
     SdmAlgorithm.training_features patches appearance_feature kd (SdmAlgorithm.a_appearance a') images c = Ok f -> helpful_at reg_train reg_predict f) ->
  SdmTrain.rectangular np gts cur -> train kd vb false n a images gts cur = Ok (a', o) ->
  [/\ size (SdmAlgorithm.o_currents o) = n, onth (history o) 0 = Some cur, descends as_vec gts (history o) &
      forall i c, onth (history o) i = Some c -> map size c = map size cur].
Proof using vec_from.
  move=> kd H RC T.
  have [||||L [H0 TR]] := (@CascadeTrace.train_trace _ _ _ _ _ _ _ _ (fun a b => a + b) (fun a b => a - b) SdmAlgorithm.free_set_target (SdmAlgorithm.free_from_vector from_vec)
    as_vec (fun s => s) patches build_appearance appearance_feature SdmAlgorithm.free_build reg_train reg_increment reg_predict compute_error garbage
    as_vec (fun _ => True) (fun _ => True) _ _ kd vb n a images gts cur a' o np _ RC T _) => //.
  - by move=> m s m' _ [<-].
  - by move=> m v m' _ [<-].
  - by apply/List.Forall_forall => ? _; apply/List.Forall_forall => ? _; apply/List.Forall_forall.
  - exact: (trace_descends H L H0 TR).
Qed.
End Any.

Notation train alpha bias inc := (SdmAlgorithm.train (fun a b : 'rV[F]_k => a + b) (fun a b : 'rV[F]_k => a - b) SdmAlgorithm.free_set_target (SdmAlgorithm.free_from_vector from_vec)
  as_vec (fun s : S => s) patches build_appearance appearance_feature SdmAlgorithm.free_build
  (@newton_train F alpha bias inc d k) (@newton_increment F alpha bias d k) (@newton_predict F bias d k) compute_error garbage).

(** Newton (ridge regression with any non-negative weight, with or without bias): every iteration of a training brings the
    total squared distance between estimates and annotations down by at least the squared distance it moved. *)
Theorem c100_newton : forall (alpha : F) bias inc app vb n a images gts cur a' o np, 0 <= alpha ->
  SdmTrain.rectangular np gts cur -> train alpha bias inc (SdmAlgorithm.mkKind false app) vb false n a images gts cur = Ok (a', o) ->
  size (SdmAlgorithm.o_currents o) = n /\ onth (history o) 0 = Some cur /\ descends as_vec gts (history o).
Proof using vec_from.
  move=> alpha bias inc app vb n a images gts cur a' o np A0 RC T. have [] // := free_descends _ RC T.
  move=> c f _ _. exact: newton_helpful.
Qed.

(** What the user sees: fitting every training image from each of its training perturbations ends, in total, no further from
    the annotations than it began. *)
Notation fit bias := (SdmAlgorithm.fit (fun a b : 'rV[F]_k => a + b) SdmAlgorithm.free_set_target (SdmAlgorithm.free_from_vector from_vec) as_vec (fun s : S => s)
  patches appearance_feature (fun (r : irl_state F (d + bias) k) x => Ok (irl_predict r x))).
Theorem c100_newton_fits : forall (alpha : F) bias inc app vb n a images gts cur a' o np m results, 0 <= alpha -> n <> 0%N ->
  SdmTrain.rectangular np gts cur -> size images = size gts ->
  train alpha bias inc (SdmAlgorithm.mkKind false app) vb false n a images gts cur = Ok (a', o) ->
  map size results = map size cur ->
  (forall i l im s shapes m', onth images i = Some im -> sample cur i l = Some s ->
     fit bias (SdmAlgorithm.mkKind false app) a' m im s = Ok (shapes, m') -> sample results i l = Some (last s shapes)) ->
  total_error as_vec gts results <= total_error as_vec gts cur.
Proof using vec_from.
  move=> alpha bias inc app vb n a images gts cur a' o np m results A0 N0 RC SI T SR HF.
  have [|L H0 D SZ] := free_descends _ RC T; first by move=> c f _ _; exact: newton_helpful.
  have HL : onth (history o) n = Some (SdmAlgorithm.o_final o) by rewrite -L /history onth_last.
  have -> : results = SdmAlgorithm.o_final o.
    apply/esym/sample_ext; first by rewrite SR (SZ _ _ HL).
    move=> i l x Hx. have [s Hs] := sample_some (SZ _ _ HL) Hx.
    have [im Hi] : exists im, onth images i = Some im.
      have Li : (i < size images)%N.
        rewrite SI. case: RC => Lc _. rewrite (_ : size gts = size cur); last exact: esym Lc. move: Hs. rewrite /sample. case Ec : List.nth_error => [ss|] // _.
        exact: nth_error_lt Ec.
      rewrite -onthE. case Ei : List.nth_error => [im|]; first by exists im. move/List.nth_error_None: Ei => /ssrnat.leP. by rewrite lengthE leqNgt Li.
    have := Hi. rewrite -onthE => Hi'.
    have [shapes [m' [HFit [[RL RT] LS]]]] := Verif.Props.SdmAlgorithm.c77_non_parametric _ _ _ _ _ _ _ _ _ _ _ _ _ _ _ _ _ _ _ _ _ _ _ _ _ _ _ m (@newton_rowwise F bias d k) T N0 (fun e => ltac:(discriminate e)) Hi' Hs.
    rewrite (HF _ _ _ _ _ _ Hi Hs HFit).
    move: N0 LS HL => {HF HFit RL T L}. case: n => // n _ LS HL.
    have EL : List.nth_error shapes n = Some (last s shapes).
      move: LS. rewrite lengthE. clear. elim: shapes n s => [|y l IH] [|n] s //= [E]; first by move/size0nil: E => ->. exact: IH.
    have [c [Hc Hsc]] := RT n _ EL. move: Hc. rewrite onthE -/(history o) HL => [[Ec]]. move: Hsc. by rewrite -Ec Hx => [[->]].
  have := D. move: H0 HL. rewrite /history. case: (SdmAlgorithm.o_currents o) L => [|c0 h] L /=; first by move=> [<-].
  move=> [<-] _ /descends_ends. by rewrite last_cat.
Qed.
End Free.

(** ** The same for the regressors that reduce dimensions *)
Section Reduced.
Variable F : rcfType.
Variables (S I A E : Type) (d k : nat).
Variable as_vec : S -> 'rV[F]_k.
Variable from_vec : S -> 'rV[F]_k -> S.
Hypothesis vec_from : forall s v, as_vec (from_vec s v) = v.
Variable patches : I -> S -> res 'rV[F]_d.
Variable build_appearance : nat -> seq 'rV[F]_d -> res A.
Variable appearance_feature : A -> 'rV[F]_d -> res 'rV[F]_d.
Variable compute_error : S -> S -> S -> res E.
Variable garbage : 'rV[F]_k.
Variable svd : forall n d, 'M[F]_(n, d) -> 'M[F]_(n, minn n d) * 'cV[F]_(minn n d) * 'M[F]_(minn n d, d).
Variable pca : forall n d, 'M[F]_(n, d) -> {k & ('M[F]_(k, d) * 'cV[F]_k)%type}.
Variable pinv : forall n d, 'M[F]_(n, d) -> 'M[F]_(d, n).
Definition svd_right n d (X : 'M[F]_(n, d)) : Prop := let: (U, s, V) := svd X in is_svd X U s V.
Definition pca_right n d (X : 'M[F]_(n, d)) : Prop := let: existT _ (U, l) := pca X in is_pca X U l.
Section Any.
Variable R : Type.
Variable reg_train : seq 'rV[F]_d -> seq (option 'rV[F]_k) -> res R.
Variable reg_increment : R -> seq 'rV[F]_d -> seq (option 'rV[F]_k) -> res R.
Variable reg_predict : R -> seq 'rV[F]_d -> res (seq 'rV[F]_k).
Definition reduced_train := SdmAlgorithm.train (fun a b : 'rV[F]_k => a + b) (fun a b : 'rV[F]_k => a - b) SdmAlgorithm.free_set_target (SdmAlgorithm.free_from_vector from_vec)
  as_vec (fun s : S => s) patches build_appearance appearance_feature SdmAlgorithm.free_build reg_train reg_increment reg_predict compute_error garbage.
End Any.

Lemma pcr_helpful variance (bias : bool) f : svd_right (add_bias bias (array_of (size f) f)) ->
  helpful_at (@pcr_train_rows F svd variance bias d k) (@pcr_predict_rows F bias d k) f.
Proof.
  rewrite /svd_right. case ES : (svd _) => [[U s] V] D. apply: helpful_rows => Y r TR. rewrite /gains.
  suff -> : fro (Y - pcr_predict r (array_of (size f) f)) + fro (pcr_predict r (array_of (size f) f)) = fro Y by [].
  have N : variance = None \/ variance = Some 0 -> fro (Y - pcr_predict r (array_of (size f) f)) + fro (pcr_predict r (array_of (size f) f)) = fro Y.
    move=> VN. have := Regressors2.pcr_none Y ES D VN. rewrite TR => [[_ [LN ->]]]. exact: least_gains LN.
  case: variance TR N => [v|] TR N; last by apply: N; left. have [v0|v0] := eqVneq v 0; first by apply: N; right; rewrite v0.
  have [_ B ->] := Regressors2.pcr_some ES D v0 TR. exact: best_gains B.
Qed.
(** Principal component regression, with any variance, when the singular value decompositions asked for are right. *)
Theorem c100_pcr : forall variance bias app vb n a images gts cur a' o np, let kd := SdmAlgorithm.mkKind false app in
  (forall c f, List.In c (SdmAlgorithm.o_currents o) ->
     SdmAlgorithm.training_features patches appearance_feature kd (SdmAlgorithm.a_appearance a') images c = Ok f -> svd_right (add_bias bias (array_of (size f) f))) ->
  SdmTrain.rectangular np gts cur ->
  reduced_train (@pcr_train_rows F svd variance bias d k) (fun _ _ _ => Err NotImplementedError) (@pcr_predict_rows F bias d k) kd vb false n a images gts cur = Ok (a', o) ->
  size (SdmAlgorithm.o_currents o) = n /\ onth (history o) 0 = Some cur /\ descends as_vec gts (history o).
Proof using vec_from.
  move=> variance bias app vb n a images gts cur a' o np kd H RC T. have [] // := free_descends vec_from _ RC T.
  move=> c f Hc Hf. exact: pcr_helpful (H c f Hc Hf).
Qed.

Lemma pca_rows n q (X : 'M[F]_(n, q)) m U l : is_pca X (U : 'M[F]_(m, q)) l -> (m <= q)%N.
Proof. move=> [O _ _]. have := mxrankM_maxl U U^T. rewrite O mxrank1 => H. exact: leq_trans H (rank_leq_col U). Qed.
Lemma optimal_helpful variance (bias : bool) f : (forall n (X : 'M[F]_(n, d + bias)), pca_right X) ->
  (forall m (Z : 'M[F]_m), (m <= d + bias)%N -> pca_right Z) -> (forall n m (G : 'M[F]_(n, m)), full_rank G -> penrose G (pinv G)) ->
  helpful_at (@optimal_train F pca pinv variance bias d k) (@linear_predict_rows F bias d k) f.
Proof.
  move=> P1 P2 PI. apply: helpful_rows => Y r TR. rewrite /gains /linear_predict. set X := array_of (size f) f in TR *.
  suff -> : fro (Y - add_bias bias X *m r) + fro (add_bias bias X *m r) = fro Y by [].
  have := P1 _ (add_bias bias X). rewrite /pca_right. case EP : (pca _) => [m [U l]] D. have Lm := pca_rows D.
  case: variance TR => [v|] TR.
  - have [|R' ER B] := @Regressors2.olr_some F pca pinv bias _ d k m X Y U l EP D (PI _) v.
      move=> W _. apply: P2. exact: leq_trans (Regressors2.n_kept_le l v) Lm.
    move: TR. rewrite ER => [[<-]]. exact: best_gains B.
  - have [|R' ER B] := @Regressors2.olr_none F pca pinv bias _ d k m X Y U l EP D (PI _); first by move=> W _; apply: P2.
    move: TR. rewrite ER => [[<-]]. exact: least_gains B.
Qed.
(** Optimal linear regression, with any variance, when pca and pinv are right. *)
Theorem c100_optimal : forall variance (bias : bool) app vb n a images gts cur a' o np,
  (forall n (X : 'M[F]_(n, d + bias)), pca_right X) -> (forall m (Z : 'M[F]_m), (m <= d + bias)%N -> pca_right Z) ->
  (forall n m (G : 'M[F]_(n, m)), full_rank G -> penrose G (pinv G)) ->
  SdmTrain.rectangular np gts cur ->
  reduced_train (@optimal_train F pca pinv variance bias d k) (fun _ _ _ => Err NotImplementedError) (@linear_predict_rows F bias d k) (SdmAlgorithm.mkKind false app) vb false n a images gts cur = Ok (a', o) ->
  size (SdmAlgorithm.o_currents o) = n /\ onth (history o) 0 = Some cur /\ descends as_vec gts (history o).
Proof using vec_from.
  move=> variance bias app vb n a images gts cur a' o np P1 P2 PI RC T. have [] // := free_descends vec_from _ RC T.
  move=> c f _ _. exact: optimal_helpful.
Qed.
End Reduced.

(** ** Algorithms that regress the parameters of an OrthoPDM *)
Section Ortho.
Variable F : realFieldType.
Variable N : nat.
Notation shape := 'M[F]_(N, 2).
Variable align : shape -> shape -> sim F.
Variable src : shape.
Variables (I A E : Type) (d k : nat).
Variable patches : I -> shape -> res 'rV[F]_d.
Variable build_appearance : nat -> seq 'rV[F]_d -> res A.
Variable appearance_feature : A -> 'rV[F]_d -> res 'rV[F]_d.
Variable build_shape : seq shape -> res (opdm F N).
Variable compute_error : shape -> shape -> shape -> res E.
Variable garbage : 'rV[F]_k.
(** Parameter vectors as rows of the arrays. *)
Definition to_row (v : seq F) : 'rV[F]_k := \row_i nth 0 v i.
Definition of_row (v : 'rV[F]_k) : seq F := [seq v 0 i | i <- enum 'I_k].
Lemma of_rowK v : to_row (of_row v) = v.
Proof. apply/rowP => i. rewrite mxE (nth_map i) ?size_enum_ord //. by rewrite nth_ord_enum. Qed.
(** The parameters the model finds for a shape. *)
Definition parameters (m : opdm F N) (s : shape) : 'rV[F]_k :=
  match ortho_set_target align src m s with Ok m' => to_row (opdm_vector m') | Err _ => 0 end.
Notation train alpha bias inc := (SdmAlgorithm.train (fun a b : 'rV[F]_k => a + b) (fun a b : 'rV[F]_k => a - b)
  (ortho_set_target align src) (fun m v => ortho_from_vector align src m (of_row v)) (fun m => to_row (opdm_vector m)) (@o_target F N)
  patches build_appearance appearance_feature build_shape (@newton_train F alpha bias inc d k) (@newton_increment F alpha bias d k) (@newton_predict F bias d k) compute_error garbage).

(** Every iteration of a Newton training brings the total squared distance between the parameters of the estimates and those
    of the annotations down by at least the squared distance it moved, if the model is a trained one and no estimate has
    all its points in one place. *)
Theorem c100_newton_ortho : forall (alpha : F) bias inc app vb n a images gts cur a' o np m, 0 <= alpha ->
  match SdmAlgorithm.a_shape a with Some m => Ok m | None => build_shape gts end = Ok m ->
  SdmOrtho.proper_pdm align src m -> SdmTrain.rectangular np gts cur ->
  train alpha bias inc (SdmAlgorithm.mkKind true app) vb false n a images gts cur = Ok (a', o) ->
  (forall c ss s, List.In c (List.tl (history o)) -> List.In ss c -> List.In s ss -> spread s) ->
  size (SdmAlgorithm.o_currents o) = n /\ onth (history o) 0 = Some cur /\ descends (parameters m) gts (history o).
Proof.
  move=> alpha bias inc app vb n a images gts cur a' o np m A0 HM [Esrc [Os [Om [Xo [B Ex]]]]] RC T SC.
  have [_ sy tr ss sf fg] := ortho_stateless align src.
  have [||||L [H0 TR]] := (@CascadeTrace.train_trace _ _ _ _ _ _ _ _ (fun a b : 'rV[F]_k => a + b) (fun a b : 'rV[F]_k => a - b)
    (ortho_set_target align src) (fun m v => ortho_from_vector align src m (of_row v)) (fun m => to_row (opdm_vector m)) (@o_target F N)
    patches build_appearance appearance_feature build_shape (@newton_train F alpha bias inc d k) (@newton_increment F alpha bias d k) (@newton_predict F bias d k) compute_error garbage
    (parameters m) (same_pdm m) (@spread F N) _ _ _ vb n a images gts cur a' o np _ RC T _) => //.
  - move=> p s p' Sp Hp. split; first exact: tr Sp (ss _ _ _ Hp). by rewrite /parameters (fg m p s Sp) Hp.
  - move=> p v p' Sp Hp. have Sp' := tr _ _ _ Sp (sf _ _ _ Hp). split=> // SP.
    move: (Hp). rewrite Esrc => Hp1. have Q := ortho_finds Os Om Xo B Ex Sp Hp1 SP. rewrite -Esrc in Q.
    rewrite /parameters (fg m p' _ Sp') Q. move: Hp. rewrite /ortho_from_vector. case: ifP => // _.
    case HF : opdm_from_vector => [p1 [[]|]] // [<-]. have [_ [_ [-> _]]] := opdm_from_ok HF. exact: of_rowK.
  - move=> p. rewrite /Verif.Proofs.SdmAlgorithm.shape_used /= HM => [[<-]]. by split.
  - apply/List.Forall_forall => c Hc; apply/List.Forall_forall => s Hs; apply/List.Forall_forall => x Hx. exact: SC Hc Hs Hx.
  - have [] // := trace_descends _ L H0 TR. move=> c f _ _. exact: newton_helpful.
Qed.
End Ortho.

(** ** Worlds of one coordinate: a shape is a number, an image is the feature it shows everywhere *)
Section World.
Context {V R : Type}.
Variables add sub : V -> V -> V.
Variable rt : seq V -> seq (option V) -> res R.
Variable ri : R -> seq V -> seq (option V) -> res R.
Variable rp : R -> seq V -> res (seq V).
Variable garbage : V.
Definition w_train := SdmAlgorithm.train (A := unit) (E := unit) add sub SdmAlgorithm.free_set_target (SdmAlgorithm.free_from_vector (fun _ v : V => v))
  (fun s => s) (fun s => s) (fun im _ => Ok im) (fun _ _ => Ok tt) (fun _ x => Ok x) SdmAlgorithm.free_build rt ri rp (fun _ _ _ => Ok tt) garbage
  (SdmAlgorithm.mkKind false false).
Lemma w_one x g s r e : rt [:: x] [:: Some (sub g s)] = Ok r -> rp r [:: x] = Ok [:: e] ->
  exists a o, [/\ w_train false false 1 SdmAlgorithm.fresh [:: x] [:: g] [:: [:: s]] = Ok (a, o), SdmAlgorithm.a_regressors a = [:: r],
    SdmAlgorithm.o_currents o = [:: [:: [:: s]]] & SdmAlgorithm.o_final o = [:: [:: add s e]]].
Proof. move=> H1 H2. eexists _, _. split; [rewrite /w_train /SdmAlgorithm.train; cbn; rewrite H1; cbn; rewrite H2; reflexivity|reflexivity..]. Qed.
Lemma w_two x y g h s t r e e' : rt [:: x; y] [:: Some (sub g s); Some (sub h t)] = Ok r -> rp r [:: x; y] = Ok [:: e; e'] ->
  exists a o, w_train false false 1 SdmAlgorithm.fresh [:: x; y] [:: g; h] [:: [:: s]; [:: t]] = Ok (a, o) /\
    SdmAlgorithm.o_final o = [:: [:: add s e]; [:: add t e']].
Proof. move=> H1 H2. eexists _, _. split; [rewrite /w_train /SdmAlgorithm.train; cbn; rewrite H1; cbn; rewrite H2; reflexivity|reflexivity..]. Qed.
Lemma w_more x g s r0 r e a : SdmAlgorithm.a_regressors a = [:: r0] -> ri r0 [:: x] [:: Some (sub g s)] = Ok r -> rp r [:: x] = Ok [:: e] ->
  exists a' o, w_train false true 1 a [:: x] [:: g] [:: [:: s]] = Ok (a', o) /\ SdmAlgorithm.o_final o = [:: [:: add s e]].
Proof. move=> H0 H1 H2. eexists _, _. split; [rewrite /w_train /SdmAlgorithm.train H0; cbn; rewrite H1; cbn; rewrite H2; reflexivity|reflexivity..]. Qed.
End World.

Section Numbers.
Variable F : realFieldType.
Add Ring Fr : (@r_ring F).
Notation num x := (const_mx x : 'rV[F]_1).
Notation plus := (fun a b : 'rV[F]_1 => a + b).
Notation less := (fun a b : 'rV[F]_1 => a - b).
Definition bit : 'rV[F]_1 -> 'rV[F]_1 := id.
Lemma num_eq (a b : 'M[F]_1) : a 0 0 = b 0 0 -> a = b. Proof. by move=> H; apply/matrixP => i j; rewrite !ord1. Qed.
Lemma error1 (g s : 'rV[F]_1) : total_error bit [:: g] [:: [:: s]] = (g 0 0 - s 0 0) ^+ 2.
Proof. by rewrite /total_error /= !(big_cons, big_nil) /= ?(big_cons, big_nil) !addr0 /distance2 !big_ord1. Qed.
Lemma error2 (g h s t : 'rV[F]_1) : total_error bit [:: g; h] [:: [:: s]; [:: t]] = (g 0 0 - s 0 0) ^+ 2 + (h 0 0 - t 0 0) ^+ 2.
Proof. by rewrite /total_error /= !(big_cons, big_nil) /= ?(big_cons, big_nil) !addr0 /distance2 !big_ord1. Qed.
Lemma array1 (x : 'rV[F]_1) : array_of 1 [:: x] = x. Proof. by apply/matrixP => i j; rewrite !ord1 mxE. Qed.
Lemma rows1 (x : 'rV[F]_1) : rows_of (x : 'M_(1, 1)) = [:: x].
Proof. rewrite -[in LHS](array1 x). exact: rowsK. Qed.
Lemma nobias n (X : 'M[F]_(n, 1)) : add_bias false X = X :> 'M_(n, 1).
Proof.
  apply/matrixP => i j. rewrite /add_bias mxE. case: split_ordP => a Ea; last by case: a Ea. by rewrite !ord1.
Qed.
Lemma solve1 (a : F) k (B : 'M[F]_(1, k)) : a != 0 -> np_solve (a%:M : 'M_1) B = Ok (a^-1 *: B).
Proof.
  move=> A0. have U : (a%:M : 'M[F]_1) \in unitmx by rewrite unitmxE det_scalar expr1 unitfE.
  rewrite /np_solve U invmx_scalar. by rewrite mul_scalar_mx.
Qed.

(** What Gauss-Newton does instead of decreasing the error: every predicted displacement is the only one that explains the
    features of its shape best through the ridge regression from the training displacements to the training features, at the
    price alpha2 of its squared length. *)
Theorem c100_gauss_newton_steps : forall (alpha alpha2 : F) d k (f : seq 'rV[F]_d) (D : seq (option 'rV[F]_k)) r, 0 <= alpha -> 0 <= alpha2 ->
  gauss_newton_train alpha alpha2 f D = Ok r ->
  exists J, Verif.Spec.Regression.is_ridge alpha (array_of (size f) (written D)) (array_of (size f) f) J /\
    forall f', exists ps, gauss_newton_predict r f' = Ok ps /\ size ps = size f' /\
      forall i, (i < size f')%N -> unique_minimum (fun p : 'rV[F]_k => sqn (nth 0 f' i - p *m J)^T + alpha2 * sqn p^T) (nth 0 ps i).
Proof.
  move=> alpha alpha2 d k f D r A1 A2. rewrite /gauss_newton_train /train_rows. case: ifP => // _ T.
  have [J [R M]] := Verif.Props.Regression.c25_iirl_minimises A1 A2 T. exists J. split=> // f'. eexists; split; first reflexivity.
  rewrite size_map size_enum_ord. split=> // i L. rewrite (nth_map (Ordinal L)) ?size_enum_ord // /iirl_predict row_mul.
  have -> : row (nth (Ordinal L) (enum 'I_(size f')) i) (array_of (size f') f') = nth 0 f' i.
    apply/rowP => c. by rewrite !mxE nth_enum_ord.
  exact: M.
Qed.
(** With both regularisations positive it always trains. *)
Example c100_gauss_newton_steps_ex : exists r, gauss_newton_train 1 1 [:: num 3%:R; num (-1)] [:: Some (num 1); Some (num 1)] = Ok r.
Proof. rewrite /gauss_newton_train /train_rows eqxx. apply: Verif.Props.Regression.c25_iirl_trains; exact: ltr01. Qed.

(** Gauss-Newton (the regressor of features on displacements, inverted): two images showing 3 and -1 at shapes that both lack
    1; the shapes after the iteration are 3 and -1, and the total error has grown from 2 to 8. *)
Theorem c100_gauss_newton_refuted : exists (images gts : seq 'rV[F]_1) cur a o,
  w_train plus less (@gauss_newton_train F 0 0 1 1) (fun _ _ _ => Err ValueError) (@gauss_newton_predict F 1 1) 0 false false 1 SdmAlgorithm.fresh images gts cur = Ok (a, o) /\
  SdmTrain.rectangular 1 gts cur /\ total_error bit gts cur = 2%:R /\ total_error bit gts (SdmAlgorithm.o_final o) = 8%:R.
Proof.
  exists [:: num 3%:R; num (-1)], [:: num 1; num 1], [:: [:: 0]; [:: 0]].
  set f := [:: _; _]. set D := [:: Some (num 1 - 0); Some (num 1 - 0)].
  have TR : gauss_newton_train 0 0 f D = Ok (mk_iirl None 1%:M).
    rewrite /gauss_newton_train /train_rows. change (size f == size D) with true. cbn match. change (size f) with 2%N. rewrite /iirl_train.
    set X := array_of 2 f. set Y := array_of 2 _.
    have Y1 i : Y i 0 = 1.
      rewrite !mxE. case: i => [[|[|//]]] /= _; by rewrite !mxE subr0.
    have X0 : X 0 0 = 3%:R by rewrite !mxE.
    have X1 : X 1 0 = - 1 by rewrite !mxE.
    have S2 : (add_bias false Y)^T *m add_bias false Y + 0%:M = 2%:R%:M.
      apply: num_eq. rewrite nobias mxE [(_ *m _) _ _]mxE big_ord_recl big_ord1 !Y1. rewrite !(mxE, Y1). rewrite mulr1 !eqxx !mulr1n addr0. mring F.
    have U : (add_bias false Y)^T *m add_bias false Y + 0%:M \in unitmx.
      rewrite S2 unitmxE det_scalar expr1 unitfE. by rewrite pnatr_eq0.
    rewrite (Regression.irl_train_ok false X U). cbn [bind irl_W]. rewrite S2.
    have J1 : usubmx (invmx 2%:R%:M *m ((add_bias false Y)^T *m X)) = 1%:M :> 'M[F]_1.
      apply: num_eq. rewrite mxE invmx_scalar mul_scalar_mx nobias mxE mxE big_ord_recl big_ord1. rewrite (_ : lift ord0 ord0 = 1); last exact: val_inj.
      rewrite (_ : lshift _ 0 = 0); last exact: val_inj. rewrite ![(Y^T) _ _]mxE !Y1 X0 X1 !mul1r [RHS]mxE eqxx mulr1n.
      rewrite (_ : 3%:R + -1 = 2%:R :> F); last by rewrite !mulrS !mulr0n; mring F. by rewrite mulVf // pnatr_eq0.
    rewrite J1 trmx1 mulmx1 /add_diagonal eqxx solve1 ?oner_eq0 //. by cbn [bind]; rewrite invr1 scale1r trmx1.
  have PR : gauss_newton_predict (mk_iirl None 1%:M) f = Ok f.
    by rewrite /gauss_newton_predict /predict_rows /iirl_predict mulmx1 rowsK.
  have [a [o [HT HO]]] := @w_two 'rV[F]_1 _ plus less _ (fun _ _ _ => Err ValueError) _ 0 _ _ (num 1) (num 1) 0 0 _ _ _ TR PR. exists a, o. split=> //. split.
    by split=> // [[|[|[|i]]]] ss //= [<-].
  rewrite HO !error2 !mxE. split; rewrite !mulrS !mulr0n; mring F.
Qed.

(** Newton on one image: the closed form of training and of one increment. *)
Lemma newton1 (alpha x y : F) inc : x ^+ 2 + alpha != 0 ->
  newton_train alpha false inc [:: num x] [:: Some (num y)] =
    Ok (mk_irl (if inc then Some (invmx (x ^+ 2 + alpha)%:M) else None) (num ((x ^+ 2 + alpha)^-1 * (x * y)))).
Proof.
  move=> N. rewrite /newton_train /train_rows. change (size _ == size _) with true. cbn match. change (size [:: num x]) with 1%N.
  rewrite /written /= !array1.
  have S2 : (add_bias false (num x : 'M_(1, 1)))^T *m add_bias false (num x : 'M_(1, 1)) + alpha%:M = (x ^+ 2 + alpha)%:M.
    apply: num_eq. by rewrite nobias mxE [(_ *m _) _ _]mxE big_ord1 !mxE eqxx !mulr1n expr2.
  have U : (add_bias false (num x : 'M_(1, 1)))^T *m add_bias false (num x : 'M_(1, 1)) + alpha%:M \in unitmx.
    by rewrite S2 unitmxE det_scalar expr1 unitfE.
  rewrite (Regression.irl_train_ok inc _ U) S2. congr (Ok (mk_irl _ _)). apply: num_eq.
  by rewrite invmx_scalar mul_scalar_mx nobias !mxE big_ord1 !mxE.
Qed.
Lemma newton1_predict (w x : F) V : @newton_predict F false 1 1 (mk_irl V (num w)) [:: num x] = Ok [:: num (x * w)].
Proof.
  rewrite /newton_predict /predict_rows /irl_predict. change (size [:: num x]) with 1%N. rewrite array1 nobias. congr Ok. rewrite -[RHS]rows1. congr rows_of.
  apply: num_eq. by rewrite !mxE big_ord1 !mxE.
Qed.
(** Incrementing: the regressors of an algorithm trained elsewhere and updated with an image that contradicts its training
    move away from the annotation of that image. *)
Theorem c100_increment_refuted : exists (im im' g g' s s' : 'rV[F]_1) a o a' o',
  let w_newton := w_train plus less (@newton_train F 1 false true 1 1) (@newton_increment F 1 false 1 1) (@newton_predict F false 1 1) 0 in
  w_newton false false 1%N SdmAlgorithm.fresh [:: im] [:: g] [:: [:: s]] = Ok (a, o) /\
  w_newton false true 1%N a [:: im'] [:: g'] [:: [:: s']] = Ok (a', o') /\
  total_error bit [:: g'] [:: [:: s']] = 1 /\ total_error bit [:: g'] (SdmAlgorithm.o_final o') = 9%:R / 4%:R.
Proof.
  exists (num 2%:R), (num 1), (num 2%:R), (num (-1)), 0, 0.
  have N5 : (2%:R : F) ^+ 2 + 1 != 0 by rewrite -natrX -[1]/(1%:R) -natrD pnatr_eq0.
  have E5 : (2%:R : F) ^+ 2 + 1 = 5%:R by rewrite -natrX -[1]/(1%:R) -natrD.
  have T1 := @newton1 1 2%:R 2%:R true N5. rewrite E5 -natrM in T1.
  have {T1}[a [o [HT HA HC HO]]] := @w_one 'rV[F]_1 _ plus less _ (@newton_increment F 1 false 1 1) _ 0 (num 2%:R) (num 2%:R) 0 _ _
     (etrans (congr1 (fun y => newton_train 1 false true [:: num 2%:R] [:: Some y]) (subr0 _)) T1) (newton1_predict _ _ _).
  set V0 := invmx (5%:R%:M : 'M[F]_1) in HA.
  have T2 : @newton_increment F 1 false 1 1 (mk_irl (Some V0) (num (5%:R^-1 * 4%:R))) [:: num 1] [:: Some (num (-1) - 0)] =
      Ok (mk_irl (Some (invmx 6%:R%:M)) (num (2%:R^-1))).
    rewrite /newton_increment /train_rows. change (size _ == size _) with true. cbn match. change (size [:: num 1]) with 1%N. rewrite /written /= !array1 subr0.
    have PS : Regression.posdef (5%:R%:M : 'M[F]_1) by apply: Regression.posdef_scalar; rewrite ltr0n.
    have WE : (num (5%:R^-1 * 4%:R) : 'M_(1, 1)) = V0 *m (num 4%:R : 'M_(1, 1)).
      apply: num_eq. by rewrite /V0 invmx_scalar mul_scalar_mx !mxE.
    rewrite (@Regression.irl_increment_ok F 1 false 1 1 1 _ _ (num 1 : 'M_(1,1)) (num (-1) : 'M_(1,1)) _ PS ltr01 WE).
    have -> : (5%:R%:M + 1^-1 *: ((add_bias false (num 1 : 'M_(1, 1)))^T *m add_bias false (num 1 : 'M_(1, 1)))) = 6%:R%:M :> 'M[F]_1.
      apply: num_eq. rewrite nobias invr1 scale1r !mxE big_ord1 !mxE eqxx !mulr1n. rewrite !mulrS !mulr0n; mring F.
    congr (Ok (mk_irl _ _)). apply: num_eq. rewrite invmx_scalar mul_scalar_mx nobias !mxE big_ord1 !mxE mul1r.
    have -> : 4%:R + -1 = 3%:R :> F by rewrite !mulrS !mulr0n; mring F.
    apply: (mulIf (_ : (6%:R : F) != 0)); first by rewrite pnatr_eq0. rewrite mulrAC mulVf ?pnatr_eq0 // mul1r.
    by rewrite (_ : 6%:R = 2%:R * 3%:R :> F) ?mulKf ?pnatr_eq0 // -natrM.
  have [a' [o' [HT' HO']]] := @w_more 'rV[F]_1 _ plus less (@newton_train F 1 false true 1 1) (@newton_increment F 1 false 1 1) _ 0 (num 1) (num (-1)) 0 _ _ _ _ HA T2 (newton1_predict _ _ _).
  exists a, o, a', o'. split; [exact: HT|]. split; [exact: HT'|]. rewrite HO' !error1 !mxE. split; first by rewrite subr0 sqrrN expr1n.
  rewrite mul1r add0r. have N2 : (2%:R : F) != 0 by rewrite pnatr_eq0.
  have -> : -1 - 2%:R^-1 = - (3%:R / 2%:R) :> F.
    apply: (mulIf N2). rewrite mulNr divfK // mulrBl mulVf // mulN1r. rewrite !mulrS !mulr0n; mring F.
  by rewrite sqrrN expr_div_n -!natrX.
Qed.
(** The hypotheses of c100_newton are met, and the step counts: one image showing 1, annotation 1, estimate 0, without
    regularisation: the error goes from 1 to 0. *)
Example c100_newton_example : exists (im g s : 'rV[F]_1) a o,
  w_train plus less (@newton_train F 0 false false 1 1) (@newton_increment F 0 false 1 1) (@newton_predict F false 1 1) 0 false false 1%N SdmAlgorithm.fresh [:: im] [:: g] [:: [:: s]] = Ok (a, o) /\
  SdmTrain.rectangular 1 [:: g] [:: [:: s]] /\ total_error bit [:: g] [:: [:: s]] = 1 /\ total_error bit [:: g] (SdmAlgorithm.o_final o) = 0 /\
  total_move bit [:: [:: s]] (SdmAlgorithm.o_final o) = 1.
Proof.
  exists (num 1), (num 1), 0. have N1 : (1 : F) ^+ 2 + 0 != 0 by rewrite addr0 expr1n oner_eq0.
  have T1 := @newton1 0 1 1 false N1. rewrite addr0 expr1n invr1 !mul1r in T1.
  have [a [o [HT HA HC HO]]] := @w_one 'rV[F]_1 _ plus less _ (@newton_increment F 0 false 1 1) _ 0 (num 1) (num 1) 0 _ _
     (etrans (congr1 (fun y => newton_train 0 false false [:: num 1] [:: Some y]) (subr0 _)) T1) (newton1_predict _ _ _).
  exists a, o. split; [exact: HT|]. split; first by split=> // [[|[|i]]] ss //= [<-].
  rewrite HO !error1 /total_move /= !(big_cons, big_nil) /= ?(big_cons, big_nil) /distance2 !big_ord1 !mxE. split; [|split]; rewrite ?mul1r; mring F.
Qed.
End Numbers.

Section Decompositions.
Variable F : rcfType.
Add Ring Fr : (@r_ring F).
Notation num x := (const_mx x : 'rV[F]_1).
Notation plus := (fun a b : 'rV[F]_1 => a + b).
Notation less := (fun a b : 'rV[F]_1 => a - b).
Variable pca : forall n d, 'M[F]_(n, d) -> {k & ('M[F]_(k, d) * 'cV[F]_k)%type}.

(** Procrustes regression: one image showing 3 at a shape that lacks 1, and any right decomposition; the prediction is 3 and
    the error grows from 1 to 4. *)
Theorem c100_procrustes_refuted : forall svd : forall n d, 'M[F]_(n, d) -> 'M[F]_(n, minn n d) * 'cV[F]_(minn n d) * 'M[F]_(minn n d, d),
  svd_right svd (3%:R%:M : 'M[F]_1) ->
  exists (im g s : 'rV[F]_1) a o,
  w_train plus less (@procrustes_train F svd pca false false 1 1) (fun _ _ _ => Err NotImplementedError) (@linear_predict_rows F false 1 1) 0 false false 1%N SdmAlgorithm.fresh [:: im] [:: g] [:: [:: s]] = Ok (a, o) /\
  total_error (@bit F) [:: g] [:: [:: s]] = 1 /\ total_error (@bit F) [:: g] (SdmAlgorithm.o_final o) = 4%:R.
Proof.
  move=> svd SR. exists (num 3%:R), (num 1), 0.
  have TR : procrustes_train svd pca false false [:: num 3%:R] [:: Some (num 1 - 0)] = Ok (num 1).
    rewrite /procrustes_train /train_rows. change (size _ == size _) with true. cbn match. change (size [:: num 3%:R]) with 1%N. rewrite /written /= !array1 subr0.
    rewrite /opp_train. cbn [bind]. have -> : (add_bias false (num 3%:R : 'M_(1, 1)))^T *m (num 1 : 'M_(1, 1)) = 3%:R%:M :> 'M[F]_(1, 1).
      apply: num_eq. by rewrite nobias !mxE big_ord1 !mxE eqxx mulr1n mulr1.
    move: SR. rewrite /svd_right. change (minn 1 1) with 1%N in *. case: (svd _ _ _) => [[U s] V] [OU OV EM S _]. congr Ok. apply: num_eq.
    have U2 : U 0 0 * U 0 0 = 1 by have := congr1 (fun M : 'M[F]_1 => M 0 0) OU; rewrite !mxE big_ord1 !mxE eqxx mulr1n.
    have V2 : V 0 0 * V 0 0 = 1 by have := congr1 (fun M : 'M[F]_1 => M 0 0) OV; rewrite !mxE big_ord1 !mxE eqxx mulr1n.
    have M3 : 3%:R = U 0 0 * s 0 0 * V 0 0.
      have := congr1 (fun M : 'M[F]_1 => M 0 0) EM. by rewrite mul_mx_diag !mxE big_ord1 !mxE eqxx mulr1n.
    rewrite !mxE big_ord1. set u := U 0 0 in U2 M3 *. set v := V 0 0 in V2 M3 *. have := S 0. set t := s 0 0 in M3 *. move=> T0.
    have UV : (u * v) ^+ 2 = 1 by rewrite exprMn !expr2 U2 V2 mulr1.
    move/eqP: UV. rewrite sqrf_eq1 => /orP [/eqP -> //|/eqP N]. exfalso. have : 3%:R = - t by rewrite M3 mulrAC N mulN1r.
    move=> T3. have : (3%:R : F) <= 0 by rewrite T3 oppr_le0. by rewrite lern0.
  have PR : linear_predict_rows (F := F) (bias := false) (d := 1) (k := 1) (num 1) [:: num 3%:R] = Ok [:: num 3%:R].
    rewrite /linear_predict_rows /predict_rows /linear_predict. change (size [:: num 3%:R]) with 1%N. rewrite array1 nobias. congr Ok.
    rewrite -[RHS]rows1. congr rows_of. apply: num_eq. by rewrite !mxE big_ord1 !mxE mulr1.
  have [a [o [HT HA HC HO]]] := @w_one 'rV[F]_1 _ plus less _ (fun _ _ _ => Err NotImplementedError) _ 0 (num 3%:R) (num 1) 0 _ _ TR PR.
  exists a, o. split; [exact: HT|]. rewrite HO !error1 !mxE. split; rewrite ?mulrS ?mulr0n; mring F.
Qed.
(** The decomposition of a one by one matrix, by hand. *)
Definition svd_one n d (X : 'M[F]_(n, d)) : 'M[F]_(n, minn n d) * 'cV[F]_(minn n d) * 'M[F]_(minn n d, d) :=
  (const_mx 1, const_mx (\sum_i \sum_j X i j), const_mx 1).
Lemma svd_one_right (x : F) : 0 <= x -> svd_right svd_one (x%:M : 'M[F]_1).
Proof.
  move=> X0. rewrite /svd_right /svd_one. change (minn 1 1) with 1%N. split.
  - by apply: num_eq; rewrite !mxE big_ord1 !mxE mulr1.
  - by apply: num_eq; rewrite !mxE big_ord1 !mxE mulr1.
  - apply: num_eq. rewrite !mxE big_ord1 !mxE eqxx mulr1n mulr1. rewrite big_ord1 !mxE eqxx mulr1n mul1r. by rewrite big_ord1 big_ord1 mxE eqxx mulr1n.
  - move=> i. rewrite mxE big_ord1 big_ord1 mxE eqxx mulr1n. exact: X0.
  - by move=> i j _; rewrite !mxE.
Qed.
Example c100_procrustes_example : svd_right svd_one (3%:R%:M : 'M[F]_1).
Proof. apply: svd_one_right. exact: ler0n. Qed.
(** c100_pcr and c100_optimal: one image showing 1, annotation 1, estimate 0. *)
Definition pcr_one : pcr_state F (1 + false) 1 := @mk_pcr F (1 + false) 1 1 (const_mx 1) (num 1).
Example c100_pcr_example : exists (im g s : 'rV[F]_1) a o,
  w_train plus less (@pcr_train_rows F svd_one None false 1 1) (fun _ _ _ => Err NotImplementedError) (@pcr_predict_rows F false 1 1) 0 false false 1%N SdmAlgorithm.fresh [:: im] [:: g] [:: [:: s]] = Ok (a, o) /\
  (forall c f, List.In c (SdmAlgorithm.o_currents o) ->
     SdmAlgorithm.training_features (fun im _ => Ok im) (fun _ : unit => Ok) (SdmAlgorithm.mkKind false false) (SdmAlgorithm.a_appearance a) [:: im] c = Ok f ->
     svd_right svd_one (add_bias false (array_of (size f) f))) /\
  total_error (@bit F) [:: g] [:: [:: s]] = 1 /\ total_error (@bit F) [:: g] (SdmAlgorithm.o_final o) = 0.
Proof.
  exists (num 1), (num 1), 0.
  have B1 : add_bias false (num 1 : 'M_(1, 1)) = 1%:M :> 'M[F]_(1, 1) by rewrite nobias; apply: num_eq; rewrite !mxE eqxx mulr1n.
  have TR : pcr_train_rows svd_one None false [:: num 1] [:: Some (num 1 - 0)] = Ok pcr_one.
    rewrite /pcr_train_rows /train_rows. change (size _ == size _) with true. cbn match. change (size [:: num 1]) with 1%N. rewrite /written /= !array1 subr0.
    rewrite /pcr_train B1 /svd_one. change (minn 1 1) with 1%N. cbn zeta.
    have -> : diag_mx (const_mx (\sum_i \sum_j (1%:M : 'M[F]_1) i j) : 'cV_1)^T = 1%:M :> 'M[F]_1.
      apply: num_eq. by rewrite !mxE big_ord1 big_ord1 mxE eqxx !mulr1n.
    rewrite /np_inv unitmx1. cbn [bind]. rewrite invmx1 mulmx1 /pcr_one. change (minn 1 (1 + false)) with 1%N.
    match goal with |- Ok (mk_pcr _ ?R) = _ => have -> // : R = num 1 end. apply: num_eq. by rewrite !mxE !big_ord1 !mxE !big_ord1 !mxE !mulr1.
  have PR : @pcr_predict_rows F false 1 1 pcr_one [:: num 1] = Ok [:: num 1].
    rewrite /pcr_predict_rows /predict_rows /pcr_predict /pcr_one. change (size [:: num 1]) with 1%N. rewrite array1 B1 mul1mx. congr Ok. rewrite -[RHS]rows1. congr rows_of.
    apply: num_eq. by rewrite !mxE !big_ord1 !mxE !big_ord1 !mxE !mulr1.
  have [a [o [HT HA HC HO]]] := @w_one 'rV[F]_1 _ plus less _ (fun _ _ _ => Err NotImplementedError) _ 0 (num 1) (num 1) 0 _ _ TR PR.
  exists a, o. split; [exact: HT|]. split.
    rewrite HC => c f [<-|//] [<-]. change (size [:: num 1]) with 1%N. rewrite array1 B1. apply: svd_one_right. exact: ler01.
  rewrite HO !error1 !mxE. split; mring F.
Qed.
Example c100_optimal_example : (forall n (X : 'M[F]_(n, 1 + false)), pca_right (@Verif.Props.Regressors.pca1 F) X) /\
  (forall m (Z : 'M[F]_m), (m <= 1 + false)%N -> pca_right (@Verif.Props.Regressors.pca1 F) Z) /\
  (forall n m (G : 'M[F]_(n, m)), full_rank G -> penrose G (Verif.Props.Regressors.pinv1 G)).
Proof.
  split; [|split].
  - move=> n X. exact: Verif.Props.Regressors.pca1_ok.
  - move=> [|[|//]] Z _; last exact: Verif.Props.Regressors.pca1_ok. rewrite /pca_right /Verif.Props.Regressors.pca1 big1; last by case. rewrite eqxx. split.
    + by apply/matrixP => [[]].
    + by case.
    + by exists 1; [exact: ltr01|apply/matrixP => [[]]].
  - move=> n m G. exact: Verif.Props.Regressors.pinv1_ok.
Qed.
End Decompositions.
Print Assumptions c100_newton.
Print Assumptions c100_newton_fits.
Print Assumptions c100_pcr.
Print Assumptions c100_optimal.
Print Assumptions c100_newton_ortho.
Print Assumptions c100_gauss_newton_refuted.
Print Assumptions c100_gauss_newton_steps.
Print Assumptions c100_procrustes_refuted.
Print Assumptions c100_increment_refuted.
