(** C82: algorithms that project the appearance out do not see what the appearance model explains. *)
From Coq Require List.
From Verif.Model Require Import Py LinAlg History SdFeatures SdAam.
From Verif.Spec Require Import LinAlg Explained.
From Verif.Proofs Require Import LinAlg Explained SdAamExt.
From mathcomp Require Import all_ssreflect all_algebra.
Set Implicit Arguments.
Unset Strict Implicit.
Unset Printing Implicit Defensive.
Import Order.TTheory GRing.Theory Num.Theory.
Local Open Scope ring_scope.

(** Project-out inverse compositional: two calls, on images that differ under every warp by a combination of the appearance
    components, report the same shapes, parameters and costs, and fail alike, with and without map_inference, whatever the
    two algorithm objects have been used for as long as they hold the same Hessian. *)
Theorem c82_inverse : forall (F : realFieldType) k m n (A : 'M[F]_(k, m)) P (Image Sh : Type) (project : Sh -> 'cV[F]_n) target_of
    (warp : Image -> 'cV[F]_n -> res 'cV[F]_k) exceeds (a_bar_m : 'cV[F]_k) (J : 'M[F]_(k, n)) pinv_QJ_m s2_inv_L
    (im im' : Image) s iters costs mi (a b : alg F k n),
  penrose A P -> np_solve ((project_out A P J)^T *m J) (project_out A P J)^T = Ok pinv_QJ_m ->
  (forall p, differ_by warp (combination A) im im' p) -> a_H a = a_H b ->
  let run := ic_run project target_of warp exceeds (cost_of A P) a_bar_m (project_out A P J) pinv_QJ_m s2_inv_L in
  snd (run (Call im s iters costs mi) a) = snd (run (Call im' s iters costs mi) b).
Proof. move=> F k m n A P Image Sh project target_of warp exceeds a_bar J pinv s2 im im' s iters costs mi a b PA PQ D EH. move=> run.
  by apply: (@run_related F k m A P PA n Image Sh project target_of warp exceeds a_bar J pinv s2 im im' D PQ).
Qed.

Section Sd.
Variable F : realFieldType.
Variables (k m : nat) (S V I R M E : Type).
Variable A : 'M[F]_(k, m).
Variable P : 'M[F]_(m, k).
Variable a_bar_m : 'cV[F]_k.
Variable warp : I -> M -> res 'cV[F]_k.
Variables vadd vsub : V -> V -> V.
Variable set_target : M -> S -> res M.
Variable from_vector : M -> V -> res M.
Variable vec : M -> V.
Variable tgt : M -> S.
Variable compute_error : S -> S -> S -> res E.
Variable garbage : V.
(** Regressors for features of either length. *)
Variable reg_train : forall j, seq 'cV[F]_j -> seq (option V) -> res R.
Variable reg_increment : forall j, R -> seq 'cV[F]_j -> seq (option V) -> res R.
Variable reg_predict : forall j, R -> seq 'cV[F]_j -> res (seq V).
Variable reg_predict1 : forall j, R -> 'cV[F]_j -> res V.
Notation fit j f := (sd_fit vadd set_target from_vector vec tgt f (@reg_predict1 j)).
Notation train j f := (sd_train vadd vsub set_target from_vector vec tgt f (@reg_train j) (@reg_increment j) (@reg_predict j) compute_error garbage).

(** Project-out supervised descent: the same for fits and for training. *)
Theorem c82_project_out_descent : penrose A P ->
  let f := project_out_feature warp a_bar_m A P in
  (forall a im im' s, (forall t, differ_by warp (combination A) im im' t) -> fit k f a im s = fit k f a im' s) /\
  (forall vb inc n a images images' gts cur,
     List.Forall2 (fun im im' => forall t, differ_by warp (combination A) im im' t) images images' ->
     train k f vb inc n a images gts cur = train k f vb inc n a images' gts cur).
Proof.
  move=> PA f.
  have L im im' : (forall t, differ_by warp (combination A) im im' t) -> forall t, f im t = f im' t.
    move=> D t. rewrite /f /project_out_feature. have := D t. rewrite /differ_by.
    case: (warp im t) => [x|x]; case: (warp im' t) => [y|y] //=; last by move=> <-.
    move=> [d [-> [w ->]]]. by rewrite addrAC (po_add PA).
  split; first by move=> a im im' s D; apply: fit_alike; exact: L.
  move=> vb inc n a images images' gts cur D. apply: train_alike. elim: D => [|x y xs ys D Ds IH]; constructor=> //. exact: L.
Qed.
(** Mean-template supervised descent explains nothing away: two images give the same feature exactly when they look the same,
    and none exactly when the image looks like the mean; only the difference to the mean matters, in fits and in training. *)
Theorem c82_mean_descent : let f := mean_feature warp a_bar_m in
  (forall im im' t x y, warp im t = Ok x -> warp im' t = Ok y -> (f im t = f im' t <-> x = y)) /\
  (forall im t x, warp im t = Ok x -> (f im t = Ok 0 <-> x = a_bar_m)) /\
  (forall (warp' : I -> M -> res 'cV[F]_k) v, (forall im t, warp' im t = let? x := warp im t in Ok (x + v)) ->
     let f' := mean_feature warp' (a_bar_m + v) in
     (forall a im s, fit k f' a im s = fit k f a im s) /\
     (forall vb inc n a images gts cur, train k f' vb inc n a images gts cur = train k f vb inc n a images gts cur)).
Proof.
  split; [|split].
  - move=> im im' t x y Hx Hy. rewrite /mean_feature Hx Hy /=. split=> [[/addIr]|->] //.
  - move=> im t x Hx. rewrite /mean_feature Hx /=. split=> [[/eqP]|->]; [by rewrite subr_eq0 => /eqP | by rewrite subrr].
  - move=> warp' v H f'. have L im t : f' im t = mean_feature warp a_bar_m im t.
      rewrite /f' /mean_feature H. case: (warp im t) => //= x. by rewrite opprD addrACA subrr addr0.
    split=> [a im s|vb inc n a images gts cur].
    + apply: fit_alike. exact: L.
    + apply: train_alike. elim: images => [|x xs IH]; constructor=> //.
Qed.

(** Supervised descent on appearance weights sees only what the model explains. *)
Theorem c82_weights_descent : penrose A P ->
  let f := weights_feature warp a_bar_m P in
  (forall a im im' s, (forall t, differ_by warp (orthogonal A) im im' t) -> fit m f a im s = fit m f a im' s) /\
  (forall vb inc n a images images' gts cur,
     List.Forall2 (fun im im' => forall t, differ_by warp (orthogonal A) im im' t) images images' ->
     train m f vb inc n a images gts cur = train m f vb inc n a images' gts cur).
Proof.
  move=> PA f.
  have L im im' : (forall t, differ_by warp (orthogonal A) im im' t) -> forall t, f im t = f im' t.
    move=> D t. rewrite /f /weights_feature /appearance_weights. have := D t. rewrite /differ_by.
    case: (warp im t) => [x|x]; case: (warp im' t) => [y|y] //=; last by move=> <-.
    move=> [d [-> O]]. by rewrite addrAC (weights_add PA _ O).
  split; first by move=> a im im' s D; apply: fit_alike; exact: L.
  move=> vb inc n a images images' gts cur D. apply: train_alike. elim: D => [|x y xs ys D Ds IH]; constructor=> //. exact: L.
Qed.
(** What the two features show: of an image that is the mean, plus the components with weights c, plus a rest no component
    explains, project-out keeps the rest and appearance weights keep the weights, as far as they make a difference; these are
    the weights themselves when the components are independent. *)
Theorem c82_features : penrose A P -> forall im t c r, A^T *m r = 0 -> warp im t = Ok (a_bar_m + A *m c + r) ->
  project_out_feature warp a_bar_m A P im t = Ok r /\
  (exists w, weights_feature warp a_bar_m P im t = Ok w /\ A *m w = A *m c) /\
  (P *m A = 1%:M -> weights_feature warp a_bar_m P im t = Ok c).
Proof.
  move=> [P1 P2 P3 P4] im t c r O H.
  have Z : P *m r = 0 by rewrite -P2 -(mulmxA P) -P3 trmx_mul -!mulmxA O !mulmx0.
  have W : weights_feature warp a_bar_m P im t = Ok (P *m A *m c).
    rewrite /weights_feature H /= /appearance_weights. by rewrite addrC !addrA addNr add0r mulmxDr Z addr0 mulmxA.
  split; last split.
  - rewrite /project_out_feature H /= /project_out. rewrite (addrC (_ + r)) !addrA addNr add0r mulmxDr Z addr0 !mulmxA P1.
    by rewrite addrAC subrr add0r.
  - exists (P *m A *m c). split=> //. by rewrite !mulmxA P1.
  - by move=> U; rewrite W U mul1mx.
Qed.
End Sd.

(** Project-out forward compositional fits do see it: their Jacobian is that of the image.  Images of one row, read at the three
    pixels p - 1, p and p + 1; the model explains affine images; the first image is x^2, the second x^2 + x.  From p = 0 the
    first fit stops with a singular matrix and the second succeeds. *)
Section Forward.
Variable F : realFieldType.
Definition A3 : 'M[F]_(3, 2) := \matrix_(i, j) (if j == 0 then 1 else i%:R - 1).
Definition P3 : 'M[F]_(2, 3) := invmx (A3^T *m A3) *m A3^T.
Definition row_warp (f : F -> F) (p : 'cV[F]_1) : res 'cV[F]_3 := Ok (\col_i f (p 0 0 + (i%:R - 1))).
(** Central differences, zero at the boundary (lk.py 168-169), and the Jacobian of a translation. *)
Definition row_jac (f : F -> F) (p : 'cV[F]_1) : res 'M[F]_(3, 1) :=
  Ok (\matrix_(i, _) (if i == 1 then (f (p 0 0 + 1) - f (p 0 0 - 1)) / 2%:R else 0)).
Definition f1 (x : F) := x * x.
Definition f2 (x : F) := x * x + x.
Lemma A3_full : full_rank A3.
Proof.
  move=> x E. have E1 : (A3 *m x) 1 0 = 0 by rewrite E mxE. have E2 : (A3 *m x) (inord 2) 0 = 0 by rewrite E mxE.
  move: E1 E2. rewrite !mxE !big_ord_recl !big_ord0 !mxE /= inordK // !mul1r !addr0 subrr mul0r addr0 => X0.
  rewrite X0 add0r. have -> : (2%:R - 1 : F) = 1 by rewrite -[2%N]/(1 + 1)%N natrD addrK.
  rewrite mul1r => X1. apply/colP => i. rewrite mxE.
  case: (unliftP 0 i) => [j|] ->; last by rewrite X0. rewrite (ord1 j). by rewrite X1.
Qed.
Lemma penrose3 : penrose A3 P3. Proof. exact: pinv_full_rank A3_full. Qed.
Definition mid : 'M[F]_(3, 1) := \matrix_(i, _) (if i == 1 then 1 else 0).
Lemma gram0 (Q : 'M[F]_(3, 1)) : Q^T *m Q = 0 -> Q = 0.
Proof.
  move=> Q1. apply/matrixP => i j. rewrite [RHS]mxE (ord1 j). have := congr1 (fun M : 'M_1 => M 0 0) Q1. rewrite !mxE => /eqP.
  rewrite psumr_eq0; last by move=> t _; rewrite mxE -expr2 sqr_ge0.
  move=> /allP /(_ i (mem_index_enum i)) /=. by rewrite mxE -expr2 sqrf_eq0 => /eqP.
Qed.
Lemma unit3 : (project_out A3 P3 mid)^T *m mid \in unitmx.
Proof.
  set J := mid.
  rewrite unitmxE unitfE det_mx11. apply/eqP => Z.
  have Q0 : project_out A3 P3 J = 0.
    have Q1 : (project_out A3 P3 J)^T *m project_out A3 P3 J = 0.
      rewrite {2}/project_out mulmxBr (QtA penrose3) subr0. apply/matrixP => i j. by rewrite !ord1 Z mxE.
    exact: gram0 Q1.
  have JE : J = A3 *m (P3 *m J) by apply/eqP; rewrite -subr_eq0; apply/eqP; exact: Q0.
  move: (P3 *m J) JE => c JE.
  have E i : J i 0 = c 0 0 + (i%:R - 1) * c 1 0.
    rewrite {1}JE mxE !big_ord_recl big_ord0 !mxE /= mul1r addr0. congr (_ + _ * c _ _). exact: val_inj.
  have J0 : J 0 0 = 0 by rewrite mxE.
  have J2 : J (inord 2) 0 = 0 by rewrite mxE -(inj_eq val_inj) /= inordK.
  have J1 : J 1 0 = 1 by rewrite mxE.
  have e1 := E 1. have e0 := E 0. have e2 := E (inord 2).
  rewrite J1 /= subrr mul0r addr0 in e1. rewrite J0 -e1 /= sub0r mulN1r in e0. rewrite J2 -e1 inordK // in e2.
  rewrite (_ : 2%:R - 1 = 1 :> F) ?mul1r in e2; last by rewrite -[2%N]/(1 + 1)%N natrD addrK.
  have c1 : c 1 0 = 1 by apply/eqP; rewrite eq_sym -subr_eq0 -e0.
  have := pnatr_eq0 F 2. by rewrite -[2%:R]/(1 + 1) -{2}c1 -e2 eqxx.
Qed.
Notation run3 := (fc_run (fun s : 'cV[F]_1 => s) (fun p => p) row_warp (fun _ _ => true) (cost_of A3 P3) 0 0 row_jac (project_out A3 P3)).
Theorem c82_forward_refuted : penrose A3 P3 /\ (forall p, differ_by row_warp (combination A3) f1 f2 p) /\
  forall a : alg F 3 1,
  snd (run3 (Call f1 0 1 false false) a) = Err LinAlgError /\ exists r, snd (run3 (Call f2 0 1 false false) a) = Ok r.
Proof.
  split; [exact: penrose3|split].
  - move=> p. rewrite /differ_by /row_warp. exists (\col_i (p 0 0 + (i%:R - 1))). split; first by apply/colP => i; rewrite !mxE.
    exists (\col_i (if i == 0 then p 0 0 else 1)). apply/colP => i. rewrite !mxE !big_ord_recl big_ord0 !mxE /=. by rewrite mul1r mulr1 addr0.
  - move=> a. split.
    + rewrite /fc_run /run /= /fc_solve /=. set J := (\matrix_(_, _) _ : 'M_(3, 1)).
      have J0 : J = 0. apply/matrixP => i j. rewrite !mxE. case: eqP => // _. by rewrite /f1 !add0r mulrNN subrr mul0r.
      rewrite /solve_shape_ml /np_solve J0 mulmx0 unitmxE det0 ?unitr0 //.
    + rewrite /fc_run /run /= /fc_solve /=. set J := (\matrix_(_, _) _ : 'M_(3, 1)).
      have JE : J = mid.
        apply/matrixP => i j. rewrite !mxE. case: eqP => // _. rewrite !add0r /f2 mulrNN !mulr1 subrr subr0.
        rewrite -[1 + 1]/(2%:R) divff //. by rewrite pnatr_eq0.
      have U := unit3. rewrite -JE in U.
      rewrite /solve_shape_ml /np_solve U /=. by eexists.
Qed.
End Forward.

(** The hypotheses of c82_inverse: the images, components and warps above, and any Jacobian not explained by the model. *)
Example c82_example (F : realFieldType) : exists (J : 'M[F]_(3, 1)) pinv, penrose (A3 F) (P3 F) /\
  np_solve ((project_out (A3 F) (P3 F) J)^T *m J) (project_out (A3 F) (P3 F) J)^T = Ok pinv /\
  (forall p, differ_by (@row_warp F) (combination (A3 F)) (@f1 F) (@f2 F) p) /\ f1 (1 : F) <> f2 1.
Proof.
  exists (\matrix_(i, _) (if i == 1 then 1 else 0)).
  set J := (\matrix_(_, _) _). have U : (project_out (A3 F) (P3 F) J)^T *m J \in unitmx by exact: unit3.
  exists (invmx ((project_out (A3 F) (P3 F) J)^T *m J) *m (project_out (A3 F) (P3 F) J)^T). split; [exact: penrose3|split; [by rewrite /np_solve U|split]].
  - by have [_ []] := c82_forward_refuted F.
  - rewrite /f1 /f2 mul1r => /eqP. by rewrite -subr_eq0 opprD addrA subrr sub0r oppr_eq0 oner_eq0.
Qed.
(** The hypotheses of c82_features: the same components, and the rest (1, -2, 1). *)
Example c82_rest (F : realFieldType) : exists r : 'cV[F]_3, (A3 F)^T *m r = 0 /\ r != 0 /\ P3 F *m A3 F = 1%:M.
Proof.
  exists (\col_i (if i == 1 then - 2%:R else 1)). split; last split.
  - apply/colP => i. rewrite !mxE !big_ord_recl big_ord0 !mxE /=. case: eqP => _; rewrite ?mul1r ?subrr ?mul0r ?addr0 ?mulr1.
    + by rewrite addrCA -[1 + 1]/(2%:R : F) addNr.
    + by rewrite sub0r add0r /bump /= addrK addNr.
  - apply/eqP => /colP /(_ ord0). rewrite mxE /= mxE. by move/eqP; rewrite oner_eq0.
  - by rewrite /P3 -mulmxA mulVmx //; apply: gram_unit; exact: A3_full.
Qed.
Print Assumptions c82_inverse.
Print Assumptions c82_project_out_descent.
Print Assumptions c82_mean_descent.
Print Assumptions c82_weights_descent.
Print Assumptions c82_forward_refuted.
Print Assumptions c82_features.
