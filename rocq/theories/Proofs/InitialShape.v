From Verif.Model Require Import Py ModelInstance SimilarityModel InitialShape.
From Verif.Spec Require Import InitialShape.
From Verif.Proofs Require Import ModelInstance MRing Projection SimilarityModel.
From mathcomp Require Import all_ssreflect all_algebra.
Set Implicit Arguments.
Unset Strict Implicit.
Unset Printing Implicit Defensive.
Import Order.TTheory GRing.Theory Num.Theory.
Local Open Scope ring_scope.

Section Boxes.
Variable F : rcfType.
Add Ring Fr : (@r_ring F).
Implicit Types lo hi : 'I_2 -> F.

Lemma bigmin_le n (f : 'I_n -> F) x i : \big[Num.min/x]_i f i <= f i.
Proof.
  have : i \in index_enum (ordinal_finType n) by exact: mem_index_enum.
  elim: index_enum => [//|a l IH]. rewrite in_cons big_cons => /orP [/eqP ->|H]; first by rewrite le_minl lexx.
  by rewrite le_minl (IH H) orbT.
Qed.
Lemma bigmax_ge n (f : 'I_n -> F) x i : f i <= \big[Num.max/x]_i f i.
Proof.
  have : i \in index_enum (ordinal_finType n) by exact: mem_index_enum.
  elim: index_enum => [//|a l IH]. rewrite in_cons big_cons => /orP [/eqP ->|H]; first by rewrite le_maxr lexx.
  by rewrite le_maxr (IH H) orbT.
Qed.
(** The computed bounds are the tight box. *)
Lemma least_tight N (s : 'M[F]_(N.+1, 2)) : tight_box s (least s) (greatest s).
Proof.
  split; [|split].
  - move=> i j. apply/andP; split; [exact: (@bigmin_le _ (fun i => s i j))|exact: (@bigmax_ge _ (fun i => s i j))].
  - move=> j. rewrite /least. elim/big_ind: _ => [|x y [a <-] [b <-]|i _]; [by exists 0| |by exists i].
    by case: (leP (s a j) (s b j)) => _; [exists a|exists b].
  - move=> j. rewrite /greatest. elim/big_ind: _ => [|x y [a <-] [b <-]|i _]; [by exists 0| |by exists i].
    by case: (leP (s a j) (s b j)) => _; [exists b|exists a].
Qed.
Lemma tight_unique N (s : 'M[F]_(N, 2)) lo hi lo' hi' : tight_box s lo hi -> tight_box s lo' hi' -> (forall j, lo j = lo' j) /\ (forall j, hi j = hi' j).
Proof.
  move=> [B [L H]] [B' [L' H']]. split=> j; apply/eqP; rewrite eq_le.
  - have [a A] := L j; have [b E] := L' j. have /andP [X _] := B' a j. have /andP [Y _] := B b j. by rewrite -{2}A X -{1}E Y.
  - have [a A] := H j; have [b E] := H' j. have /andP [_ X] := B' a j. have /andP [_ Y] := B b j. by rewrite -{1}A X -{1}E Y.
Qed.
Lemma corners_ext lo hi lo' hi' : (forall j, lo j = lo' j) -> (forall j, hi j = hi' j) -> corners lo hi = corners lo' hi'.
Proof. move=> L H. by apply/matrixP => i j; rewrite !mxE !L !H. Qed.
Lemma box_of N (s : 'M[F]_(N.+1, 2)) lo hi : tight_box s lo hi -> bounding_box s = corners lo hi.
Proof. move=> T. have [L H] := tight_unique (least_tight s) T. exact: corners_ext. Qed.

(** The alignment of two boxes. *)
Lemma sum4 (f : 'I_4 -> F) : \sum_i f i = f 0 + f 1 + f 2%:R + f 3%:R.
Proof.
  rewrite !big_ord_recl big_ord0 addr0 !addrA. by congr (f _ + f _ + f _ + f _); apply/val_inj.
Qed.
Lemma cornersE lo hi : let B := corners lo hi in
  (B 0 0 = lo 0) * (B 0 1 = lo 1) * (B 1 0 = hi 0) * (B 1 1 = lo 1) * (B 2%:R 0 = hi 0) * (B 2%:R 1 = hi 1) * (B 3%:R 0 = lo 0) * (B 3%:R 1 = hi 1).
Proof. by rewrite /= !mxE. Qed.
Lemma four : (4%:R : F) != 0. Proof. by rewrite pnatr_eq0. Qed.
Lemma centre_box lo hi j : centre (corners lo hi) j = middle lo hi j.
Proof.
  rewrite /centre sum4 /middle. have E : (4%:R : F) = 2%:R * 2%:R by rewrite -natrM.
  have T : (2%:R : F) != 0 by rewrite pnatr_eq0.
  apply: (mulIf four). rewrite divfK ?four // {1}E mulrA divfK //.
  case: (ord2 j) => ->; rewrite !cornersE !mulrS mulr0n; mring F.
Qed.
Definition half_side lo hi j : F := (hi j - lo j) / 2%:R.
Lemma half2 lo hi j : hi j - lo j = 2%:R * half_side lo hi j.
Proof. by rewrite mulrC divfK // pnatr_eq0. Qed.
Lemma lo_middle lo hi j : lo j - middle lo hi j = - half_side lo hi j.
Proof.
  apply: (mulIf (_ : (2%:R : F) != 0)); first by rewrite pnatr_eq0.
  rewrite mulrBl mulNr !divfK ?pnatr_eq0 // !mulrS mulr0n. mring F.
Qed.
Lemma hi_middle lo hi j : hi j - middle lo hi j = half_side lo hi j.
Proof.
  apply: (mulIf (_ : (2%:R : F) != 0)); first by rewrite pnatr_eq0.
  rewrite mulrBl !divfK ?pnatr_eq0 // !mulrS mulr0n. mring F.
Qed.
Lemma centred_corners lo hi : centred (corners lo hi) = corners (fun j => - half_side lo hi j) (half_side lo hi).
Proof.
  apply/matrixP => i j. rewrite mxE centre_box. rewrite !mxE. case: (ord2 j) => -> /=; case: ifP => _; rewrite ?lo_middle ?hi_middle //.
Qed.
Lemma dot4 (A B : 'M[F]_(4, 2)) : dot A B = (A 0 0 * B 0 0 + A 0 1 * B 0 1) + (A 1 0 * B 1 0 + A 1 1 * B 1 1) + (A 2%:R 0 * B 2%:R 0 + A 2%:R 1 * B 2%:R 1) + (A 3%:R 0 * B 3%:R 0 + A 3%:R 1 * B 3%:R 1).
Proof. rewrite /dot sum4 !big_ord_recl !big_ord0 !addr0. by have -> : lift ord0 ord0 = 1 :> 'I_2 by apply/val_inj. Qed.
Lemma dot_boxes lo hi lo' hi' : dot (centred (corners lo hi)) (centred (corners lo' hi')) = (hi 0 - lo 0) * (hi' 0 - lo' 0) + (hi 1 - lo 1) * (hi' 1 - lo' 1).
Proof. rewrite !centred_corners dot4 !cornersE !half2 !mulrS mulr0n. mring F. Qed.
Lemma turn_boxes lo hi lo' hi' : dot (rotated_ccw (centred (corners lo hi))) (centred (corners lo' hi')) = 0.
Proof.
  rewrite !centred_corners dot4. set B := corners _ (half_side lo hi).
  have R0 i : rotated_ccw B i 0 = - B i 1 by have [] := rotE B i.
  have R1 i : rotated_ccw B i 1 = B i 0 by have [] := rotE B i.
  rewrite !R0 !R1 /B !cornersE. mring F.
Qed.
Lemma norm_box lo hi : norm (corners lo hi) = Num.sqrt (diagonal2 lo hi).
Proof. by rewrite /norm dot_boxes -!expr2. Qed.

(** The scale factor between two boxes. *)
Definition box_ratio lo hi lo' hi' : F := Num.sqrt (diagonal2 lo' hi') / Num.sqrt (diagonal2 lo hi).
Lemma diagonal_gt0 lo hi : proper_box lo hi -> 0 < diagonal2 lo hi.
Proof. move=> P. apply: addr_gt0; rewrite exprn_gt0 // subr_gt0; exact: P. Qed.
Lemma procrustes_boxes lo hi lo' hi' : proper_box lo hi -> proper_box lo' hi' ->
  procrustes (corners lo hi) (corners lo' hi') =
  Sim (box_ratio lo hi lo' hi' - 1) 0 (middle lo' hi' 0 - box_ratio lo hi lo' hi' * middle lo hi 0) (middle lo' hi' 1 - box_ratio lo hi lo' hi' * middle lo hi 1).
Proof.
  move=> P P'. rewrite /procrustes turn_boxes dot_boxes !norm_box !centre_box. set h := _ + _ * _.
  have H : 0 < h by apply: addr_gt0; rewrite mulr_gt0 // subr_gt0; first [exact: P|exact: P'].
  rewrite expr0n addr0 sqrtr_sqr (gtr0_norm H) (gt_eqF H) divff ?(gt_eqF H) // mul0r mulr0 mulr1 mul0r subr0 mul0r add0r. by [].
Qed.
Lemma align_upright N (s : 'M[F]_(N.+1, 2)) lo hi lo' hi' : tight_box s lo hi -> proper_box lo hi -> proper_box lo' hi' ->
  align_shape_with_bounding_box s (corners lo' hi') = upright (box_ratio lo hi lo' hi') (fun j => middle lo' hi' j - box_ratio lo hi lo' hi' * middle lo hi j) s.
Proof.
  move=> T P P'. rewrite /align_shape_with_bounding_box (box_of T) (procrustes_boxes P P'). set k := box_ratio _ _ _ _.
  rewrite movedP /=. apply/matrixP => i j. rewrite !mxE. case: (ord2 j) => -> /=; mring F.
Qed.
Lemma ratio_ge0 lo hi lo' hi' : 0 <= box_ratio lo hi lo' hi'.
Proof. by rewrite divr_ge0 // sqrtr_ge0. Qed.
Lemma ratio_gt0 lo hi lo' hi' : proper_box lo hi -> proper_box lo' hi' -> 0 < box_ratio lo hi lo' hi'.
Proof. by move=> P P'; rewrite divr_gt0 // sqrtr_gt0 diagonal_gt0. Qed.
Lemma ratio_sqr lo hi lo' hi' : proper_box lo hi -> proper_box lo' hi' -> box_ratio lo hi lo' hi' ^+ 2 * diagonal2 lo hi = diagonal2 lo' hi'.
Proof.
  move=> P P'. have D := diagonal_gt0 P. have D' := diagonal_gt0 P'.
  rewrite expr_div_n !sqr_sqrtr ?(ltW D) ?(ltW D') // divfK // (gt_eqF D) //.
Qed.
(** The box of the aligned shape. *)
Lemma tight_upright N (s : 'M[F]_(N, 2)) lo hi k t : 0 <= k -> tight_box s lo hi -> tight_box (upright k t s) (fun j => k * lo j + t j) (fun j => k * hi j + t j).
Proof.
  move=> K [B [L H]]. split; [|split].
  - move=> i j. rewrite mxE !ler_add2r. have /andP [X Y] := B i j. by rewrite !ler_wpmul2l.
  - move=> j. have [i E] := L j. exists i. by rewrite mxE E.
  - move=> j. have [i E] := H j. exists i. by rewrite mxE E.
Qed.
(** Sizes. *)
Lemma centred_upright N (s : 'M[F]_(N.+1, 2)) k t : centred (upright k t s) = k *: centred s.
Proof.
  apply/matrixP => i j. rewrite !mxE /centre. have -> : \sum_i (upright k t s) i j = k * (\sum_i s i j) + N.+1%:R * t j.
    rewrite (eq_bigr (fun i => k * s i j + t j)); last by move=> a _; rewrite mxE.
    by rewrite big_split /= -mulr_sumr sumr_const card_ord mulr_natl.
  rewrite mulrDl [_%:R * t j]mulrC mulfK ?pnatr_eq0 //. rewrite -[k * _ / _]mulrA. set c := _ / _. by rewrite mulrBr opprD addrACA subrr addr0.
Qed.
Lemma dotZ N (s : 'M[F]_(N, 2)) k : dot (k *: s) (k *: s) = k ^+ 2 * dot s s.
Proof.
  rewrite /dot mulr_sumr. apply: eq_bigr => i _. rewrite mulr_sumr. apply: eq_bigr => j _. by rewrite !mxE mulrACA expr2.
Qed.
Lemma norm_upright N (s : 'M[F]_(N.+1, 2)) k t : 0 <= k -> norm (upright k t s) = k * norm s.
Proof. move=> K. by rewrite /norm centred_upright dotZ sqrtrM ?sqr_ge0 // sqrtr_sqr ger0_norm. Qed.
Lemma dot_ge0 N (s : 'M[F]_(N, 2)) : 0 <= dot s s.
Proof. by apply: sumr_ge0 => i _; apply: sumr_ge0 => j _; rewrite -expr2 sqr_ge0. Qed.
Lemma norm_gt0 N (s : 'M[F]_(N.+1, 2)) lo hi : tight_box s lo hi -> proper_box lo hi -> 0 < norm s.
Proof.
  move=> [_ [L H]] P. rewrite sqrtr_gt0 lt_neqAle dot_ge0 andbT. apply/negP => /eqP Z.
  have C i j : centred s i j = 0.
    move: Z. rewrite /dot. move/esym/eqP. rewrite psumr_eq0; last by move=> a _; apply: sumr_ge0 => b _; rewrite -expr2 sqr_ge0.
    move/allP => /(_ i (mem_index_enum _)) /=. rewrite psumr_eq0; last by move=> b _; rewrite -expr2 sqr_ge0.
    move/allP => /(_ j (mem_index_enum _)) /=. by rewrite -expr2 sqrf_eq0 => /eqP.
  have [a A] := L 0. have [b B] := H 0. have /(_ 0) := P. rewrite -A -B.
  have := C a 0. have := C b 0. rewrite !mxE => /subr0_eq -> /subr0_eq ->. by rewrite ltxx.
Qed.
Lemma upright_compose N (s : 'M[F]_(N, 2)) k t k' t' : upright k t (upright k' t' s) = upright (k * k') (fun j => k * t' j + t j) s.
Proof. apply/matrixP => i j. rewrite !mxE. mring F. Qed.
Lemma upright_ext N (s : 'M[F]_(N, 2)) k t t' : (forall j, t j = t' j) -> upright k t s = upright k t' s.
Proof. move=> E. by apply/matrixP => i j; rewrite !mxE E. Qed.
Lemma scaleE N (s : 'M[F]_(N, 2)) k : k *: s = upright k (fun _ => 0) s.
Proof. by apply/matrixP => i j; rewrite !mxE addr0. Qed.
Lemma upright_corners k t lo hi : upright k t (corners lo hi) = corners (fun j => k * lo j + t j) (fun j => k * hi j + t j).
Proof. apply/matrixP => i j. rewrite !mxE. case: (ord2 j) => -> /=; by case: ifP. Qed.
Lemma proper_upright k (t : 'I_2 -> F) lo hi : 0 < k -> proper_box lo hi -> proper_box (fun j => k * lo j + t j) (fun j => k * hi j + t j).
Proof. move=> K P j. by rewrite ltr_add2r ltr_pmul2l. Qed.
Lemma middle_upright k t lo hi j : middle (fun j => k * lo j + t j) (fun j => k * hi j + t j) j = k * middle lo hi j + t j.
Proof.
  rewrite /middle. apply: (mulIf (_ : (2%:R : F) != 0)); first by rewrite pnatr_eq0.
  rewrite [RHS]mulrDl -[k * _ * _]mulrA !divfK ?pnatr_eq0 // !mulrS mulr0n. mring F.
Qed.
Lemma diagonal_upright k (t : 'I_2 -> F) lo hi : diagonal2 (fun j => k * lo j + t j) (fun j => k * hi j + t j) = k ^+ 2 * diagonal2 lo hi.
Proof. rewrite /diagonal2. mring F. Qed.
Lemma ratio_upright k t lo hi lo' hi' : 0 <= k -> box_ratio lo hi (fun j => k * lo' j + t j) (fun j => k * hi' j + t j) = k * box_ratio lo hi lo' hi'.
Proof. move=> K. by rewrite /box_ratio diagonal_upright sqrtrM ?sqr_ge0 // sqrtr_sqr ger0_norm // mulrA. Qed.
(** The aligned shape follows the box. *)
Lemma align_follows N (s : 'M[F]_(N.+1, 2)) lo hi lo' hi' k t : tight_box s lo hi -> proper_box lo hi -> proper_box lo' hi' -> 0 < k ->
  align_shape_with_bounding_box s (upright k t (corners lo' hi')) = upright k t (align_shape_with_bounding_box s (corners lo' hi')).
Proof.
  move=> T P P' K. rewrite upright_corners (align_upright T P (proper_upright _ K P')) (align_upright T P P') upright_compose ratio_upright ?ltW //.
  apply: upright_ext => j. rewrite middle_upright. mring F.
Qed.
End Boxes.
