(** C101 and C102: where fits from bounding boxes start. *)
From Verif.Model Require Import Py ModelInstance SimilarityModel InitialShape.
From Verif.Spec Require Import InitialShape.
From Verif.Proofs Require Import ModelInstance MRing Projection SimilarityModel InitialShape.
From mathcomp Require Import all_ssreflect all_algebra.
Set Implicit Arguments.
Unset Strict Implicit.
Unset Printing Implicit Defensive.
Import Order.TTheory GRing.Theory Num.Theory.
Local Open Scope ring_scope.

Section Start.
Variable F : rcfType.
Add Ring Fr : (@r_ring F).
Variable N : nat.
Notation shape := 'M[F]_(N.+1, 2).
Implicit Types lo hi : 'I_2 -> F.

(** The shape that is placed in a box is moved and scaled by one positive factor, never turned or mirrored. *)
Theorem c101_upright : forall (reference : shape) lo hi lo' hi', tight_box reference lo hi -> proper_box lo hi -> proper_box lo' hi' ->
  exists k t, 0 < k /\ align_shape_with_bounding_box reference (corners lo' hi') = upright k t reference.
Proof.
  move=> s lo hi lo' hi' T P P'. exists (box_ratio lo hi lo' hi'), (fun j => middle lo' hi' j - box_ratio lo hi lo' hi' * middle lo hi j).
  split; [exact: ratio_gt0|exact: align_upright].
Qed.

Lemma align_box (s : shape) lo hi lo' hi' : tight_box s lo hi -> proper_box lo hi -> proper_box lo' hi' ->
  let k := box_ratio lo hi lo' hi' in
  tight_box (align_shape_with_bounding_box s (corners lo' hi')) (fun j => middle lo' hi' j - k * half_side lo hi j) (fun j => middle lo' hi' j + k * half_side lo hi j).
Proof.
  move=> T P P' k. rewrite (align_upright T P P'). have K : 0 <= k := ratio_ge0 _ _ _ _.
  have := tight_upright (fun j => middle lo' hi' j - k * middle lo hi j) K T. rewrite /tight_box => [[B [L H]]].
  have E1 j : k * lo j + (middle lo' hi' j - k * middle lo hi j) = middle lo' hi' j - k * half_side lo hi j.
    have -> : lo j = middle lo hi j - half_side lo hi j by rewrite -lo_middle addrC subrK. mring F.
  have E2 j : k * hi j + (middle lo' hi' j - k * middle lo hi j) = middle lo' hi' j + k * half_side lo hi j.
    have -> : hi j = middle lo hi j + half_side lo hi j by rewrite -hi_middle addrC subrK. mring F.
  split; [|split].
  - move=> i j. rewrite -E1 -E2. exact: B.
  - move=> j. rewrite -E1. exact: L.
  - move=> j. rewrite -E2. exact: H.
Qed.
(** The box around the placed shape has the middle and the diagonal of the given box, and the aspect of the reference shape;
    it is the given box exactly when that has the aspect of the reference shape. *)
Theorem c101_box : forall (reference : shape) lo hi lo' hi' lo'' hi'', tight_box reference lo hi -> proper_box lo hi -> proper_box lo' hi' ->
  tight_box (align_shape_with_bounding_box reference (corners lo' hi')) lo'' hi'' ->
  (forall j, middle lo'' hi'' j = middle lo' hi' j) /\ diagonal2 lo'' hi'' = diagonal2 lo' hi' /\ same_aspect lo hi lo'' hi'' /\
  ((forall j, lo'' j = lo' j /\ hi'' j = hi' j) <-> same_aspect lo hi lo' hi').
Proof.
  move=> s lo hi lo' hi' lo'' hi'' T P P' T''. have [EL EH] := tight_unique T'' (align_box T P P'). set k := box_ratio lo hi lo' hi' in EL EH.
  have D j : hi'' j - lo'' j = k * (hi j - lo j) by rewrite EL EH half2 !mulrS mulr0n; mring F.
  have A : same_aspect lo hi lo'' hi'' by rewrite /same_aspect !D; mring F.
  have M j : middle lo'' hi'' j = middle lo' hi' j.
    rewrite /middle EL EH -/(middle lo' hi' j). apply: (mulIf (_ : (2%:R : F) != 0)); first by rewrite pnatr_eq0.
    rewrite divfK ?pnatr_eq0 // !mulrS mulr0n. mring F.
  have D2 : diagonal2 lo'' hi'' = diagonal2 lo' hi' by rewrite -(ratio_sqr P P') -/k /diagonal2 !D; mring F.
  split=> //. split=> //. split=> //. split=> [E|S].
    move: A. rewrite /same_aspect. by have [-> ->] := E 0; have [-> ->] := E 1.
  have W0 : 0 < hi 0 - lo 0 by rewrite subr_gt0; exact: P.
  (* the sides of the given box are a multiple of those of the reference *)
  pose c := (hi' 0 - lo' 0) / (hi 0 - lo 0). have C : 0 < c by rewrite divr_gt0 // subr_gt0; exact: P'.
  have C0 : hi' 0 - lo' 0 = c * (hi 0 - lo 0) by rewrite divfK // (gt_eqF W0).
  have C1 : hi' 1 - lo' 1 = c * (hi 1 - lo 1).
    apply: (mulfI (_ : hi 0 - lo 0 != 0)); first by rewrite (gt_eqF W0). rewrite S C0. mring F.
  have KC : k = c.
    apply/eqP. rewrite -(eqr_expn2 (n := 2)) ?(ltW C) ?ratio_ge0 //. have G := diagonal_gt0 P. rewrite -(inj_eq (mulIf (_ : diagonal2 lo hi != 0))) ?(gt_eqF G) //.
    rewrite (ratio_sqr P P') /diagonal2 C0 C1. apply/eqP. mring F.
  have HH j : half_side lo' hi' j = k * half_side lo hi j.
    rewrite KC /half_side mulrA; congr (_ / _). by case: (ord2 j) => ->.
  move=> j. rewrite EL EH -HH -{1}lo_middle -hi_middle. split; mring F.
Qed.

(** Moving the box or changing its size moves and scales the placed shape in the same way. *)
Theorem c101_follows : forall (reference : shape) lo hi lo' hi' k t, tight_box reference lo hi -> proper_box lo hi -> proper_box lo' hi' -> 0 < k ->
  align_shape_with_bounding_box reference (upright k t (corners lo' hi')) = upright k t (align_shape_with_bounding_box reference (corners lo' hi')).
Proof. move=> s lo hi lo' hi' k t T P P' K. exact: (align_follows t T P P' K). Qed.

(** At the lowest scale a fit from a box starts with the reference shape in the size of that scale, whatever the box: the box
    only says where. *)
Theorem c101_first_scale : forall (reference : shape) lo hi lo' hi' scale, tight_box reference lo hi -> proper_box lo hi -> proper_box lo' hi' -> 0 < scale ->
  exists t, (fit_from_bb_start reference scale (corners lo' hi')).2 = upright scale t reference.
Proof.
  move=> s lo hi lo' hi' c T P P' C. rewrite /fit_from_bb_start /factor (align_upright T P P') /=. set k := box_ratio _ _ _ _. have K : 0 < k by exact: ratio_gt0.
  have G := norm_gt0 T P. rewrite norm_upright ?ltW // scaleE upright_compose.
  have -> : c * (norm s / (k * norm s)) * k = c.
    by rewrite invfM [norm s * _]mulrCA mulfV ?(gt_eqF G) // mulr1 -mulrA mulVf ?(gt_eqF K) // mulr1.
  by eexists.
Qed.

(** *** C102.  What training does with the same box. *)
Lemma training_start (reference gt : shape) lo hi lo' hi' scale : tight_box reference lo hi -> proper_box lo hi -> proper_box lo' hi' -> 0 < scale -> 0 < norm gt ->
  let k := scale * factor reference gt in 0 < k /\
  sdm_training_start reference scale gt (corners lo' hi') = (k, k *: align_shape_with_bounding_box reference (corners lo' hi')).
Proof.
  move=> T P P' C G k. have K : 0 < k by rewrite mulr_gt0 // divr_gt0 // (norm_gt0 T P).
  split=> //. by rewrite /sdm_training_start -/k !scaleE (align_follows _ T P P' K).
Qed.
(** A fit from a box starts at the lowest scale as training on the same image with the same box did if and only if the shape
    placed in the box is as large as the ground truth shape. *)
Theorem c102_starts_alike_iff : forall (reference gt : shape) lo hi lo' hi' scale,
  tight_box reference lo hi -> proper_box lo hi -> proper_box lo' hi' -> 0 < scale -> 0 < norm gt ->
  fit_from_bb_start reference scale (corners lo' hi') = sdm_training_start reference scale gt (corners lo' hi') <->
  norm (align_shape_with_bounding_box reference (corners lo' hi')) = norm gt.
Proof.
  move=> s gt lo hi lo' hi' c T P P' C G. have [K ->] := training_start T P P' C G. rewrite /fit_from_bb_start.
  split=> [[E _]|E]; last by rewrite /factor E.
  have S0 : c * norm s != 0 by rewrite mulf_neq0 // gt_eqF // (norm_gt0 T P).
  move: E. rewrite /factor !mulrA => /(mulfI S0) /invr_inj. by [].
Qed.
(** In particular when the ground truth is an upright copy of the reference shape and the box is as large as its own box. *)
Theorem c102_upright_partial : forall (reference : shape) lo hi scale k t t', tight_box reference lo hi -> proper_box lo hi -> 0 < scale -> 0 < k ->
  let box := upright k t' (corners lo hi) in
  fit_from_bb_start reference scale box = sdm_training_start reference scale (upright k t reference) box.
Proof.
  move=> s lo hi c k t t' T P C K box. rewrite /box upright_corners.
  have G : 0 < norm (upright k t s) by rewrite norm_upright ?ltW // mulr_gt0 // (norm_gt0 T P).
  apply: (proj2 (c102_starts_alike_iff T P (proper_upright t' K P) C G)).
  rewrite -upright_corners (align_follows t' T P P K) !norm_upright ?ltW //. congr (_ * _). rewrite (align_upright T P P).
  have -> : box_ratio lo hi lo hi = 1 by rewrite /box_ratio divff // sqrtr_eq0 -ltNge diagonal_gt0.
  by rewrite norm_upright ?ler01 // mul1r.
Qed.
End Start.

Section Examples.
Variable F : rcfType.
Add Ring Fr2 : (@r_ring F).
(** A square as the reference shape, and a ground truth with the same box: two of its points in the middle. *)
Definition square : 'M[F]_(4, 2) := corners (fun _ => 0) (fun _ => 2%:R).
Definition diagonal_face : 'M[F]_(4, 2) := \matrix_(i, j) (if i == 0 then 0 else if i == 1 then 2%:R else 1).
Lemma square_tight : tight_box square (fun _ => 0) (fun _ => 2%:R).
Proof.
  split; [|split].
  - move=> i j. rewrite mxE. case: ifP => _; case: ifP => _; by rewrite ?lexx ?ler0n.
  - move=> j. exists 0. rewrite mxE. by case: ifP.
  - move=> j. exists 2%:R. rewrite mxE. by case: ifP.
Qed.
Lemma face_tight : tight_box diagonal_face (fun _ => 0) (fun _ => 2%:R).
Proof.
  split; [|split].
  - move=> i j. rewrite mxE. case: ifP => _; [by rewrite lexx ler0n|]. case: ifP => _; [by rewrite lexx ler0n|]. by rewrite ler01 ler1n.
  - move=> j. exists 0. by rewrite mxE.
  - move=> j. exists 1. by rewrite mxE.
Qed.
Lemma proper2 : proper_box (fun _ => 0) (fun _ => 2%:R : F). Proof. by move=> j; rewrite ltr0n. Qed.
(** Even when the box is that of the ground truth shape itself, a fit starts with an image of another size than training did. *)
Theorem c102_own_box_refuted : exists (reference gt : 'M[F]_(4, 2)) lo hi, tight_box reference lo hi /\ proper_box lo hi /\ tight_box gt lo hi /\
  forall scale, 0 < scale -> (fit_from_bb_start reference scale (bounding_box gt)).1 <> (sdm_training_start reference scale gt (bounding_box gt)).1.
Proof.
  exists square, diagonal_face, (fun _ => 0), (fun _ => 2%:R). split; [exact: square_tight|]. split; [exact: proper2|]. split; [exact: face_tight|].
  move=> c C. rewrite (box_of face_tight) /fit_from_bb_start /sdm_training_start /factor /=. rewrite (align_upright square_tight proper2 proper2).
  have -> : box_ratio (fun _ => 0) (fun _ => 2%:R) (fun _ => 0) (fun _ => 2%:R) = 1 :> F by rewrite /box_ratio divff // sqrtr_eq0 -ltNge; apply: diagonal_gt0; exact: proper2.
  rewrite norm_upright ?ler01 // mul1r. have G := norm_gt0 square_tight proper2. have G' := norm_gt0 face_tight proper2.
  move=> /(mulfI (lt0r_neq0 C)) /(mulfI (lt0r_neq0 G)) /invr_inj.
  rewrite /norm => /eqP. rewrite eqr_sqrt ?dot_ge0 //. rewrite dot_boxes !subr0 /=.
  have Cn j : centre diagonal_face j = 1.
    rewrite /centre sum4 !mxE /=. apply: (mulIf (four F)). rewrite divfK ?four // !mulrS mulr0n. mring F.
  have -> : dot (centred diagonal_face) (centred diagonal_face) = 4%:R.
    rewrite dot4 !mxE !Cn /= !mulrS mulr0n. mring F.
  rewrite -!natrM -natrD eqr_nat. by [].
Qed.
(** The hypotheses hold for it: the square is placed in a box twice as high as wide. *)
Example c101_example : exists k t, 0 < k /\ align_shape_with_bounding_box square (corners (fun _ => 0) (fun j => if j == 0 then 2%:R else 1)) = upright k t square.
Proof. apply: c101_upright square_tight proper2 _. move=> j. case: ifP => _; by rewrite ?ltr0n ?ltr01. Qed.
(** The corners must be listed as menpo does: a box listed from another corner turns the shape.  Here the first landmark of the
    square, at the corner (0, 0), is placed at (2, 0). *)
Definition turned : 'M[F]_(4, 2) := \matrix_(i, j) (if j == 0 then (if (i <= 1)%N then 2%:R else 0) else (if (1 <= i <= 2)%N then 2%:R else 0)).
Theorem c101_corner_order : exists box : 'M[F]_(4, 2), (forall i, exists i', row i box = row i' square) /\ (forall i, exists i', row i square = row i' box) /\
  align_shape_with_bounding_box square box = box /\ row 0 box <> row 0 square.
Proof.
  exists turned. split; [|split; [|split]].
  - move=> i. exists (i + 1). apply/rowP => j. rewrite !mxE. case: i => [[|[|[|[|//]]]]] Hi; by case: ifP.
  - move=> i. exists (i - 1). apply/rowP => j. rewrite !mxE. case: i => [[|[|[|[|//]]]]] Hi; by case: ifP.
  - have SQ : square = corners (fun _ => 0) (fun _ => 2%:R) by []. 
    have C1 (j : 'I_2) : middle (fun _ => 0) (fun _ => 2%:R : F) j = 1 by rewrite /middle add0r divff // pnatr_eq0.
    have CT j : centre turned j = 1.
      rewrite /centre sum4 !mxE /=. apply: (mulIf (four F)). rewrite divfK ?four // !mulrS mulr0n. by case: ifP => _; mring F.
    have E : procrustes square turned = Sim (- 1) 1 2%:R 0.
      have TE i j : centred turned i j = turned i j - 1 by rewrite mxE CT.
      have SE i j : centred square i j = square i j - 1 by rewrite mxE SQ centre_box C1.
      have R0 i : rotated_ccw (centred square) i 0 = - centred square i 1 by rewrite !mxE.
      have R1 i : rotated_ccw (centred square) i 1 = centred square i 0 by rewrite !mxE.
      rewrite /procrustes.
      have -> : dot (centred square) (centred turned) = 0.
        rewrite dot4 !SE !TE SQ !cornersE !mxE /= !mulrS mulr0n. mring F.
      have -> : dot (rotated_ccw (centred square)) (centred turned) = 8%:R.
        rewrite dot4 !R0 !R1 !SE !TE SQ !cornersE !mxE /= !mulrS mulr0n. mring F.
      have -> : norm turned = norm square.
        congr Num.sqrt. rewrite !dot4 !SE !TE SQ !cornersE !mxE /= !mulrS mulr0n. mring F.
      rewrite expr0n add0r sqrtr_sqr ger0_norm ?ler0n //. rewrite pnatr_eq0 /= mul0r mulr0.
      have G := norm_gt0 square_tight proper2. rewrite divff ?(gt_eqF G) // divff ?pnatr_eq0 // mulr1 sub0r.
      rewrite !CT SQ !centre_box !C1. congr Sim; rewrite ?mulrS ?mulr0n; mring F.
    rewrite /align_shape_with_bounding_box (box_of square_tight) -/square E.
    apply/matrixP => i j. rewrite movedP /=. rewrite !mxE /=. case: i => [[|[|[|[|//]]]]] Hi; case: (ord2 j) => -> /=; rewrite ?mulrS ?mulr0n; mring F.
  - move=> /rowP /(_ 0). rewrite !mxE /= => /eqP. by rewrite pnatr_eq0.
Qed.
End Examples.
Print Assumptions c101_upright.
Print Assumptions c101_box.
Print Assumptions c101_follows.
Print Assumptions c101_first_scale.
Print Assumptions c101_corner_order.
Print Assumptions c102_starts_alike_iff.
Print Assumptions c102_upright_partial.
Print Assumptions c102_own_box_refuted.
