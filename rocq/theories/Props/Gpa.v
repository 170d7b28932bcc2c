(** C112: shape models are learnt from aligned shapes. *)
From Coq Require ZArith.
From Verif.Model Require Import Py ModelInstance SimilarityModel Gpa.
From Verif.Model Require Base.
From Verif.Spec Require Import ModelInstance Pose Gpa.
From Verif.Proofs Require Import ModelInstance MRing Projection Closest SimilarityModel ModelExample Gpa.
From Verif.Proofs Require Batches.
From mathcomp Require Import all_ssreflect all_algebra.
Set Implicit Arguments.
Unset Strict Implicit.
Unset Printing Implicit Defensive.
Import Order.TTheory GRing.Theory Num.Theory.
Local Open Scope ring_scope.

(** Two shapes are needed, and enough. *)
Theorem c112_defined : forall (F : rcfType) N (ss : seq 'M[F]_(N, 2)),
  (exists out, align_shapes ss = Ok out) <-> (2 <= size ss)%N.
Proof.
  move=> F N ss. rewrite /align_shapes. split=> [[out]|H].
  - rewrite /gpa size_map. case: ltnP => //.
  - rewrite gpaE ?size_map //. by eexists.
Qed.
Print Assumptions c112_defined.

(** Every aligned shape is its own shape, moved, turned and scaled; it is balanced around the origin; and all the aligned shapes
    (of shapes whose points do not all coincide) have the same extent. *)
Theorem c112_aligned : forall (F : rcfType) N (ss out : seq 'M[F]_(N, 2)), align_shapes ss = Ok out ->
  size out = size ss /\
  (forall i, (i < size ss)%N -> exists al be x y, nth 0 out i = moved al be x y (nth 0 ss i)) /\
  (forall s, s \in out -> balanced s) /\
  (forall i j, (i < size ss)%N -> (j < size ss)%N -> spread (nth 0 ss i) -> spread (nth 0 ss j) -> extent (nth 0 out i) = extent (nth 0 out j)).
Proof.
  move=> F N ss out. rewrite /align_shapes => H.
  have S2 : (1 < size [seq centred s | s <- ss])%N by move: H; rewrite /gpa; case: ltnP.
  move: H. rewrite gpaE //. set ss' := [seq centred s | s <- ss]. set t := gpa_target 100 ss' _ _. move=> [<-].
  have Sz : size ss' = size ss by rewrite size_map.
  have E i : (i < size ss)%N -> nth 0 [seq aligned t s | s <- ss'] i = aligned t (centred (nth 0 ss i)).
    move=> I. by rewrite (nth_map 0) ?Sz // (nth_map 0).
  have Z : (0 < N)%N -> forall j, centre t j = 0.
    move=> N0 j. apply: target_centre => //. apply: centre_mean => s /mapP [x _ ->]. exact: centre_centred.
  split; [by rewrite !size_map|split; [|split]].
  - move=> i I. rewrite E //. rewrite alignedE. set a := turn_a _ _. set b := turn_b _ _.
    case: (posnP N) => [N0|N0].
      exists a, b, 0, 0. apply/matrixP => k. by have := ltn_ord k; rewrite [X in (_ < X)%N]N0.
    have -> : centred (centred (nth 0 ss i)) = moved 1 0 (- centre (nth 0 ss i) 0) (- centre (nth 0 ss i) 1) (nth 0 ss i).
      apply/matrixP => k l. rewrite [LHS]mxE centre_centred // subr0 !mxE. case: (ord2 l) => -> /=; by rewrite mul1r mul0r ?subr0 ?add0r.
    rewrite moved_moved. by do 4 eexists.
  - move=> s /mapP [x _ ->] j. case: (posnP N) => [N0|N0].
      rewrite big1 // => k. by have := ltn_ord k; rewrite [X in (_ < X)%N]N0.
    have := aligned_centre x t j N0. rewrite Z // /centre => /eqP. rewrite mulf_eq0 invr_eq0 pnatr_eq0 (gtn_eqF N0) orbF. by move/eqP.
  - move=> i j I J Si Sj. rewrite !E //. have [N0 _] := spreadP Si.
    have X (s : 'M[F]_(N, 2)) : spread s -> extent (aligned t (centred s)) = 2%:R * N%:R * norm t ^+ 2.
      move=> S. rewrite -(@aligned_norm _ _ (centred s) t N0); last by apply: norm_neq0; exact: (spreadP (spread_centred S)).2.
      rewrite /norm sqr_sqrtr; last exact: dot_ge0. have [<- _] := centred_dots (aligned t (centred s)) (aligned t (centred s)) N0.
      by [].
    by rewrite !X.
Qed.
Print Assumptions c112_aligned.

(** The aligned shapes are the best copies of the shapes for a common target.  The first target is the average of the shapes
    centred on the origin, every other one the average of the best copies for the one before, brought back to the extent of
    the first; the search ends at the first target that the next one would move by less than 1e-6, or at the hundredth. *)
Theorem c112_target : forall (F : rcfType) N (ss out : seq 'M[F]_(N, 2)), (forall s, s \in ss -> spread s) -> align_shapes ss = Ok out ->
  exists (ts : nat -> 'M[F]_(N, 2)) (als : nat -> seq 'M[F]_(N, 2)) os n,
    (size os = size ss /\ ts 0%N = average [seq shifted p.1 p.2 | p <- zip os ss] /\
     forall p, p \in zip os ss -> balanced (shifted p.1 p.2)) /\
    (forall k, size (als k) = size ss /\ forall i, (i < size ss)%N -> best_copy (nth 0 ss i) (ts k) (nth 0 (als k) i)) /\
    (forall k, exists c, 0 <= c /\ ts k.+1 = c *: average (als k) /\ (spread (average (als k)) -> extent (ts k.+1) = extent (ts 0%N))) /\
    out = als n /\ (n <= 100)%N /\
    (forall k, (k < n)%N -> (10%:R ^+ 6)^-1 <= Num.sqrt (apart (ts k) (ts k.+1))) /\
    ((n < 100)%N -> Num.sqrt (apart (ts n) (ts n.+1)) < (10%:R ^+ 6)^-1).
Proof.
  move=> F N ss out Sp H. have S2 : (1 < size ss)%N by apply/c112_defined; exists out.
  have S3 : (1 < size [seq centred s | s <- ss])%N by rewrite size_map.
  have N0 : (0 < N)%N by case: ss S2 Sp {H S3} => [//|s ss] _ /(_ s (mem_head _ _)) /spreadP [].
  move: H. rewrite /align_shapes (gpaE S3). set sources := [seq centred s | s <- ss] in S3 *. set t0 := mean_shape sources.
  move: 100%N => m. have [n [n1 [E [H1 H2]]]] := targetP m sources (norm t0) t0. rewrite E. move=> [<-].
  pose ts k := iter k (next_target sources (norm t0)) t0. pose als k := [seq aligned (ts k) s | s <- sources].
  have Ct k j : centre (ts k) j = 0.
    elim: k => [|k IH]; first by apply: centre_mean => s /mapP [x _ ->]; exact: centre_centred.
    rewrite /ts iterS -/(ts k) /next_target centreZ centre_mean ?mulr0 // => s /mapP [x _ ->]. by rewrite aligned_centre.
  have Zip : [seq shifted p.1 p.2 | p <- zip [seq (- centre s 0, - centre s 1) | s <- ss] ss] = sources.
    rewrite /sources. elim: (ss) => [//|s l IH] /=. rewrite IH. congr (_ :: _). apply/matrixP => i j. rewrite !mxE. by case: (ord2 j) => -> /=.
  exists ts, als, [seq (- centre s 0, - centre s 1) | s <- ss], n. split; [|split; [|split; [|split; [|split; [|split]]]]].
  - split; first by rewrite size_map. split; first by rewrite Zip.
    move=> p P j. have : shifted p.1 p.2 \in sources by rewrite -Zip; apply: (map_f (fun p => shifted p.1 p.2)).
    move=> /mapP [x _ ->]. have := centre_centred x j N0. rewrite /centre => /eqP.
    rewrite mulf_eq0 invr_eq0 pnatr_eq0 (gtn_eqF N0) orbF. by move/eqP.
  - move=> k. split; first by rewrite !size_map. move=> i I. rewrite (nth_map 0) ?size_map // (nth_map 0) //.
    apply: aligned_best_copy => //. by apply: Sp; exact: mem_nth.
  - move=> k. exists (norm t0 / norm (average (als k))). split; first by rewrite divr_ge0 ?norm_ge0. split; first by [].
    move=> Sa. rewrite !extentE // /ts iterS -/(ts k) /next_target normZ // ger0_norm ?divr_ge0 ?norm_ge0 // divfK //.
    exact: norm_neq0 (spreadP Sa).2.
  - by [].
  - exact: n1.
  - move=> k K. rewrite apartE. exact: H1.
  - move=> K. rewrite apartE. exact: H2.
Qed.
Print Assumptions c112_target.

(** Where the shapes stand is not learnt: shapes shifted one by one are aligned to the same shapes. *)
Theorem c112_position : forall (F : rcfType) N (ps : seq ((F * F) * 'M[F]_(N, 2))),
  align_shapes [seq shifted p.1 p.2 | p <- ps] = align_shapes [seq p.2 | p <- ps].
Proof.
  move=> F N ps. rewrite /align_shapes -!map_comp. congr gpa. apply: eq_map => -[o s] /=.
  case: (posnP N) => [N0|N0]; first by apply/matrixP => k; have := ltn_ord k; rewrite [X in (_ < X)%N]N0.
  have -> : shifted o s = moved 1 0 o.1 o.2 s.
    apply/matrixP => i j. rewrite !mxE. case: (ord2 j) => -> /=; by rewrite mul1r mul0r ?subr0 ?add0r.
  rewrite moved_centred //. apply/matrixP => i j. rewrite [LHS]mxE. case: (ord2 j) => -> /=; by rewrite mul1r mul0r ?subr0 ?add0r addr0.
Qed.
Print Assumptions c112_position.

(** How the whole collection is turned does not matter either: the aligned shapes turn with it. *)
Theorem c112_turned : forall (F : rcfType) N (ss out : seq 'M[F]_(N, 2)) al be, al ^+ 2 + be ^+ 2 = 1 ->
  align_shapes ss = Ok out -> align_shapes [seq moved al be 0 0 s | s <- ss] = Ok [seq moved al be 0 0 s | s <- out].
Proof.
  move=> F N ss out al be U H. have S2 : (1 < size ss)%N by apply/c112_defined; exists out.
  have S3 : (1 < size [seq centred s | s <- ss])%N by rewrite size_map.
  have S4 : (1 < size [seq centred s | s <- [seq moved al be 0 0 s | s <- ss]])%N by rewrite !size_map.
  move: H. rewrite /align_shapes (gpaE S3) (gpaE S4). move: 100%N => m [<-]. congr Ok.
  case: (posnP N) => [N0|N0].
    have T (a b : 'M[F]_(N, 2)) : a = b by apply/matrixP => k; have := ltn_ord k; rewrite [X in (_ < X)%N]N0.
    rewrite -!map_comp. apply: eq_map => s. exact: T.
  have -> : [seq centred s | s <- [seq moved al be 0 0 s | s <- ss]] = [seq moved al be 0 0 s | s <- [seq centred s | s <- ss]].
    rewrite -!map_comp. apply: eq_map => s /=. exact: moved_centred.
  rewrite mean_moved target_turned //.
  have -> : norm (moved al be 0 0 (mean_shape [seq centred s | s <- ss])) = norm (mean_shape [seq centred s | s <- ss]).
    by rewrite norm_moved // /len U sqrtr1 mul1r.
  move: (gpa_target _ _ _ _) => t. rewrite -!map_comp. apply: eq_map => s /=. exact: aligned_turned.
Qed.
Print Assumptions c112_turned.

(** The order of the shapes does not matter: the same transform is found for each. *)
Theorem c112_order : forall (F : rcfType) N (ss ss' : seq 'M[F]_(N, 2)), perm_eq ss ss' -> (2 <= size ss)%N ->
  exists f, align_shapes ss = Ok [seq f s | s <- ss] /\ align_shapes ss' = Ok [seq f s | s <- ss'].
Proof.
  move=> F N ss ss' P S2. have S2' : (1 < size ss')%N by rewrite -(perm_size P).
  have S3 : (1 < size [seq centred s | s <- ss])%N by rewrite size_map.
  have S4 : (1 < size [seq centred s | s <- ss'])%N by rewrite size_map.
  rewrite /align_shapes (gpaE S3) (gpaE S4). move: 100%N => m.
  have Pc : perm_eq [seq centred s | s <- ss] [seq centred s | s <- ss'] by exact: perm_map.
  exists (fun s => aligned (gpa_target m [seq centred s | s <- ss] (norm (mean_shape [seq centred s | s <- ss])) (mean_shape [seq centred s | s <- ss])) (centred s)).
  rewrite (mean_perm Pc) (target_perm _ _ _ Pc). by rewrite -!map_comp.
Qed.
Print Assumptions c112_order.

(** Copies of one shape, each moved, turned and scaled in its own way, teach no deformation: they are aligned to one and the same
    shape, a copy too.  The turns may not cancel each other out. *)
Theorem c112_copies : forall (F : rcfType) N (s : 'M[F]_(N, 2)) (cs : seq (F * F * (F * F))),
  spread s -> (2 <= size cs)%N -> (forall c, c \in cs -> nonzero c.1.1 c.1.2) ->
  nonzero (\sum_(c <- cs) c.1.1) (\sum_(c <- cs) c.1.2) ->
  exists al be x y, nonzero al be /\
    align_shapes [seq moved c.1.1 c.1.2 c.2.1 c.2.2 s | c <- cs] = Ok (nseq (size cs) (moved al be x y s)).
Proof.
  move=> F N s cs S C P Z. rewrite align_copies //. set r := _^-1.
  have R : 0 < r by rewrite invr_gt0 ltr0n ltnW. have [N0 _] := spreadP S.
  have -> : centred s = moved 1 0 (- centre s 0) (- centre s 1) s.
    apply/matrixP => k l. rewrite !mxE. case: (ord2 l) => -> /=; by rewrite mul1r mul0r ?subr0 ?add0r.
  rewrite moved_moved !mulr0 !mulr1 subr0 add0r. do 4 eexists. split; last by [].
  by rewrite /nonzero !mulf_eq0 (gt_eqF R).
Qed.
Print Assumptions c112_copies.

(** Increments with forgetting_factor 1 are documented to give "the exact same" as one batch with all the shapes.  They do not:
    every batch is aligned by itself, and where the batches end up turned differently, the model learns the turn as a deformation.
    Copies of any shape, those of the second batch turned by any angle short of a half turn, are aligned to one shape in one
    batch, but to two in two. *)
Theorem c112_batches_refuted : forall (F : rcfType) N (s : 'M[F]_(N, 2)) al be n n', spread s -> al ^+ 2 + be ^+ 2 = 1 ->
  al != 1 -> 0 <= al -> (2 <= n)%N -> (2 <= n')%N ->
  let old := nseq n s in let new := nseq n' (moved al be 0 0 s) in
  (exists t, align_shapes (old ++ new) = Ok (nseq (n + n') t)) /\
  (exists t t', t != t' /\ align_shapes old = Ok (nseq n t) /\ align_shapes new = Ok (nseq n' t')).
Proof.
  move=> F N s al be n n' S U A P n2 n'2 old new. have [N0 _] := spreadP S.
  have M1 (t : 'M[F]_(N, 2)) : moved 1 0 0 0 t = t.
    apply/matrixP => k l. rewrite !mxE. case: (ord2 l) => -> /=; by rewrite mul1r mul0r ?subr0 ?add0r addr0.
  have Nab : nonzero al be.
    rewrite /nonzero; case: (al =P 0) => [a0|//]; case: (be =P 0) => [b0|//]. move/eqP: U. by rewrite a0 b0 expr0n addr0 eq_sym oner_eq0.
  have N1 : nonzero (1 : F) 0 by rewrite /nonzero oner_neq0.
  have SN k (x : F) : \sum_(c <- nseq k x) c = k%:R * x.
    elim: k => [|k IH]; first by rewrite big_nil mul0r. by rewrite big_cons IH -[k.+1%:R]/((1 + k)%:R) natrD mulrDl mul1r.
  have SM k (c : F * F * (F * F)) (f : F * F * (F * F) -> F) : \sum_(x <- nseq k c) f x = k%:R * f c.
    rewrite -(big_map f xpredT id) map_nseq. exact: SN.
  have One k a b : (2 <= k)%N -> a ^+ 2 + b ^+ 2 = 1 -> nonzero a b -> align_shapes (nseq k (moved a b 0 0 s)) = Ok (nseq k (moved a b 0 0 (centred s))).
    move=> k2 ab nab. have k0 : (0 < k)%N by exact: ltnW.
    have R : k%:R != 0 :> F by rewrite pnatr_eq0 -lt0n.
    have := @align_copies F N s (nseq k ((a, b), (0, 0))) S. rewrite size_nseq map_nseq !SM /= !mulrA !mulVf // !mul1r. apply=> //.
    - by move=> c /nseqP [-> _].
    - by rewrite /nonzero !mulf_eq0 !(negbTE R).
  split.
  - have := @align_copies F N s (nseq n ((1, 0), (0, 0)) ++ nseq n' ((al, be), (0, 0))) S.
    rewrite map_cat !map_nseq /= M1 size_cat !size_nseq !big_cat /= !SM /= => H. eexists. apply: H.
    + by rewrite (leq_trans n2) ?leq_addr.
    + by move=> c; rewrite mem_cat => /orP [] /nseqP [-> _].
    + rewrite /nonzero mulr1. apply/orP. left. rewrite gt_eqF // ltr_paddr ?mulr_ge0 ?ler0n // ltr0n. exact: ltnW.
  - exists (centred s), (moved al be 0 0 (centred s)). split; first by rewrite eq_sym turned_differs.
    split; last exact: One. rewrite /old -[in LHS](M1 s) One ?M1 // expr1n expr0n addr0. by [].
Qed.
Print Assumptions c112_batches_refuted.

(** A batch with one shape cannot be learnt from: whenever the number of shapes leaves one over, the last batch raises. *)
Theorem c112_single_refuted : forall (F : rcfType) N (ss : seq 'M[F]_(N, 2)) n k bs, (1 <= n)%N -> size ss = (k * n + 1)%N ->
  Base.batch ss (BinInt.Z.of_nat n) = Ok bs -> exists bs' s, bs = bs' ++ [:: [:: s]] /\ align_shapes [:: s] = Err (UserExn 0).
Proof.
  move=> F N ss n k bs n1 Sz B. have [bs' [s E]] := @Batches.batch_last _ ss n k bs (elimT ssrnat.leP n1) Sz B. by exists bs', s.
Qed.
Print Assumptions c112_single_refuted.

(** Two copies of a square, one turned by a quarter and doubled, the other moved; the same two in two batches; five in twos. *)
Section Concrete.
Variable F : rcfType.
Lemma spread4 : spread (mean4 F).
Proof. exists (inord 0), (inord 1), 0. rewrite !mean4E //=. exact: oner_neq0. Qed.
Example c112_copies_ex : exists al be x y, nonzero al be /\
  align_shapes [:: moved 0 2%:R 1 0 (mean4 F); moved 1 0 0 3%:R (mean4 F)] = Ok (nseq 2 (moved al be x y (mean4 F))).
Proof.
  have := @c112_copies F 4 (mean4 F) [:: ((0, 2%:R), (1, 0)); ((1, 0), (0, 3%:R))] spread4 isT. apply.
  - move=> c. rewrite !inE => /orP [] /eqP -> /=; by rewrite /nonzero ?oner_neq0 ?pnatr_eq0 ?orbT.
  - by rewrite !big_cons !big_nil /= /nonzero !addr0 add0r oner_neq0.
Qed.
Example c112_batches_ex : exists t t', t != t' /\
  align_shapes (nseq 2 (mean4 F)) = Ok (nseq 2 t) /\ align_shapes (nseq 3 (moved 0 1 0 0 (mean4 F))) = Ok (nseq 3 t').
Proof.
  have U : 0 ^+ 2 + 1 ^+ 2 = 1 :> F by rewrite expr1n expr0n add0r.
  have A : 0 != 1 :> F by rewrite eq_sym oner_neq0.
  exact: (@c112_batches_refuted F 4 (mean4 F) 0 1 2 3 spread4 U A (lexx _) isT isT).2.
Qed.
Example c112_turned_ex : exists out : seq 'M[F]_(4, 2),
  align_shapes [:: mean4 F; mean4 F + mean4 F; shifted (1, 2%:R) (mean4 F)] = Ok out /\
  align_shapes [seq moved 0 1 0 0 s | s <- [:: mean4 F; mean4 F + mean4 F; shifted (1, 2%:R) (mean4 F)]] = Ok [seq moved 0 1 0 0 s | s <- out].
Proof.
  have [out H] := (@c112_defined F 4 [:: mean4 F; mean4 F + mean4 F; shifted (1, 2%:R) (mean4 F)]).2 isT.
  exists out. split=> //. apply: c112_turned => //. by rewrite expr1n expr0n add0r.
Qed.
Example c112_target_ex : exists out, (forall s, s \in [:: mean4 F; shifted (1, 2%:R) (mean4 F)] -> spread s) /\
  align_shapes [:: mean4 F; shifted (1, 2%:R) (mean4 F)] = Ok out.
Proof.
  have [out H] := (@c112_defined F 4 [:: mean4 F; shifted (1, 2%:R) (mean4 F)]).2 isT. exists out. split=> // s.
  rewrite !inE => /orP [] /eqP ->; first exact: spread4. have [i [j [k K]]] := spread4. exists i, j, k. rewrite ![shifted _ _ _ _]mxE.
  apply: contra K => /eqP /addIr /eqP. by [].
Qed.
Example c112_single_ex (s : 'M[F]_(4, 2)) : exists bs' s', [:: [:: s; s]; [:: s; s]; [:: s]] = bs' ++ [:: [:: s']] /\ align_shapes [:: s'] = Err (UserExn 0).
Proof. exact: (@c112_single_refuted F 4 [:: s; s; s; s; s] 2 2 _ isT erefl erefl). Qed.
End Concrete.
