(** A model with an orthonormal similarity basis and an exact alignment (used by the examples of Props/ModelInstance.v). *)
From Verif.Model Require Import Py ModelInstance.
From Verif.Spec Require Import ModelInstance.
From Verif.Proofs Require Import ModelInstance MRing Projection.
From mathcomp Require Import all_ssreflect all_algebra.
Set Implicit Arguments.
Unset Strict Implicit.
Unset Printing Implicit Defensive.
Import Order.TTheory GRing.Theory Num.Theory.
Local Open Scope ring_scope.

Section P.
Variable F : realFieldType.
Variable N : nat.
Notation shape := 'M[F]_(N, 2).
Add Ring Fr : (@r_ring F).

Definition rot (m : shape) : shape := \matrix_(i, j) (if j == 0 then - m i 1 else m i 0).
Definition txs : shape := \matrix_(i, j) (j == 0)%:R.
Definition tys : shape := \matrix_(i, j) (j != 0)%:R.
Definition basis (m : shape) u v : seq shape := [:: u *: m; u *: rot m; v *: txs; v *: tys].

Lemma basis_span (m : shape) (u v : F) (w : seq F) : let x := \sum_(i < size (basis m u v)) nth 0 w i *: nth 0 (basis m u v) i in
  forall i, x i 0 = nth 0 w 0 * u * m i 0 - nth 0 w 1 * u * m i 1 + nth 0 w 2 * v /\
            x i 1 = nth 0 w 1 * u * m i 0 + nth 0 w 0 * u * m i 1 + nth 0 w 3 * v.
Proof.
  move=> x i. rewrite /x /basis /=. rewrite !big_ord_recl big_ord0 /= !mxE /=. rewrite /bump /= !add1n. split; mring F.
Qed.
Lemma basisP m u v : u != 0 -> v != 0 -> similarity_basis m (basis m u v).
Proof.
  move=> U V x. split.
  - move=> [w [_ ->]]. exists (Sim (nth 0 w 0 * u) (nth 0 w 1 * u) (nth 0 w 2 * v) (nth 0 w 3 * v)) => i /=.
    have [E0 E1] := basis_span m u v w i. rewrite [(m + _) i 0]mxE [(m + _) i 1]mxE E0 E1. split; first by rewrite mulrDl mul1r !addrA. by rewrite mulrDl mul1r addrCA !addrA.
  - move=> [g G]. exists [:: s_a g / u; s_b g / u; s_tx g / v; s_ty g / v]. split=> //.
    apply/matrixP => i j. have [E0 E1] := basis_span m u v [:: s_a g / u; s_b g / u; s_tx g / v; s_ty g / v] i.
    have [H0 H1] := G i. rewrite !mxE in H0 H1. rewrite /= !mulfVK // in E0 E1.
    have [->|->] := ord2 j; rewrite ?E0 ?E1.
    + apply: (addrI (m i 0)). rewrite H0. mring F.
    + apply: (addrI (m i 1)). rewrite H1. mring F.
Qed.

(** The least squares similarity. *)
Definition lsq (s t : shape) : sim F :=
  let n := \sum_i (s i 0 * s i 0 + s i 1 * s i 1) in
  Sim ((\sum_i (s i 0 * t i 0 + s i 1 * t i 1)) / n - 1) ((\sum_i (s i 0 * t i 1 - s i 1 * t i 0)) / n)
      ((\sum_i t i 0) / N%:R) ((\sum_i t i 1) / N%:R).
Lemma lsq_exact (m : shape) : (0 < N)%N -> \sum_i m i 0 = 0 -> \sum_i m i 1 = 0 -> \sum_i (m i 0 * m i 0 + m i 1 * m i 1) != 0 ->
  exact_alignment lsq m.
Proof.
  move=> N0 X Y Z g t G. set n := \sum_i _ in Z.
  set A := 1 + s_a g. set B := s_b g.
  have E a b (f : 'I_N -> F) : \sum_i (a * m i 0 + b * m i 1 + f i) = \sum_i f i.
    rewrite big_split /= big_split /= -mulr_sumr -mulr_sumr X Y !mulr0 !add0r. by [].
  have Nn : N%:R != 0 :> F by rewrite pnatr_eq0 -lt0n.
  have Tx : \sum_i t i 0 = N%:R * s_tx g.
    rewrite (eq_bigr (fun i => A * m i 0 + (- B) * m i 1 + s_tx g)) ?E ?sumr_const ?card_ord ?mulr_natl // => i _.
    have [-> _] := G i. rewrite -/A -/B. mring F.
  have Ty : \sum_i t i 1 = N%:R * s_ty g.
    rewrite (eq_bigr (fun i => B * m i 0 + A * m i 1 + s_ty g)) ?E ?sumr_const ?card_ord ?mulr_natl // => i _.
    have [_ ->] := G i. by [].
  have Sa : \sum_i (m i 0 * t i 0 + m i 1 * t i 1) = A * n.
    rewrite (eq_bigr (fun i => s_tx g * m i 0 + s_ty g * m i 1 + A * (m i 0 * m i 0 + m i 1 * m i 1))) ?E -?mulr_sumr // => i _.
    have [-> ->] := G i. rewrite -/A -/B. mring F.
  have Sb : \sum_i (m i 0 * t i 1 - m i 1 * t i 0) = B * n.
    rewrite (eq_bigr (fun i => s_ty g * m i 0 + (- s_tx g) * m i 1 + B * (m i 0 * m i 0 + m i 1 * m i 1))) ?E -?mulr_sumr // => i _.
    have [-> ->] := G i. rewrite -/A -/B. mring F.
  have L : lsq m t = g.
    rewrite /lsq -/n Sa Sb Tx Ty !mulfK // [N%:R * s_tx g]mulrC [N%:R * s_ty g]mulrC !mulfK // /A /B. case: g {G A B Tx Ty Sa Sb} => a b x y /=.
    by rewrite [1 + a]addrC addrK.
  by rewrite L.
Qed.

Lemma basis_orthonormal (m : shape) (u v : F) : \sum_i m i 0 = 0 -> \sum_i m i 1 = 0 ->
  (u * u * (\sum_i (m i 0 * m i 0 + m i 1 * m i 1)) = 1) -> v * v * N%:R = 1 -> orthonormal (basis m u v).
Proof.
  move=> X Y U V.
  have Z (x : 'I_N -> F) : (forall i, x i = 0) -> \sum_i x i = 0 by move=> H; rewrite big1.
  have E (a b : F) : \sum_i (a * m i 0 + b * m i 1) = 0.
    by rewrite big_split /= -mulr_sumr -mulr_sumr X Y !mulr0 addr0.
  have C (a : F) : \sum_(i < N) a = a * N%:R by rewrite sumr_const card_ord mulr_natr.
  have M0 i : rot m i 0 = - m i 1 by rewrite mxE. have M1 i : rot m i 1 = m i 0 by rewrite mxE.
  have X0 i : txs i 0 = 1 by rewrite mxE. have X1 i : txs i 1 = 0 by rewrite mxE.
  have Y0 i : tys i 0 = 0 by rewrite mxE. have Y1 i : tys i 1 = 1 by rewrite mxE.
  have mm : dot m m = \sum_i (m i 0 * m i 0 + m i 1 * m i 1) by rewrite dotE.
  have rr : dot (rot m) (rot m) = \sum_i (m i 0 * m i 0 + m i 1 * m i 1).
    rewrite dotE; apply: eq_bigr => i _. rewrite M0 M1. mring F.
  have mr : dot m (rot m) = 0 by rewrite dotE Z // => i; rewrite M0 M1; mring F.
  have mx : dot m txs = 0 by rewrite dotE -[RHS](E 1 0); apply: eq_bigr => i _; rewrite X0 X1; mring F.
  have my : dot m tys = 0 by rewrite dotE -[RHS](E 0 1); apply: eq_bigr => i _; rewrite Y0 Y1; mring F.
  have rx : dot (rot m) txs = 0 by rewrite dotE -[RHS](E 0 (- 1)); apply: eq_bigr => i _; rewrite X0 X1 M0 M1; mring F.
  have ry : dot (rot m) tys = 0 by rewrite dotE -[RHS](E 1 0); apply: eq_bigr => i _; rewrite Y0 Y1 M0 M1; mring F.
  have xy : dot txs tys = 0 by rewrite dotE Z // => i; rewrite Y0 Y1 X0 X1; mring F.
  have xx : dot txs txs = N%:R by rewrite dotE -[RHS]mul1r -C; apply: eq_bigr => i _; rewrite X0 X1; mring F.
  have yy : dot tys tys = N%:R by rewrite dotE -[RHS]mul1r -C; apply: eq_bigr => i _; rewrite Y0 Y1; mring F.
  have D a b (x y : shape) : dot (a *: x) (b *: y) = a * b * dot x y by rewrite dotZl dotC dotZl dotC mulrA.
  move=> i j. case: i => [|[|[|[|i]]]] //; case: j => [|[|[|[|j]]]] // _ _; rewrite /basis /= D.
  - by rewrite mm U. - by rewrite mr mulr0. - by rewrite mx mulr0. - by rewrite my mulr0.
  - by rewrite dotC mr mulr0. - by rewrite rr U. - by rewrite rx mulr0. - by rewrite ry mulr0.
  - by rewrite dotC mx mulr0. - by rewrite dotC rx mulr0. - by rewrite xx V. - by rewrite xy mulr0.
  - by rewrite dotC my mulr0. - by rewrite dotC ry mulr0. - by rewrite dotC xy mulr0. - by rewrite yy V.
Qed.
Lemma basis_orth (m c : shape) (u v : F) : dot c m = 0 -> dot c (rot m) = 0 -> dot c txs = 0 -> dot c tys = 0 ->
  forall c', c' \in basis m u v -> dot c c' = 0.
Proof.
  move=> A B C D c'. rewrite !inE. by case/or4P => /eqP ->; rewrite dotC dotZl dotC ?A ?B ?C ?D mulr0.
Qed.
End P.

(** Four points on the unit circle and a component orthogonal to the similarities. *)
Section Four.
Variable F : realFieldType.
Add Ring Fr4 : (@r_ring F).
Notation half := (2%:R^-1 : F).
Definition xs : seq F := [:: 1; 0; - 1; 0].
Definition ys : seq F := [:: 0; 1; 0; - 1].
Definition mean4 : 'M[F]_(4, 2) := \matrix_(i, j) nth 0 (if j == 0 then xs else ys) i.
Definition comp4 : 'M[F]_(4, 2) := \matrix_(i, j) (if j == 0 then nth 0 [:: half; - half; half; - half] i else 0).
Definition basis4 : seq 'M[F]_(4, 2) := basis mean4 half half.
Lemma four : 1 + (1 + (1 + 1)) = 4%:R :> F.
Proof. by rewrite !mulrS mulr0n addr0. Qed.
Lemma half_ok : half * half * 4%:R = 1.
Proof. have N : (2%:R : F) != 0 by rewrite pnatr_eq0. by rewrite (natrM F 2 2) mulrA mulfVK // mulVf. Qed.
Lemma half0 : half != 0.
Proof. by rewrite invr_eq0 pnatr_eq0. Qed.
Lemma sum4 (f : 'I_4 -> F) : \sum_i f i = f (inord 0) + (f (inord 1) + (f (inord 2) + f (inord 3))).
Proof.
  rewrite !big_ord_recl big_ord0 addr0. do ![congr (_ + _)]; congr f; apply: val_inj; by rewrite /= inordK.
Qed.
Lemma mean4E i j : (i < 4)%N -> mean4 (inord i) j = nth 0 (if j == 0 then xs else ys) i.
Proof. by move=> I; rewrite mxE inordK. Qed.
Lemma comp4E i j : (i < 4)%N -> comp4 (inord i) j = (if j == 0 then nth 0 [:: half; - half; half; - half] i else 0).
Proof. by move=> I; rewrite mxE inordK. Qed.
Lemma centred4 : \sum_i mean4 i 0 = 0 /\ \sum_i mean4 i 1 = 0.
Proof. split; rewrite sum4 !mean4E //=; mring F. Qed.
Lemma norm4 : \sum_i (mean4 i 0 * mean4 i 0 + mean4 i 1 * mean4 i 1) = 4%:R.
Proof. rewrite sum4 !mean4E //= -four; mring F. Qed.
Lemma exact4 : exact_alignment (@lsq F 4) mean4.
Proof. have [A B] := centred4. apply: lsq_exact => //. by rewrite norm4 pnatr_eq0. Qed.
Lemma basis4_ok : similarity_basis mean4 basis4.
Proof. apply: basisP; exact: half0. Qed.
Lemma ortho4 : orthonormal basis4.
Proof. have [A B] := centred4. apply: basis_orthonormal => //; rewrite ?norm4; exact: half_ok. Qed.
Lemma ortho1 : orthonormal [:: comp4].
Proof.
  move=> [|i] [|j] // _ _. rewrite dotE sum4 !comp4E //= mulr1n -[RHS]half_ok -four. mring F.
Qed.
Lemma ortho14 c c' : c \in [:: comp4] -> c' \in basis4 -> dot c c' = 0.
Proof.
  rewrite inE => /eqP ->. apply: basis_orth; rewrite dotE sum4 ?[rot _ _ _]mxE !comp4E //= ?[rot _ _ _]mxE ?[txs _ _ _ _]mxE ?[tys _ _ _ _]mxE /= ?mean4E //= ?mxE /= ; mring F.
Qed.
End Four.
