From Coq Require Import ZArith.
From mathcomp Require Import all_ssreflect all_algebra.
From Verif.Model Require Import Py PyIndex Instances.
From Verif.Spec Require Import PyIndex Instances.
From Verif.Proofs Require PyIndex.
Set Implicit Arguments.
Unset Strict Implicit.
Unset Printing Implicit Defensive.
Import Order.Theory GRing.Theory Num.Theory.
Local Open Scope ring_scope.

Section P.
  Variable F : rcfType.

  Lemma sum_short (V : lmodType F) (n : nat) (w : seq F) (g : nat -> F -> V) :
    (forall i, g i 0 = 0) -> (size w <= n)%N ->
    \sum_(i < n) g i (nth 0 w i) = \sum_(i < size w) g i (nth 0 w i).
  Proof.
    move=> g0 le; rewrite -(subnKC le) big_split_ord /= [X in _ + X]big1 ?addr0 // => i _.
    by rewrite nth_default ?leq_addr.
  Qed.

  Lemma usedE (V : lmodType F) (m : pca V) : used m = n_active m.
  Proof. by rewrite /used /n_active size_take. Qed.

  Section One.
    Variables (V : lmodType F) (m : pca V).

    Lemma instance_ok w : (size w <= used m)%N -> pca_instance m w = Ok (deviates m w).
    Proof.
      move=> le; rewrite /pca_instance -usedE le /deviates; congr (Ok (_ + _)).
      rewrite (@sum_short V _ w (fun i x => (x * Num.sqrt (ev m i)) *: comp m i)) //.
        by apply: eq_bigr => i _; rewrite scalerA.
      by move=> i; rewrite mul0r scale0r.
    Qed.

    Lemma instance_err w : (used m < size w)%N -> pca_instance m w = Err ValueError.
    Proof. by move=> lt; rewrite /pca_instance -usedE leqNgt lt. Qed.

    Lemma deviates_zero : deviates m [:: 0] = p_mean m.
    Proof. by rewrite /deviates /= big_ord_recl big_ord0 /= scale0r !addr0. Qed.

    Lemma instance_none : (0 < used m)%N -> pca_instance m (weights_or_zero None) = Ok (p_mean m).
    Proof. by move=> lt; rewrite instance_ok //= deviates_zero. Qed.

    (** What [n] random weights can produce. *)
    Lemma draw_member n w : (n <= used m)%N -> size w = n -> member m n (deviates m w).
    Proof.
      move=> le sz; exists (mkseq (fun i => nth 0 w i * Num.sqrt (ev m i)) n).
      rewrite size_mkseq; split=> //; rewrite /deviates sz; congr (_ + _).
      by apply: eq_bigr => i _; rewrite nth_mkseq // scalerA.
    Qed.

    Lemma member_draw n v : varied m -> (n <= used m)%N -> member m n v ->
      exists2 w, size w = n & pca_instance m w = Ok v.
    Proof.
      move=> pos le [u [sz ->]]; exists (mkseq (fun i => nth 0 u i / Num.sqrt (ev m i)) n).
        by rewrite size_mkseq.
      rewrite instance_ok ?size_mkseq // /deviates size_mkseq; congr (Ok (_ + _)).
      apply: eq_bigr => i _; rewrite nth_mkseq // scalerA divfK //.
      by rewrite sqrtr_eq0 -ltNge; apply: pos; apply: leq_trans le.
    Qed.

    Lemma member_mean n : member m n (p_mean m).
    Proof.
      exists (nseq n 0); rewrite size_nseq; split=> //.
      by rewrite big1 ?addr0 // => i _; rewrite nth_nseq ltn_ord scale0r.
    Qed.

    (** Fewer directions than the model has do not reach all its members. *)
    Lemma member_short n : independent m -> (n < used m)%N ->
      exists v, member m (used m) v /\ ~ member m n v.
    Proof.
      move=> ind lt; exists (p_mean m + comp m n); split.
        exists (mkseq (fun i => (i == n)%:R) (used m)); rewrite size_mkseq; split=> //; congr (_ + _).
        rewrite (bigD1 (Ordinal lt)) //= nth_mkseq // eqxx scale1r big1 ?addr0 // => i ne.
        by rewrite nth_mkseq // -val_eqE /= in ne *; rewrite (negbTE ne) scale0r.
      case=> w [sz /addrI eq].
      pose u := mkseq (fun i => nth 0 w i - (i == n)%:R) (used m).
      have z : \sum_(i < used m) nth 0 u i *: comp m i = 0.
        transitivity (\sum_(i < used m) (nth 0 w i *: comp m i - (i == n :> nat)%:R *: comp m i)).
          by apply: eq_bigr => i _; rewrite nth_mkseq // scalerBl.
        rewrite sumrB (@sum_short V _ w (fun i x => x *: comp m i)) ?sz ?(ltnW lt) //.
          rewrite -eq (bigD1 (Ordinal lt)) //= eqxx scale1r big1 ?addr0 ?subrr // => i ne.
          by rewrite -val_eqE /= in ne; rewrite (negbTE ne) scale0r.
        by move=> i; rewrite scale0r.
      have := ind u _ z n; rewrite size_mkseq => /(_ erefl); rewrite nth_mkseq // eqxx.
      rewrite nth_default ?sz // sub0r => /eqP; rewrite oppr_eq0 oner_eq0 //.
    Qed.
  End One.

  Definition const_source (w : seq F) : nat -> seq F := fun n => mkseq (fun i => nth 0 w i) n.
  Lemma const_source_source w : source (const_source w).
  Proof. by move=> n; rewrite size_mkseq. Qed.
  Lemma const_source_at w n : size w = n -> const_source w n = w.
  Proof. by move=> <-; rewrite /const_source mkseq_nth. Qed.
End P.
