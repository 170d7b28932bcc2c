(** The last of several batches (C15, C112). *)
From Coq Require Import List ZArith Arith Lia.
From Verif.Model Require Import Py Base.
From Verif.Spec Require Import Base.
From Verif.Proofs Require Base.
Import ListNotations.
Local Open Scope nat_scope.

Lemma chunks_last {A} n (out : list (list A)) : (forall pre c c' post, out = pre ++ c :: c' :: post -> length c = n) -> out <> [] ->
  exists pre c, out = pre ++ [c] /\ length (concat pre) = length pre * n.
Proof.
  induction out as [|c out IH]; intros H N; [congruence|]. destruct out as [|c' out].
  - exists [], c. auto.
  - destruct IH as (pre & d & E & L).
    + intros p x x' q Q. apply (H (c :: p) x x' q). simpl. congruence.
    + congruence.
    + exists (c :: pre), d. split; [simpl; congruence|]. simpl. rewrite app_length, L.
      rewrite (H [] c c' out eq_refl). lia.
Qed.
(** When the items leave one over, the last batch has one item. *)
Lemma batch_last {A} (l : list A) n k out : 1 <= n -> length l = k * n + 1 -> batch l (Z.of_nat n) = Ok out ->
  exists pre x, out = pre ++ [[x]].
Proof.
  intros Hn L B. apply Proofs.Base.batch_iff in B; [|lia]. rewrite Nat2Z.id in B. destruct B as (C & S & H).
  destruct (chunks_last n out H) as (pre & c & E & P).
  - intros ->. subst l. simpl in L. lia.
  - subst out. apply Forall_app in S. destruct S as [_ S]. inversion S as [|x y S1 _]. subst.
    rewrite concat_app, app_length, P in L. simpl in L. rewrite app_nil_r in L.
    assert (K : length c = 1).
    { destruct (lt_eq_lt_dec (length pre) k) as [[Q|Q]|Q]; nia. }
    destruct c as [|x [|? ?]]; try discriminate. now exists pre, x.
Qed.
