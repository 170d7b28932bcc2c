From Coq Require Import List ZArith Lia.
From Verif.Model Require Import Py PyIndex.
From Verif.Spec Require Import PyIndex.
Import ListNotations.
Local Open Scope nat_scope.

Lemma py_at_names {A} (l : list A) i k a :
  names_scale (length l) i k -> nth_error l k = Some a -> py_at l i = Ok a.
Proof.
  intros [Hk Hi] Ha. unfold py_at.
  destruct Hi as [-> | ->].
  - destruct (Z.ltb_spec (Z.of_nat k) 0) as [H|H]; [lia|].
    destruct (Z.ltb_spec (Z.of_nat k) 0) as [H'|H']; [lia|]. now rewrite Nat2Z.id, Ha.
  - destruct (Z.ltb_spec (Z.of_nat k - Z.of_nat (length l)) 0) as [H|H]; [|lia].
    replace (Z.of_nat k - Z.of_nat (length l) + Z.of_nat (length l))%Z with (Z.of_nat k) by lia.
    destruct (Z.ltb_spec (Z.of_nat k) 0) as [H'|H']; [lia|]. now rewrite Nat2Z.id, Ha.
Qed.

Lemma py_at_inv {A} (l : list A) i a :
  py_at l i = Ok a -> exists k, names_scale (length l) i k /\ nth_error l k = Some a.
Proof.
  unfold py_at. intro H.
  destruct (Z.ltb_spec i 0) as [Hi|Hi].
  - destruct (Z.ltb_spec (i + Z.of_nat (length l)) 0) as [Hj|Hj]; [discriminate|].
    destruct (nth_error l (Z.to_nat (i + Z.of_nat (length l)))) as [b|] eqn:Hn; [|discriminate].
    injection H as <-. eexists. split; [|exact Hn]. split; [apply nth_error_Some; congruence|]. right. lia.
  - destruct (Z.ltb_spec i 0) as [Hj|Hj]; [lia|].
    destruct (nth_error l (Z.to_nat i)) as [b|] eqn:Hn; [|discriminate].
    injection H as <-. eexists. split; [|exact Hn]. split; [apply nth_error_Some; congruence|]. left. lia.
Qed.

(** The scales named in two lists of the same length are the same. *)
Lemma py_at_out {A} (l : list A) i : (forall k, ~ names_scale (length l) i k) -> py_at l i = Err IndexError.
Proof.
  intro Hn. unfold py_at.
  destruct (Z.ltb_spec i 0) as [Hi|Hi].
  - destruct (Z.ltb_spec (i + Z.of_nat (length l)) 0) as [Hj|Hj]; [reflexivity|].
    exfalso. apply (Hn (Z.to_nat (i + Z.of_nat (length l)))). split; [lia|right; lia].
  - destruct (Z.ltb_spec i 0) as [Hj|Hj]; [lia|].
    destruct (nth_error l (Z.to_nat i)) as [b|] eqn:E; [|reflexivity].
    exfalso. apply (Hn (Z.to_nat i)). split; [apply nth_error_Some; congruence|left; lia].
Qed.

Lemma last_scale n k : names_scale n (-1) k <-> S k = n.
Proof. unfold names_scale. split; [intros [H [E|E]]; lia | intro H; split; [lia|right; lia]]. Qed.
