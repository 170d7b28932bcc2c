(** Index arithmetic of convolutions on a torus. *)
From Coq Require Import Arith Bool Lia.
From Verif.Spec Require Import Convolution.
Local Open Scope nat_scope.

(** The centre of a filter of [f] numbers padded to [N]. *)
Definition offset (N f : nat) : nat := N / 2 - (N - f + 1) / 2.
Lemma div2 n : exists q r, n = 2 * q + r /\ r < 2 /\ n / 2 = q.
Proof. exists (n / 2), (n mod 2). split; [apply Nat.div_mod; lia|]. split; [apply Nat.mod_upper_bound; lia|reflexivity]. Qed.
Ltac halves :=
  repeat match goal with |- context [?n / 2] => let q := fresh "q" in let r := fresh "r" in let H := fresh in let H2 := fresh in let E := fresh in
    destruct (div2 n) as (q & r & H & H2 & E); rewrite E in *; clear E
  | K : context [?n / 2] |- _ => let q := fresh "q" in let r := fresh "r" in let H := fresh in let H2 := fresh in let E := fresh in
    destruct (div2 n) as (q & r & H & H2 & E); rewrite E in *; clear E end.
Lemma offset_odd N o : 2 * o + 1 <= N -> offset N (2 * o + 1) = o.
Proof. intros H. unfold offset. halves. lia. Qed.
Lemma offset_even_even n o : o <= n -> offset (2 * n) (2 * o) = o.
Proof. intros H. unfold offset. halves. lia. Qed.
Lemma offset_even_odd n o : 1 <= o <= n -> offset (2 * n + 1) (2 * o) = o - 1.
Proof. intros H. unfold offset. halves. lia. Qed.
Lemma offset_bounds N f : 0 < f <= N -> f <= 2 * offset N f + 2 /\ 2 * offset N f <= f.
Proof. intros H. unfold offset. halves. lia. Qed.

Section S.
Context {C : Type} (zero : C).
(** A ring that is long enough does not wrap. *)
Lemma ring_is_line N n (x : nat -> C) i o u : u <= i + o + N -> i + o < N + u -> u <= N -> 0 < N -> n <= N ->
  (i + o < u -> n <= i + o + N - u) -> ring_line zero N n x i o u = line zero n x i o u.
Proof.
  intros H1 H2 H3 H4 H5 H6. unfold ring_line, line. destruct (Nat.leb_spec u (i + o)) as [L|L]; cbn [andb].
  - replace (i + o + (N - u)) with (i + o - u + 1 * N) by lia. rewrite Nat.mod_add by lia. rewrite Nat.mod_small by lia. reflexivity.
  - rewrite Nat.mod_small by lia. destruct (Nat.ltb_spec (i + o + (N - u)) n) as [K|K]; [lia|reflexivity].
Qed.
(** The pixels of a 'same' convolution that are not on the border. *)
Lemma interior n f (x : nat -> C) i u : 2 <= f -> let N := n + f / 2 - 1 in f <= N -> 1 <= i -> i + 2 <= n -> u < f ->
  ring_line zero N n x i (offset N f) u = line zero n x i (offset N f) u.
Proof.
  intros Hf N HN H1 H2 Hu. destruct (offset_bounds N f ltac:(lia)) as [B1 B2].
  assert (D : f / 2 * 2 <= f /\ f <= f / 2 * 2 + 1) by (halves; lia).
  assert (B : f <= f / 2 + offset N f + 1 /\ offset N f <= f / 2) by lia.
  apply ring_is_line; lia.
Qed.
Lemma line_in n (x : nat -> C) i o u : u <= i + o -> i + o - u < n -> line zero n x i o u = x (i + o - u).
Proof. intros H1 H2. unfold line. apply Nat.leb_le in H1. apply Nat.ltb_lt in H2. rewrite H1, H2. reflexivity. Qed.
Lemma line_ext n (x y : nat -> C) i o u : (forall k, k < n -> x k = y k) -> line zero n x i o u = line zero n y i o u.
Proof.
  intros H. unfold line. destruct (u <=? i + o); [|reflexivity]. cbn [andb]. destruct (Nat.ltb_spec (i + o - u) n); [apply H; assumption|reflexivity].
Qed.
Variables (add mul : C -> C -> C).
Lemma sum_ext' n (f g : nat -> C) : (forall u, u < n -> f u = g u) -> sum zero add n f = sum zero add n g.
Proof. induction n as [|n IH]; intros H; [reflexivity|]. cbn [sum]. rewrite IH by (intros u Hu; apply H; lia). rewrite H by lia. reflexivity. Qed.
Lemma torus_interior h w fh fw (f x : nat -> nat -> C) i j : 2 <= fh -> 2 <= fw ->
  let N := h + fh / 2 - 1 in let M := w + fw / 2 - 1 in fh <= N -> fw <= M -> 1 <= i -> i + 2 <= h -> 1 <= j -> j + 2 <= w ->
  on_torus zero add mul N M h w fh fw (offset N fh) (offset M fw) f x i j = convolution zero add mul h w fh fw (offset N fh) (offset M fw) f x i j.
Proof.
  intros Hf Hg N M HN HM Hi Hi' Hj Hj'. unfold on_torus, convolution. apply sum_ext'. intros u Hu. apply sum_ext'. intros v Hv. f_equal.
  unfold N at 1. rewrite interior by assumption. apply line_ext. intros k _. apply interior; assumption.
Qed.
End S.

(** Where the origin of the trained filter lands: [c] is the side of the context, [p] that of the patch. *)
Definition origin (c p : nat) : nat := let N := c + p - 1 in N - N / 2 - c / 2.
Lemma origin_odd_even c p : 1 <= c -> origin (2 * c) (2 * p + 1) = p.
Proof. intros H. unfold origin. halves. lia. Qed.
Lemma origin_odd_odd c p : origin (2 * c + 1) (2 * p + 1) = p + 1.
Proof. unfold origin. halves. lia. Qed.
Lemma origin_even c p : 1 <= p -> 1 <= c -> origin c (2 * p) = p.
Proof. intros H H2. unfold origin. halves. lia. Qed.
Lemma shape_offset_odd p : 3 <= p -> offset (2 * p + 1 + (2 * p + 1) / 2 - 1) (2 * p + 1) = p.
Proof. intros H. apply offset_odd. halves. lia. Qed.
Lemma shape_offset_even_odd p : 3 <= 2 * p + 1 -> offset (2 * (2 * p + 1) + 2 * (2 * p + 1) / 2 - 1) (2 * (2 * p + 1)) = 2 * p + 1.
Proof. intros H. unfold offset. halves. lia. Qed.
Lemma shape_offset_even_even p : 2 <= p -> offset (2 * (2 * p) + 2 * (2 * p) / 2 - 1) (2 * (2 * p)) = 2 * p - 1.
Proof. intros H. unfold offset. halves. lia. Qed.
