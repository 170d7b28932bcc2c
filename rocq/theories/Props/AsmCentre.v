(** C36: the ASM error at the centre, for every window. *)
From Coq Require Import List ZArith Reals Lra Lia.
From Verif.Model Require Import Base.
From Verif.Proofs Require AsmCentre.
Import ListNotations.
Local Open Scope nat_scope.

(** When the response peaks at the current position, the error along an axis depends on the side of the window along this
    axis only: it is 0 for sides that are 1 modulo 4, negative for sides that are 3 modulo 4 and positive for even sides.
    For every kernel that is a product over the axes of a positive even function that decreases away from 0. *)
Theorem c36_asm_centre_sign : forall f h w target,
  (forall y, (0 < f y)%R) -> (forall y, f (- y)%Z = f y) -> (forall y z, (0 <= y < z)%Z -> (f z < f y)%R) ->
  (0 < h)%Z -> (0 < w)%Z ->
  let error coord := asm_error (fun y x => f y * f x)%R h w (h / 2, w / 2)%Z coord target in
  ((h mod 4 = 1)%Z -> error fst = 0%R) /\ ((h mod 4 = 3)%Z -> (error fst < 0)%R) /\ ((h mod 2 = 0)%Z -> (0 < error fst)%R) /\
  ((w mod 4 = 1)%Z -> error snd = 0%R) /\ ((w mod 4 = 3)%Z -> (error snd < 0)%R) /\ ((w mod 2 = 0)%Z -> (0 < error snd)%R).
Proof.
  intros f h w target P E D Hh Hw. cbv beta zeta.
  rewrite (Proofs.AsmCentre.asm_error_fst f P h w target Hh Hw), (Proofs.AsmCentre.asm_error_snd f P h w target Hh Hw).
  destruct (Proofs.AsmCentre.error_sign f P E D h Hh) as (A & B & C). destruct (Proofs.AsmCentre.error_sign f P E D w Hw) as (A' & B' & C').
  auto 10.
Qed.
Print Assumptions c36_asm_centre_sign.

(** So a landmark whose response peaks where it is stays there if and only if both sides are 1 modulo 4. *)
Theorem c36_asm_centre_iff : forall f h w target,
  (forall y, (0 < f y)%R) -> (forall y, f (- y)%Z = f y) -> (forall y z, (0 <= y < z)%Z -> (f z < f y)%R) ->
  (0 < h)%Z -> (0 < w)%Z ->
  ((forall coord, coord = fst \/ coord = snd -> asm_error (fun y x => f y * f x)%R h w (h / 2, w / 2)%Z coord target = 0%R) <->
   (h mod 4 = 1)%Z /\ (w mod 4 = 1)%Z).
Proof.
  intros f h w target P E D Hh Hw.
  destruct (c36_asm_centre_sign f h w target P E D Hh Hw) as (A & B & C & A' & B' & C').
  assert (M : forall z, (z mod 4 = 1 \/ z mod 4 = 3 \/ z mod 2 = 0)%Z).
  { intros z. pose proof (Z.div_mod z 4 ltac:(lia)). pose proof (Z.div_mod z 2 ltac:(lia)).
    pose proof (Z.mod_pos_bound z 4 ltac:(lia)). pose proof (Z.mod_pos_bound z 2 ltac:(lia)). lia. }
  split.
  - intros H. pose proof (H fst (or_introl eq_refl)) as H1. pose proof (H snd (or_intror eq_refl)) as H2. split.
    + destruct (M h) as [X|[X|X]]; [exact X| |]; exfalso; [specialize (B X)|specialize (C X)]; cbn beta in *; lra.
    + destruct (M w) as [X|[X|X]]; [exact X| |]; exfalso; [specialize (B' X)|specialize (C' X)]; cbn beta in *; lra.
  - intros [X Y] coord [->| ->]; auto.
Qed.
Print Assumptions c36_asm_centre_iff.

(** The kernels of the code: Gaussians of any positive covariance (up to the constant factor, which the normalisation cancels). *)
Lemma gaussian_pos c y : (0 < exp (- IZR (y * y) / (2 * c)))%R.
Proof. apply exp_pos. Qed.
Lemma gaussian_even c y : exp (- IZR (- y * - y) / (2 * c)) = exp (- IZR (y * y) / (2 * c)).
Proof. rewrite Z.mul_opp_opp. reflexivity. Qed.
Lemma gaussian_dec c y z : (0 < c)%R -> (0 <= y < z)%Z -> (exp (- IZR (z * z) / (2 * c)) < exp (- IZR (y * y) / (2 * c)))%R.
Proof.
  intros Hc H. apply exp_increasing. assert (L : (IZR (y * y) < IZR (z * z))%R) by (apply IZR_lt; nia).
  unfold Rdiv. apply Rmult_lt_compat_r; [apply Rinv_0_lt_compat; lra|lra].
Qed.
Theorem c36_asm_gaussian_iff : forall c h w target, (0 < c)%R -> (0 < h)%Z -> (0 < w)%Z ->
  ((forall coord, coord = fst \/ coord = snd ->
      asm_error (fun y x => exp (- IZR (y * y) / (2 * c)) * exp (- IZR (x * x) / (2 * c)))%R h w (h / 2, w / 2)%Z coord target = 0%R) <->
   (h mod 4 = 1)%Z /\ (w mod 4 = 1)%Z).
Proof.
  intros c h w target Hc Hh Hw. apply (c36_asm_centre_iff (fun y => exp (- IZR (y * y) / (2 * c)))); auto.
  - intros y. apply gaussian_pos.
  - intros y. apply gaussian_even.
  - intros y z H. apply gaussian_dec; auto.
Qed.
Print Assumptions c36_asm_gaussian_iff.
(** The default windows of 17 pixels are of the good kind; windows of 15 or 16 pixels are not. *)
Example c36_asm_gaussian_ex : forall target coord, coord = fst \/ coord = snd ->
  asm_error (fun y x => exp (- IZR (y * y) / (2 * 10)) * exp (- IZR (x * x) / (2 * 10)))%R 17 17 (8, 8)%Z coord target = 0%R.
Proof. intros target. apply (proj2 (c36_asm_gaussian_iff 10 17 17 target ltac:(lra) ltac:(lia) ltac:(lia))). split; reflexivity. Qed.
Example c36_asm_gaussian_15 : forall target,
  ~ (forall coord, coord = fst \/ coord = snd ->
     asm_error (fun y x => exp (- IZR (y * y) / (2 * 10)) * exp (- IZR (x * x) / (2 * 10)))%R 15 17 (7, 8)%Z coord target = 0%R).
Proof. intros target H. destruct (proj1 (c36_asm_gaussian_iff 10 15 17 target ltac:(lra) ltac:(lia) ltac:(lia)) H). discriminate. Qed.
