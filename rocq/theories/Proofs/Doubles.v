From Coq Require Import List ZArith QArith Reals Qreals Lra Lia.
From Flocq Require Import Core.
From Verif.Model Require Import Py Stats Checks Doubles.
Import ListNotations.
Local Open Scope R_scope.

Local Notation fexp := (FLT_exp (-1074) 53).
Local Instance prec53 : Prec_gt_0 53. Proof. unfold Prec_gt_0. lia. Qed.
Local Instance valid53 : Valid_exp fexp. Proof. apply FLT_exp_valid. exact prec53. Qed.
Local Instance mono53 : Monotone_exp fexp. Proof. apply FLT_exp_monotone. Qed.

Lemma double_le x y : x <= y -> double x <= double y.
Proof. intros H. unfold double. apply round_le; auto with typeclass_instances. Qed.
Lemma double_exact m e x : x = IZR m * bpow radix2 e -> (Z.abs m < 2 ^ 53)%Z -> (-1074 <= e)%Z -> double x = x.
Proof.
  intros -> Hm He. unfold double. apply round_generic; auto with typeclass_instances.
  apply generic_format_FLT. exists (Float radix2 m e); auto.
Qed.
Lemma double_int z : (Z.abs z < 2 ^ 53)%Z -> double (IZR z) = IZR z.
Proof. intros H. apply (double_exact z 0); [simpl; ring | assumption | lia]. Qed.
Lemma double_half z : (Z.abs (2 * z + 1) < 2 ^ 53)%Z -> double (IZR z + / 2) = IZR z + / 2.
Proof.
  intros H. apply (double_exact (2 * z + 1) (-1)); [| assumption | lia].
  rewrite plus_IZR, mult_IZR. simpl. lra.
Qed.
Lemma double_quarter : double (/ 4) = / 4.
Proof. apply (double_exact 1 (-2)); [simpl; lra | lia | lia]. Qed.
Lemma double_opp_quarter : double (- / 4) = - / 4.
Proof. apply (double_exact (-1) (-2)); [simpl; lra | lia | lia]. Qed.
Lemma double_error x : Rabs (double x - x) <= / 2 * ulp radix2 fexp x.
Proof. apply error_le_half_ulp; auto with typeclass_instances. Qed.
Lemma bpow53 : bpow radix2 (-53) = bpow radix2 (-52) * / 2.
Proof. change (-53)%Z with (-52 + -1)%Z. rewrite bpow_plus. reflexivity. Qed.
Lemma double_error_normal x : / 4 <= Rabs x -> Rabs (double x - x) <= Rabs x * bpow radix2 (-53).
Proof.
  intros H. eapply Rle_trans; [apply double_error |].
  assert (U : ulp radix2 fexp x <= Rabs x * bpow radix2 (1 - 53)).
  { apply ulp_FLT_le. eapply Rle_trans; [| exact H]. replace (/ 4) with (bpow radix2 (-2)) by (simpl; lra). apply bpow_le. lia. }
  rewrite bpow53. change (1 - 53)%Z with (-52)%Z in U. lra.
Qed.
Lemma double_error_unit x : Rabs x <= 1 -> Rabs (double x - x) <= bpow radix2 (-53).
Proof.
  intros H. eapply Rle_trans; [apply double_error |].
  assert (U : ulp radix2 fexp x <= bpow radix2 (-52)).
  { replace (bpow radix2 (-52)) with (ulp radix2 fexp (bpow radix2 0)).
    - apply ulp_le; auto with typeclass_instances. simpl. rewrite (Rabs_pos_eq 1); lra.
    - rewrite ulp_bpow. reflexivity. }
  rewrite bpow53. lra.
Qed.

(** ** The iteration budget *)
Lemma nearest_low x f : IZR f <= x < IZR f + / 2 -> ZnearestE x = f.
Proof. intros H. apply Znearest_imp. rewrite Rabs_pos_eq; lra. Qed.
Lemma nearest_high x f : IZR f + / 2 < x <= IZR f + 1 -> ZnearestE x = (f + 1)%Z.
Proof. intros H. apply Znearest_imp. rewrite plus_IZR. rewrite Rabs_left1; lra. Qed.
Lemma nearest_half f : ZnearestE (IZR f + / 2) = if Z.even f then f else (f + 1)%Z.
Proof.
  assert (E : Zfloor (IZR f + / 2) = f) by (apply Zfloor_imp; rewrite plus_IZR; lra).
  unfold ZnearestE, Znearest. rewrite E. rewrite Rcompare_Eq by lra.
  destruct (Z.even f); simpl; [reflexivity |]. apply Zceil_imp. rewrite plus_IZR. replace (f + 1 - 1)%Z with f by ring. lra.
Qed.

Section Quotient.
Variables (m : Z) (n : Z).
Hypothesis Hm : (Z.abs m < 2 ^ 52)%Z.
Hypothesis Hn : (1 <= n)%Z.
Let x := IZR m / IZR n.
Let f := (m / n)%Z.
Let r := (m mod n)%Z.
Let n_pos : 0 < IZR n. Proof. apply IZR_lt. lia. Qed.
Let x_eq : x = IZR f + IZR r / IZR n.
Proof.
  unfold x. assert (D : m = (n * f + r)%Z) by (apply Z.div_mod; lia). rewrite D at 1. rewrite plus_IZR, mult_IZR. field. lra.
Qed.
Let r_bound : (0 <= r < n)%Z. Proof. apply Z.mod_pos_bound. lia. Qed.
Let f_bound : (- 2 ^ 52 <= f < 2 ^ 52)%Z.
Proof. unfold f. split; [apply Z.div_le_lower_bound | apply Z.div_lt_upper_bound]; nia. Qed.
Let x_floor : IZR f <= x < IZR f + 1.
Proof.
  rewrite x_eq. destruct r_bound as [A B]. apply IZR_le in A. apply IZR_lt in B.
  assert (0 <= IZR r / IZR n) by (apply Rmult_le_pos; [lra | apply Rlt_le, Rinv_0_lt_compat; lra]).
  assert (IZR r / IZR n < 1) by (apply Rmult_lt_reg_r with (IZR n); [lra | unfold Rdiv; rewrite Rmult_assoc, Rinv_l; lra]). lra.
Qed.
(** The distance of the quotient to the middle of its unit interval. *)
Let half_gap : (2 * r <> n)%Z -> / (2 * IZR n) <= Rabs (x - (IZR f + / 2)).
Proof.
  intros N. rewrite x_eq. replace (IZR f + IZR r / IZR n - (IZR f + / 2)) with (IZR (2 * r - n) * / (2 * IZR n)).
  - rewrite Rabs_mult. rewrite (Rabs_pos_eq (/ _)) by (apply Rlt_le, Rinv_0_lt_compat; lra).
    rewrite <- abs_IZR. assert (1 <= IZR (Z.abs (2 * r - n))) by (apply IZR_le; lia).
    rewrite <- (Rmult_1_l (/ (2 * IZR n))) at 1. apply Rmult_le_compat_r; [apply Rlt_le, Rinv_0_lt_compat; lra | assumption].
  - rewrite minus_IZR, mult_IZR. field. lra.
Qed.
Let error : / 4 <= Rabs x -> Rabs (double x - x) < / (2 * IZR n).
Proof.
  intros H. eapply Rle_lt_trans; [apply double_error_normal; assumption |].
  unfold x. unfold Rdiv. rewrite Rabs_mult. rewrite (Rabs_pos_eq (/ _)) by (apply Rlt_le, Rinv_0_lt_compat; lra).
  rewrite <- abs_IZR. rewrite Rinv_mult_distr by lra.
  assert (L : IZR (Z.abs m) < bpow radix2 52) by (apply (IZR_lt _ (2 ^ 52)); assumption).
  replace (/ 2 * / IZR n) with (bpow radix2 52 * / IZR n * bpow radix2 (-53)).
  - apply Rmult_lt_compat_r; [apply bpow_gt_0 |]. apply Rmult_lt_compat_r; [apply Rinv_0_lt_compat; lra | assumption].
  - rewrite bpow53. transitivity ((bpow radix2 52 * bpow radix2 (-52)) * (/ 2 * / IZR n)); [ring |]. rewrite <- bpow_plus. simpl. ring.
Qed.
Lemma quotient_rounds : ZnearestE (double x) = round_half_even_div m n /\ ZnearestE x = round_half_even_div m n.
Proof.
  assert (LO : IZR f <= double x) by (rewrite <- (double_int f) by lia; apply double_le; lra).
  assert (HI : double x <= IZR f + 1).
  { rewrite <- plus_IZR, <- (double_int (f + 1)) by lia. apply double_le. rewrite plus_IZR. lra. }
  assert (SM : Rabs x < / 4 -> - / 4 <= double x <= / 4).
  { intros H. apply Rabs_def2 in H. split; [rewrite <- double_opp_quarter | rewrite <- double_quarter]; apply double_le; lra. }
  unfold round_half_even_div. fold f r. destruct (Z.compare_spec (2 * r) n) as [E | L | G].
  - assert (X : x = IZR f + / 2).
    { rewrite x_eq. f_equal. apply (f_equal IZR) in E. rewrite mult_IZR in E. rewrite <- E. field. lra. }
    rewrite X, double_half by lia. rewrite nearest_half. auto.
  - assert (X : x < IZR f + / 2).
    { rewrite x_eq. apply IZR_lt in L. rewrite mult_IZR in L. apply Rplus_lt_compat_l.
      apply Rmult_lt_reg_r with (IZR n); [lra |]. unfold Rdiv. rewrite Rmult_assoc, Rinv_l; lra. }
    split; apply nearest_low; [| lra]. split; [assumption |]. destruct (Rlt_le_dec (Rabs x) (/ 4)) as [S | S].
    + specialize (SM S). apply Rabs_def2 in S. destruct (Z.eq_dec f 0) as [-> | N]; [lra |].
      assert (f <= -1)%Z by (assert (IZR f < IZR 1) by lra; apply lt_IZR in H; lia). apply IZR_le in H. lra.
    + assert (E := error S). assert (G := half_gap ltac:(lia)). rewrite Rabs_left in G by lra. apply Rabs_def2 in E. lra.
  - assert (X : IZR f + / 2 < x).
    { rewrite x_eq. apply Z.lt_gt, Z.gt_lt in G. apply IZR_lt in G. rewrite mult_IZR in G. apply Rplus_lt_compat_l.
      apply Rmult_lt_reg_r with (IZR n); [lra |]. unfold Rdiv. rewrite Rmult_assoc, Rinv_l; lra. }
    split; apply nearest_high; [| lra]. split; [| assumption]. destruct (Rlt_le_dec (Rabs x) (/ 4)) as [S | S].
    + specialize (SM S). apply Rabs_def2 in S. destruct (Z.le_gt_cases f (-1)) as [N | N]; [apply IZR_le in N; lra |].
      assert (0 <= f)%Z as N0 by lia. apply IZR_le in N0. lra.
    + assert (E := error S). assert (G2 := half_gap ltac:(lia)). rewrite Rabs_pos_eq in G2 by lra. apply Rabs_def2 in E. lra.
Qed.
End Quotient.

(** Beyond 2^52 the two differ. *)
Lemma budget_limit : ZnearestE (double (IZR (3 * (2 ^ 51 + 1) + 1) / 3)) = (2 ^ 51 + 2)%Z /\
  round_half_even_div (3 * (2 ^ 51 + 1) + 1) 3 = (2 ^ 51 + 1)%Z.
Proof.
  split; [| reflexivity]. set (k := (2 ^ 51 + 1)%Z). set (x := IZR (3 * k + 1) / 3).
  assert (X : x = IZR k + / 3) by (unfold x; rewrite plus_IZR, mult_IZR; field).
  assert (B : bpow radix2 51 <= x < bpow radix2 52).
  { rewrite X. unfold k. change (bpow radix2 51) with (IZR (2 ^ 51)). change (bpow radix2 52) with (IZR (2 ^ 52)). rewrite plus_IZR.
    split; [lra |]. assert (IZR (2 ^ 51) + 2 <= IZR (2 ^ 52)) by (rewrite <- plus_IZR; apply IZR_le; discriminate). lra. }
  assert (M : mag_val radix2 x (mag radix2 x) = 52%Z).
  { apply mag_unique. rewrite Rabs_pos_eq; [exact B |]. destruct B as [B _]. eapply Rle_trans; [| exact B]. apply bpow_ge_0. }
  assert (D : double x = IZR (k + 0) + / 2).
  { unfold double, round, F2R, scaled_mantissa, cexp. rewrite M. change (fexp 52) with (-1)%Z. simpl Fnum. simpl Fexp.
    rewrite (nearest_high _ (2 * k)).
    - rewrite plus_IZR, mult_IZR, Z.add_0_r. change (bpow radix2 (-1)) with (/ 2). field.
    - rewrite X, mult_IZR. change (bpow radix2 (- -1)) with 2. lra. }
  rewrite D, Z.add_0_r, nearest_half. reflexivity.
Qed.

(** ** Fractions *)
Lemma fraction_bounds k n : (k <= n)%nat -> (0 < n)%nat -> 0 <= INR k / INR n <= 1.
Proof.
  intros H N. apply le_INR in H. apply lt_INR in N. simpl in N. assert (K := pos_INR k). split.
  - apply Rmult_le_pos; [assumption | apply Rlt_le, Rinv_0_lt_compat; assumption].
  - apply Rmult_le_reg_r with (INR n); [assumption |]. unfold Rdiv. rewrite Rmult_assoc, Rinv_l; lra.
Qed.
Lemma double_unit x : 0 <= x <= 1 -> 0 <= double x <= 1.
Proof.
  intros H. rewrite <- (double_int 0), <- (double_int 1) by (vm_compute; reflexivity). split; apply double_le; simpl; lra.
Qed.
Lemma gap k n k' n' : (0 < n)%nat -> (0 < n')%nat -> (k * n' < k' * n)%nat -> / INR (n * n') <= INR k' / INR n' - INR k / INR n.
Proof.
  intros N N' H. apply lt_INR in N, N'. simpl in N, N'. assert (G : (k * n' + 1 <= k' * n)%nat) by lia. apply le_INR in G.
  rewrite plus_INR, !mult_INR in G. simpl in G.
  replace (INR k' / INR n' - INR k / INR n) with ((INR k' * INR n - INR k * INR n') * / INR (n * n')) by (rewrite mult_INR; field; lra).
  rewrite <- (Rmult_1_l (/ INR (n * n'))) at 1. apply Rmult_le_compat_r; [| lra].
  apply Rlt_le, Rinv_0_lt_compat. rewrite mult_INR. apply Rmult_lt_0_compat; assumption.
Qed.
Lemma gap_pow n p : (0 < n)%nat -> (Z.of_nat n < 2 ^ p)%Z -> (0 <= p)%Z -> bpow radix2 (- p) < / INR n.
Proof.
  intros N H P. rewrite bpow_opp. apply Rinv_lt_contravar.
  - apply Rmult_lt_0_compat; [apply (lt_INR 0); assumption | apply bpow_gt_0].
  - rewrite INR_IZR_INZ, <- IZR_Zpower by assumption. apply IZR_lt. assumption.
Qed.
Lemma fraction_le k n k' n' : (0 < n)%nat -> (0 < n')%nat -> (k' * n <= k * n')%nat -> INR k' / INR n' <= INR k / INR n.
Proof.
  intros N N' H. apply lt_INR in N, N'. simpl in N, N'. apply le_INR in H. rewrite !mult_INR in H.
  apply Rmult_le_reg_r with (INR n' * INR n); [apply Rmult_lt_0_compat; assumption |].
  replace (INR k' / INR n' * (INR n' * INR n)) with (INR k' * INR n) by (field; lra).
  replace (INR k / INR n * (INR n' * INR n)) with (INR k * INR n') by (field; lra). assumption.
Qed.
Lemma double_fraction_lt k n k' n' : (k <= n)%nat -> (k' <= n')%nat -> (0 < n)%nat -> (0 < n')%nat -> (Z.of_nat (n * n') < 2 ^ 52)%Z ->
  double (INR k / INR n) < double (INR k' / INR n') <-> (k * n' < k' * n)%nat.
Proof.
  intros K K' N N' B. split; intros H.
  - destruct (Nat.lt_ge_cases (k * n') (k' * n)) as [L | L]; [assumption |]. assert (D := double_le _ _ (fraction_le _ _ _ _ N N' L)). lra.
  - assert (G := gap _ _ _ _ N N' H). assert (P := gap_pow (n * n') 52 ltac:(nia) B ltac:(lia)).
    assert (F := fraction_bounds _ _ K N). assert (F' := fraction_bounds _ _ K' N').
    assert (E := double_error_unit (INR k / INR n) ltac:(rewrite Rabs_pos_eq; lra)).
    assert (E' := double_error_unit (INR k' / INR n') ltac:(rewrite Rabs_pos_eq; lra)).
    apply Rabs_le_inv in E, E'. change (- (52))%Z with (-52)%Z in P. rewrite bpow53 in E, E'. lra.
Qed.
Lemma rate_lt k n k' n' : (k <= n)%nat -> (k' <= n')%nat -> (0 < n)%nat -> (0 < n')%nat -> (Z.of_nat (n * n') < 2 ^ 51)%Z ->
  double (1 - double (INR k' / INR n')) < double (1 - double (INR k / INR n)) <-> (k * n' < k' * n)%nat.
Proof.
  intros K K' N N' B. split; intros H.
  - destruct (Nat.lt_ge_cases (k * n') (k' * n)) as [L | L]; [assumption |]. assert (D := double_le _ _ (fraction_le _ _ _ _ N N' L)).
    assert (D2 := double_le (1 - double (INR k / INR n)) (1 - double (INR k' / INR n')) ltac:(lra)). lra.
  - assert (G := gap _ _ _ _ N N' H). assert (P := gap_pow (n * n') 51 ltac:(nia) B ltac:(lia)).
    assert (F := fraction_bounds _ _ K N). assert (F' := fraction_bounds _ _ K' N').
    assert (U := double_unit _ F). assert (U' := double_unit _ F').
    assert (E := double_error_unit (INR k / INR n) ltac:(rewrite Rabs_pos_eq; lra)).
    assert (E' := double_error_unit (INR k' / INR n') ltac:(rewrite Rabs_pos_eq; lra)).
    assert (W := double_error_unit (1 - double (INR k / INR n)) ltac:(rewrite Rabs_pos_eq; lra)).
    assert (W' := double_error_unit (1 - double (INR k' / INR n')) ltac:(rewrite Rabs_pos_eq; lra)).
    apply Rabs_le_inv in E, E', W, W'. change (- (51))%Z with (-51)%Z in P. rewrite bpow53 in E, E', W, W'.
    assert (Q : bpow radix2 (-51) = bpow radix2 (-52) * 2) by (change (-51)%Z with (-52 + 1)%Z; rewrite bpow_plus; reflexivity). lra.
Qed.
Lemma double_fraction_ends k n : (k <= n)%nat -> (0 < n)%nat -> (Z.of_nat n < 2 ^ 52)%Z ->
  (double (INR k / INR n) = 1 <-> k = n) /\ (double (INR k / INR n) = 0 <-> k = 0%nat).
Proof.
  intros K N B.
  assert (O : double (INR n / INR n) = 1).
  { replace (INR n / INR n) with 1 by (field; apply not_0_INR; lia). apply (double_int 1). vm_compute. reflexivity. }
  assert (Z : double (INR 0 / INR n) = 0).
  { replace (INR 0 / INR n) with 0 by (simpl; unfold Rdiv; ring). apply (double_int 0). vm_compute. reflexivity. }
  assert (S := double_fraction_lt). split; split; intros H.
  - destruct (Nat.eq_dec k n) as [E | E]; [assumption |]. exfalso.
    assert (F := proj2 (S k n 1%nat 1%nat K ltac:(lia) N ltac:(lia) ltac:(rewrite Nat.mul_1_r; assumption)) ltac:(lia)).
    replace (INR 1 / INR 1) with (INR n / INR n) in F by (simpl; field; apply not_0_INR; lia). lra.
  - subst k. assumption.
  - destruct (Nat.eq_dec k 0) as [E | E]; [assumption |]. exfalso.
    assert (F := proj2 (S 0%nat 1%nat k n ltac:(lia) K ltac:(lia) N ltac:(rewrite Nat.mul_1_l; assumption)) ltac:(lia)).
    replace (INR 0 / INR 1) with (INR 0 / INR n) in F by (simpl; unfold Rdiv; ring). lra.
  - subst k. assumption.
Qed.
Lemma rate_ends k n : (k <= n)%nat -> (0 < n)%nat -> (Z.of_nat n < 2 ^ 51)%Z ->
  (double (1 - double (INR k / INR n)) = 0 <-> k = n) /\ (double (1 - double (INR k / INR n)) = 1 <-> k = 0%nat).
Proof.
  intros K N B. destruct (double_fraction_ends k n K N ltac:(lia)) as [O Z].
  assert (D0 : double 0 = 0) by (apply (double_int 0); vm_compute; reflexivity).
  assert (D1 : double 1 = 1) by (apply (double_int 1); vm_compute; reflexivity).
  assert (S := rate_lt). split; split; intros H.
  - destruct (Nat.eq_dec k n) as [E | E]; [assumption |]. exfalso.
    assert (F := proj2 (S k n 1%nat 1%nat K ltac:(lia) N ltac:(lia) ltac:(rewrite Nat.mul_1_r; assumption)) ltac:(lia)).
    replace (INR 1 / INR 1) with 1 in F by (simpl; field). rewrite D1, Rminus_diag_eq, D0 in F by reflexivity. lra.
  - apply O in H. rewrite H, Rminus_diag_eq by reflexivity. assumption.
  - destruct (Nat.eq_dec k 0) as [E | E]; [assumption |]. exfalso.
    assert (F := proj2 (S 0%nat 1%nat k n ltac:(lia) K ltac:(lia) N ltac:(rewrite Nat.mul_1_l; assumption)) ltac:(lia)).
    replace (INR 0 / INR 1) with 0 in F by (simpl; field). rewrite D0, Rminus_0_r, D1 in F. lra.
  - apply Z in H. rewrite H, Rminus_0_r. assumption.
Qed.

(** ** The bins *)
Lemma double_error_relative x : bpow radix2 (-1022) <= Rabs x -> Rabs (double x - x) <= Rabs x * bpow radix2 (-53).
Proof.
  intros H. eapply Rle_trans; [apply double_error |].
  assert (U : ulp radix2 fexp x <= Rabs x * bpow radix2 (1 - 53)) by (apply ulp_FLT_le; exact H).
  rewrite bpow53. change (1 - 53)%Z with (-52)%Z in U. lra.
Qed.
Lemma double_idem x : double (double x) = double x.
Proof. unfold double. apply round_generic; auto with typeclass_instances. apply generic_format_round; auto with typeclass_instances. Qed.
Lemma double_zero : double 0 = 0.
Proof. apply (double_int 0). vm_compute. reflexivity. Qed.
Lemma bins_count K s : bpow radix2 (-1022) <= s -> (Z.of_nat K + 1 < 2 ^ 51)%Z ->
  Zceil (double (double (double (INR K * s + s) - 0) / s)) = (Z.of_nat K + 1)%Z \/
  Zceil (double (double (double (INR K * s + s) - 0) / s)) = (Z.of_nat K + 2)%Z.
Proof.
  intros Hs HK. assert (P := bpow_gt_0 radix2 (-1022)). rewrite Rminus_0_r, double_idem.
  replace (INR K * s + s) with ((INR K + 1) * s) by ring. set (t := (INR K + 1) * s). assert (K0 := pos_INR K).
  assert (T : s <= t) by (unfold t; assert (0 <= INR K * s) by (apply Rmult_le_pos; lra); lra).
  assert (E := double_error_relative t ltac:(rewrite Rabs_pos_eq; lra)). rewrite (Rabs_pos_eq t) in E by lra. apply Rabs_le_inv in E.
  assert (L : INR K + 1 < bpow radix2 51).
  { rewrite INR_IZR_INZ, <- plus_IZR. change (bpow radix2 51) with (IZR (2 ^ 51)). apply IZR_lt. assumption. }
  assert (B : (INR K + 1) * bpow radix2 (-53) < / 2).
  { apply Rlt_trans with (bpow radix2 51 * bpow radix2 (-53)); [apply Rmult_lt_compat_r; [apply bpow_gt_0 | assumption] |].
    rewrite <- bpow_plus. simpl. lra. }
  assert (Z1 : IZR (Z.of_nat K) + / 2 <= double t / s <= IZR (Z.of_nat K + 1) + / 2).
  { rewrite plus_IZR, <- INR_IZR_INZ. simpl (IZR 1). 
    assert (I : 0 < / s) by (apply Rinv_0_lt_compat; lra).
    assert (Q : double t / s = INR K + 1 + (double t - t) * / s) by (unfold t; field; lra). rewrite Q.
    assert (D : Rabs ((double t - t) * / s) <= (INR K + 1) * bpow radix2 (-53)).
    { rewrite Rabs_mult, (Rabs_pos_eq (/ s)) by lra. apply Rmult_le_reg_r with s; [lra |]. rewrite Rmult_assoc, Rinv_l, Rmult_1_r by lra.
      apply Rabs_le. replace ((INR K + 1) * bpow radix2 (-53) * s) with (t * bpow radix2 (-53)) by (unfold t; ring). lra. }
    apply Rabs_le_inv in D. lra. }
  assert (Z2 : IZR (Z.of_nat K) + / 2 <= double (double t / s) <= IZR (Z.of_nat K + 1) + / 2).
  { rewrite <- (double_half (Z.of_nat K)), <- (double_half (Z.of_nat K + 1)) by lia. split; apply double_le; lra. }
  assert (C1 : (Z.of_nat K < Zceil (double (double t / s)))%Z).
  { apply lt_IZR. apply Rlt_le_trans with (double (double t / s)); [lra | apply Zceil_ub]. }
  assert (C2 : (Zceil (double (double t / s)) <= Z.of_nat K + 2)%Z).
  { apply Zceil_glb. rewrite !plus_IZR in *. simpl in *. lra. }
  lia.
Qed.
Lemma arange64_last stop s n : double s = s -> Z.to_nat (Zceil (double (double (stop - 0) / s))) = S n ->
  length (arange64 0 stop s) = S n /\ last (arange64 0 stop s) 0 = double (INR n * s).
Proof.
  intros D E. unfold arange64. rewrite E, map_length, seq_length. split; [reflexivity |].
  rewrite Rplus_0_l, D, Rminus_0_r, D. replace (S n) with (n + 1)%nat by lia. rewrite seq_app, map_app. simpl (map _ (seq (0 + n) 1)). rewrite last_last.
  destruct n as [|[|n]].
  - simpl. rewrite Rmult_0_l, double_zero. reflexivity.
  - simpl. rewrite Rmult_1_l. symmetry. exact D.
  - simpl Nat.eqb. cbv iota. rewrite Rplus_0_l, double_idem. reflexivity.
Qed.

(** 0.05 and 0.1 as doubles. *)
Definition m05 : Z := 3602879701896397.
Definition d05 : R := IZR m05 * bpow radix2 (-56).
Definition d10 : R := IZR m05 * bpow radix2 (-55).
Lemma d10_eq : d10 = INR 2 * d05.
Proof. unfold d10, d05. change (-55)%Z with (-56 + 1)%Z. rewrite bpow_plus. simpl (bpow radix2 1). simpl INR. change (IZR (Z.pow_pos 2 1)) with 2. ring. Qed.
Lemma d05_double : double d05 = d05.
Proof. apply (double_exact m05 (-56)); [reflexivity | reflexivity | lia]. Qed.
Lemma d10_double : double d10 = d10.
Proof. apply (double_exact m05 (-55)); [reflexivity | reflexivity | lia]. Qed.
Lemma double_value m e x p : (-1021 <= p)%Z -> bpow radix2 (p - 1) <= x < bpow radix2 p -> e = (p - 53)%Z ->
  ZnearestE (x * bpow radix2 (- e)) = m -> double x = IZR m * bpow radix2 e.
Proof.
  intros Hp B He H. assert (M : mag_val radix2 x (mag radix2 x) = p).
  { apply mag_unique. rewrite Rabs_pos_eq; [exact B |]. destruct B as [B _]. eapply Rle_trans; [| exact B]. apply bpow_ge_0. }
  unfold double, round, F2R, scaled_mantissa, cexp. rewrite M. assert (F : fexp p = e) by (unfold FLT_exp; lia). rewrite F.
  simpl Fnum. simpl Fexp. rewrite H. reflexivity.
Qed.
Lemma bpow_neg56 : bpow radix2 (-56) = / IZR (2 ^ 56). Proof. reflexivity. Qed.
Lemma bpow_neg55 : bpow radix2 (-55) = / IZR (2 ^ 55). Proof. reflexivity. Qed.
(** 0.1 + 0.05 is 0.15000000000000002, *)
Lemma d15 : double (INR 2 * d05 + d05) = IZR 5404319552844596 * bpow radix2 (-55).
Proof.
  assert (X : INR 2 * d05 + d05 = (IZR 5404319552844595 + / 2) * bpow radix2 (-55)).
  { unfold d05, m05. rewrite bpow_neg56, bpow_neg55. simpl INR. simpl (2 ^ 56)%Z. simpl (2 ^ 55)%Z. lra. }
  rewrite X. apply double_value with (-2)%Z; [lia | | reflexivity |].
  - rewrite bpow_neg55. change (bpow radix2 (-2 - 1)) with (/ 8). change (bpow radix2 (-2)) with (/ 4). simpl (2 ^ 55)%Z. lra.
  - rewrite Rmult_assoc, <- bpow_plus. simpl (bpow _ _). rewrite Rmult_1_r, nearest_half. reflexivity.
Qed.
(** and divided by 0.05 it is above 3. *)
Lemma d15_bins : Zceil (double (double (double (INR 2 * d05 + d05) - 0) / d05)) = 4%Z.
Proof.
  rewrite Rminus_0_r, double_idem, d15.
  assert (Q : IZR 5404319552844596 * bpow radix2 (-55) / d05 = IZR 10808639105689192 / IZR m05).
  { unfold d05. change (-55)%Z with (-56 + 1)%Z. rewrite bpow_plus. change (bpow radix2 1) with 2.
    replace (IZR 10808639105689192) with (IZR 5404319552844596 * 2) by lra. assert (B := bpow_gt_0 radix2 (-56)).
    generalize dependent (bpow radix2 (-56)). intros c C. assert (M : IZR m05 <> 0) by (unfold m05; lra). generalize dependent (IZR m05).
    intros m M. field. lra. }
  rewrite Q. rewrite (double_value (3 * 2 ^ 51 + 1) (-51) _ 2); [| lia | | reflexivity |].
  - change (bpow radix2 (-51)) with (/ IZR (2 ^ 51)). apply Zceil_imp. simpl. lra.
  - change (bpow radix2 (2 - 1)) with 2. change (bpow radix2 2) with 4. unfold m05. lra.
  - change (bpow radix2 (- -51)) with (IZR (2 ^ 51)). apply (nearest_high _ (3 * 2 ^ 51)). unfold m05. simpl. lra.
Qed.
