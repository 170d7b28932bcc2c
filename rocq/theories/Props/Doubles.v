(** C107: double precision does not change the iteration budget nor the ranking of failure rates. *)
From Coq Require Import List ZArith QArith Reals Qreals Lra Lia.
From Flocq Require Import Core.
From Verif.Model Require Import Py Stats Checks Doubles.
From Verif.Spec Require Import Stats Doubles.
From Verif.Proofs Require Import Doubles.
From Verif.Proofs Require Stats Ensemble.
Import ListNotations.
Local Open Scope R_scope.

(** The budget computed in double precision is the exactly rounded one, for every budget below 2^52 and every number of
    scales. *)
Theorem c107_budget : forall m n, (1 <= n)%nat -> (Z.abs m < 2 ^ 52)%Z -> check_max_iters (PInt m) n = Ok (split64 m n).
Proof.
  intros m n N M. unfold check_max_iters, split64, np_round. destruct (quotient_rounds m (Z.of_nat n) M ltac:(lia)) as [-> _]. reflexivity.
Qed.
Print Assumptions c107_budget.
Theorem c107_budget_limit : exists m n, (Z.abs m < 2 ^ 53)%Z /\ (1 <= n)%nat /\ check_max_iters (PInt m) n <> Ok (split64 m n).
Proof.
  exists (3 * (2 ^ 51 + 1) + 1)%Z, 3%nat. split; [reflexivity |]. split; [lia |]. unfold check_max_iters, split64, np_round.
  change (Z.of_nat 3) with 3%Z. destruct budget_limit as [-> ->]. intros H. assert (E := f_equal (fun r => match r with Ok (x :: _) => x | _ => 0%Z end) H). discriminate E.
Qed.
Print Assumptions c107_budget_limit.

Lemma cumulative_nth errors bins out i b v k n :
  cumulative64 errors bins = Ok out -> nth_error bins i = Some b -> nth_error out i = Some v -> below errors b k n ->
  v = double (INR k / INR n) /\ (k <= n)%nat /\ (0 < n)%nat.
Proof.
  unfold cumulative64. destruct (compute_cumulative_error errors bins) as [qs|] eqn:E; [| discriminate]. cbn [bind]. intros H Hb Hv [C ->].
  assert (out = map (fun q => double (Q2R q)) qs) by congruence. subst out. clear H. unfold compute_cumulative_error in E.
  destruct (Proofs.Ensemble.mapM_nth _ _ _ _ _ E Hb) as [q [Eq Hq]]. rewrite nth_error_map, Hq in Hv. simpl in Hv.
  assert (v = double (Q2R q)) by congruence. subst v. clear Hv.
  assert (L : less_equal errors b = Ok (map (fun e => Qle_bool e (bin_value b)) (err_items errors))).
  { destruct errors, b; try reflexivity. discriminate Eq. }
  rewrite L in Eq. cbn [bind] in Eq.
  assert (K : forall l j, counts (fun e => (e <= bin_value b)%Q) l j -> count_nonzero (map (fun e => Qle_bool e (bin_value b)) l) = j /\ (j <= length l)%nat).
  { induction 1 as [| x l j P _ [IH B] | x l j P _ [IH B]]; [split; auto | |]; unfold count_nonzero in *; simpl.
    - apply Qle_bool_iff in P. rewrite P. simpl. rewrite IH. split; lia.
    - destruct (Qle_bool x (bin_value b)) eqn:F; [apply Qle_bool_iff in F; contradiction |]. rewrite IH. split; lia. }
  destruct (K _ _ C) as [E1 E2]. rewrite E1 in Eq. destruct (length (err_items errors)) as [|n'] eqn:N; [discriminate |].
  assert (I : forall z, Q2R (inject_Z z) = IZR z) by (intros z; unfold Q2R; simpl; field).
  split; [| split; lia]. f_equal. assert (q = (inject_Z (Z.of_nat k) / inject_Z (Z.of_nat (S n')))%Q) as -> by congruence.
  rewrite Q2R_div, !I, <- !INR_IZR_INZ; [reflexivity |]. unfold Qeq, inject_Z. simpl. lia.
Qed.

(** The values of two cumulative error curves, whatever the numbers of their errors (the product of both below 2^52), are
    ordered as the fractions they stand for; they lie between 0 and 1 and are 1, or 0, only when all, or no, errors are below
    the bin. *)
Theorem c107_curves : forall errors bins out i b v k n errors' bins' out' i' b' v' k' n',
  cumulative64 errors bins = Ok out -> nth_error bins i = Some b -> nth_error out i = Some v -> below errors b k n ->
  cumulative64 errors' bins' = Ok out' -> nth_error bins' i' = Some b' -> nth_error out' i' = Some v' -> below errors' b' k' n' ->
  (Z.of_nat (n * n') < 2 ^ 52)%Z ->
  (v < v' <-> (k * n' < k' * n)%nat) /\ 0 <= v <= 1 /\ (v = 1 <-> k = n) /\ (v = 0 <-> k = 0%nat).
Proof.
  intros errors bins out i b v k n errors' bins' out' i' b' v' k' n' H Hb Hv B H' Hb' Hv' B' L.
  destruct (cumulative_nth _ _ _ _ _ _ _ _ H Hb Hv B) as (-> & K & N). destruct (cumulative_nth _ _ _ _ _ _ _ _ H' Hb' Hv' B') as (-> & K' & N').
  split; [apply double_fraction_lt; assumption |]. split; [apply double_unit, fraction_bounds; assumption |].
  apply double_fraction_ends; [assumption | assumption | nia].
Qed.
Print Assumptions c107_curves.

Lemma failed_below errors b f n : failed errors b f n -> (f <= n)%nat /\ below errors b (n - f) n.
Proof.
  intros [C ->].
  assert (K : (f <= length (err_items errors))%nat /\ counts (fun e => (e <= bin_value b)%Q) (err_items errors) (length (err_items errors) - f)).
  { induction C as [| x l j P _ [B IH] | x l j P _ [B IH]]; cbn [length].
    - split; [lia | constructor].
    - split; [lia |]. apply counts_no; [| assumption]. apply Qlt_not_le. assumption.
    - split; [lia |]. replace (S (length l) - j)%nat with (S (length l - j)) by lia. apply counts_yes; [apply Qnot_lt_le; assumption | assumption]. }
  destruct K as [K1 K2]. split; [assumption |]. split; [assumption | reflexivity].
Qed.
Lemma last_nth {A} (l : list A) x d : last l d = x -> l <> [] -> nth_error l (length l - 1) = Some x.
Proof.
  intros E N. destruct (exists_last N) as [t [y ->]]. rewrite last_last in E. subst y.
  rewrite app_length. simpl. rewrite Nat.add_sub. rewrite nth_error_app2 by lia. rewrite Nat.sub_diag. reflexivity.
Qed.

(** Failure rates, which are rounded twice, rank two methods as the fractions of their failed images do (the product of the
    numbers of images below 2^51); a rate is 0, or 1, only when no, or every, image failed. *)
Theorem c107_failure_rates : forall errors bins out b f n errors' bins' out' b' f' n',
  cumulative64 errors (bins ++ [b]) = Ok out -> failed errors b f n ->
  cumulative64 errors' (bins' ++ [b']) = Ok out' -> failed errors' b' f' n' ->
  (Z.of_nat (n * n') < 2 ^ 51)%Z ->
  (failure_rate64 out < failure_rate64 out' <-> (f * n' < f' * n)%nat) /\ 0 <= failure_rate64 out <= 1 /\
  (failure_rate64 out = 0 <-> f = 0%nat) /\ (failure_rate64 out = 1 <-> f = n).
Proof.
  assert (A : forall errors bins out b f n, cumulative64 errors (bins ++ [b]) = Ok out -> failed errors b f n ->
    failure_rate64 out = double (1 - double (INR (n - f) / INR n)) /\ (f <= n)%nat /\ (0 < n)%nat).
  { intros errors bins out b f n H F. destruct (failed_below _ _ _ _ F) as [L B].
    assert (Len : length out = length (bins ++ [b])).
    { unfold cumulative64 in H. destruct (compute_cumulative_error errors (bins ++ [b])) as [qs|] eqn:E; [| discriminate]. cbn [bind] in H.
      assert (out = map (fun q => double (Q2R q)) qs) by congruence. subst out. rewrite map_length. apply (Proofs.Ensemble.mapM_length _ _ _ E). }
    rewrite app_length in Len. simpl in Len. assert (Ne : out <> []) by (intros ->; simpl in Len; lia).
    assert (Hl := last_nth out (last out 0) 0 eq_refl Ne).
    assert (Hb : nth_error (bins ++ [b]) (length out - 1) = Some b).
    { rewrite Len, Nat.add_sub, nth_error_app2, Nat.sub_diag by lia. reflexivity. }
    destruct (cumulative_nth _ _ _ _ _ _ _ _ H Hb Hl B) as (E & K & N). unfold failure_rate64. rewrite E. auto. }
  intros errors bins out b f n errors' bins' out' b' f' n' H F H' F' L.
  destruct (A _ _ _ _ _ _ H F) as (-> & Hf & N). destruct (A _ _ _ _ _ _ H' F') as (-> & Hf' & N').
  split.
  - rewrite (rate_lt (n' - f') n' (n - f) n) by (try lia; rewrite Nat.mul_comm; assumption). nia.
  - split; [apply double_unit; assert (U := double_unit _ (fraction_bounds (n - f) n ltac:(lia) N)); lra |].
    assert (LN : (Z.of_nat n < 2 ^ 51)%Z) by nia. destruct (rate_ends (n - f) n ltac:(lia) N LN) as [R0 R1]. rewrite R0, R1. lia.
Qed.
Print Assumptions c107_failure_rates.

(** C19 in double precision, for a range that is exactly a multiple of the step: with exact numbers the last bin is max_error;
    in double precision it is max_error or one step further. *)
Theorem c19_double_bins_partial : forall K step, bpow radix2 (-1022) <= step -> (Z.of_nat K + 1 < 2 ^ 51)%Z ->
  double step = step -> double (INR K * step) = INR K * step ->
  let bins := bins64 0 (INR K * step) step in
  (length bins = (K + 1)%nat /\ last bins 0 = INR K * step) \/ (length bins = (K + 2)%nat /\ last bins 0 = double (INR K * step + step)).
Proof.
  intros K s Hs HK Ds Dm. unfold bins64. destruct (bins_count K s Hs HK) as [E | E].
  - left. destruct (arange64_last (double (INR K * s + s)) s K Ds) as [-> ->]; [rewrite E; lia |]. split; [lia | assumption].
  - right. destruct (arange64_last (double (INR K * s + s)) s (S K) Ds) as [-> ->]; [rewrite E; lia |]. split; [lia |].
    rewrite S_INR. f_equal. ring.
Qed.
Print Assumptions c19_double_bins_partial.
(** It is one step further for step_error = 0.05 and max_error = 0.1, which is exactly twice the former, also as doubles: an
    image with error 0.125 does not count as a failure. *)
Theorem c19_double_overshoot_refuted : exists step max e,
  (double step = step /\ double max = max /\ double e = e) /\ (/ 20 - / 10 ^ 17 < step < / 20 + / 10 ^ 17) /\ max = 2 * step /\ 0 < max < e /\
  failure64 [e] step max 0 = 0.
Proof.
  exists d05, d10, (/ 8). assert (X : d10 = 2 * d05) by (rewrite d10_eq; reflexivity).
  assert (V : d05 = IZR m05 / IZR (2 ^ 56)) by (unfold d05; rewrite bpow_neg56; reflexivity).
  assert (R : / 20 - / 10 ^ 17 < d05 < / 20 + / 10 ^ 17).
  { rewrite V. unfold m05. simpl (2 ^ 56)%Z. replace (10 ^ 17) with 100000000000000000 by (simpl; ring). lra. }
  assert (P : 0 < d10 < / 8) by (rewrite X, V; unfold m05; simpl (2 ^ 56)%Z; lra).
  split; [split; [exact d05_double | split; [exact d10_double |]] |].
  { apply (double_exact 1 (-3)); [simpl; lra | lia | lia]. }
  split; [exact R |]. split; [exact X |]. split; [exact P |].
  unfold failure64, bins64. rewrite d10_eq.
  destruct (arange64_last (double (INR 2 * d05 + d05)) d05 3 d05_double) as [_ ->]; [rewrite d15_bins; reflexivity |].
  assert (L : / 8 <= double (INR 3 * d05)).
  { replace (INR 3 * d05) with (INR 2 * d05 + d05) by (simpl; ring). rewrite d15, bpow_neg55. simpl (2 ^ 55)%Z. lra. }
  cbn [filter]. rewrite (Rle_bool_true _ _ L). cbn [length]. replace (INR 1 / INR 1) with 1 by (simpl; field).
  rewrite (double_int 1) by reflexivity. rewrite Rminus_diag_eq by reflexivity. exact double_zero.
Qed.
Print Assumptions c19_double_overshoot_refuted.

(** ** Concrete cases *)
(** 20 iterations over 3 scales: 7 each, although 20 / 3 is not a double. *)
Example c107_budget_ex : split64 20 3 = [7; 7; 7]%Z.
Proof. assert (E := c107_budget 20 3 ltac:(lia) ltac:(reflexivity)). cbv [check_max_iters round_half_even_div repeat] in E. simpl in E. congruence. Qed.
(** One of three images fails with the first method and two of four with the second; 1 / 3 is not a double. *)
Example c107_rates_ex : exists out out',
  cumulative64 (EArray [1; 5; 2]%Q) ([BPy 1] ++ [BPy 3]) = Ok out /\ failed (EArray [1; 5; 2]%Q) (BPy 3) 1 3 /\
  cumulative64 (EArray [4; 1; 2; 9]%Q) ([] ++ [BPy 3]) = Ok out' /\ failed (EArray [4; 1; 2; 9]%Q) (BPy 3) 2 4 /\
  failure_rate64 out < failure_rate64 out'.
Proof.
  assert (F1 : failed (EArray [1; 5; 2]%Q) (BPy 3) 1 3).
  { split; [| reflexivity]. apply counts_no; [discriminate |]. apply counts_yes; [reflexivity |]. apply counts_no; [discriminate |]. constructor. }
  assert (F2 : failed (EArray [4; 1; 2; 9]%Q) (BPy 3) 2 4).
  { split; [| reflexivity]. apply counts_yes; [reflexivity |]. apply counts_no; [discriminate |]. apply counts_no; [discriminate |].
    apply counts_yes; [reflexivity |]. constructor. }
  do 2 eexists. split; [reflexivity |]. split; [exact F1 |]. split; [reflexivity |]. split; [exact F2 |].
  apply (c107_failure_rates (EArray [1; 5; 2]%Q) [BPy 1] _ (BPy 3) 1 3 (EArray [4; 1; 2; 9]%Q) [] _ (BPy 3) 2 4 eq_refl F1 eq_refl F2); [reflexivity | lia].
Qed.
(** step_error = 2^-7 and max_error = 2^-3. *)
Example c19_double_bins_ex : bpow radix2 (-1022) <= bpow radix2 (-7) /\ double (bpow radix2 (-7)) = bpow radix2 (-7) /\
  double (INR 16 * bpow radix2 (-7)) = INR 16 * bpow radix2 (-7).
Proof.
  split; [apply bpow_le; lia |]. split; [apply (double_exact 1 (-7)); [ring | reflexivity | lia] |].
  apply (double_exact 16 (-7)); [rewrite INR_IZR_INZ; reflexivity | reflexivity | lia].
Qed.
