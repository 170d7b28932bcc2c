(** The ASM error at the centre of the window, for every window. *)
From Coq Require Import List ZArith Reals Lra Lia.
From Verif.Model Require Import Base.
From Verif.Proofs Require Import Base.
Import ListNotations.
Local Open Scope nat_scope.

Lemma mgrid_cons lo hi : (lo < hi)%Z -> mgrid_axis lo hi = lo :: mgrid_axis (lo + 1) hi.
Proof.
  intros H. unfold mgrid_axis. replace (Z.to_nat (hi - lo)) with (S (Z.to_nat (hi - (lo + 1)))) by lia.
  cbn [seq map]. f_equal; [lia|]. rewrite <- seq_shift, map_map. apply map_ext. intros k. lia.
Qed.
Lemma mgrid_snoc lo hi : (lo <= hi)%Z -> mgrid_axis lo (hi + 1) = mgrid_axis lo hi ++ [hi].
Proof.
  intros H. unfold mgrid_axis. replace (Z.to_nat (hi + 1 - lo)) with (Z.to_nat (hi - lo) + 1) by lia.
  rewrite seq_app, map_app. cbn. do 2 f_equal. lia.
Qed.
Definition axis (m : nat) : list Z := mgrid_axis (- Z.of_nat m) (Z.of_nat m + 1).
Lemma axis_S F m : (sumR F (axis (S m)) = F (- Z.of_nat (S m))%Z + sumR F (axis m) + F (Z.of_nat (S m)))%R.
Proof.
  unfold axis. rewrite mgrid_cons by lia. replace (- Z.of_nat (S m) + 1)%Z with (- Z.of_nat m)%Z by lia.
  replace (Z.of_nat (S m) + 1)%Z with (Z.of_nat m + 1 + 1)%Z by lia. rewrite mgrid_snoc by lia.
  cbn [sumR fold_right]. fold (sumR F). change (fold_right _ 0%R ?l) with (sumR F l). rewrite sumR_app. cbn.
  replace (Z.of_nat m + 1)%Z with (Z.pos (Pos.of_succ_nat m)) by lia. lra.
Qed.
Lemma sum_odd F m : (forall y, F (- y)%Z = - F y)%R -> sumR F (axis m) = 0%R.
Proof.
  intros H. induction m as [|m IH].
  - change (axis 0) with [0%Z]. cbn [sumR fold_right]. specialize (H 0%Z). change (- 0)%Z with 0%Z in H. lra.
  - rewrite axis_S, IH, H. lra.
Qed.
Section Kernel.
  Variable f : Z -> R.
  Hypothesis f_pos : forall y, (0 < f y)%R.
  Hypothesis f_even : forall y, f (- y)%Z = f y.
  Hypothesis f_dec : forall y z, (0 <= y < z)%Z -> (f z < f y)%R.

  Lemma f_dec_abs y z : (Z.abs y < Z.abs z)%Z -> (f z < f y)%R.
  Proof.
    intros H. assert (A : forall x, f x = f (Z.abs x)).
    { intros x. destruct (Z.abs_spec x) as [[_ ->]|[_ ->]]; [reflexivity|]. symmetry. apply f_even. }
    rewrite (A y), (A z). apply f_dec. lia.
  Qed.
  Lemma moment_even (m : nat) : 0 < m -> (sumR (fun y => f y * IZR y)%R (mgrid_axis (- Z.of_nat m) (Z.of_nat m)) < 0)%R.
  Proof.
    intros H. destruct m as [|m]; [lia|]. rewrite mgrid_cons by lia.
    replace (- Z.of_nat (S m) + 1)%Z with (- Z.of_nat m)%Z by lia. replace (Z.of_nat (S m)) with (Z.of_nat m + 1)%Z by lia.
    cbn [sumR fold_right]. change (fold_right _ 0%R ?l) with (sumR (fun y => f y * IZR y)%R (axis m)).
    rewrite (sum_odd (fun y => f y * IZR y)%R m); [|intros y; rewrite f_even, opp_IZR; lra].
    assert (P : (IZR (- (Z.of_nat m + 1)) < 0)%R) by (apply IZR_lt; lia).
    pose proof (f_pos (- (Z.of_nat m + 1))). nra.
  Qed.
  Lemma moment_shifted (m : nat) : 0 < m -> (0 < sumR (fun y => f (y - 1)%Z * IZR y)%R (axis m))%R.
  Proof.
    assert (G : forall m : nat, (0 <= sumR (fun y => f (y - 1)%Z * IZR y)%R (axis m))%R /\ (0 < m -> (0 < sumR (fun y => f (y - 1)%Z * IZR y)%R (axis m))%R)).
    2: intros H; apply (G m); exact H.
    clear m. induction m as [|m [IH _]].
    - split; [|lia]. change (axis 0) with [0%Z]. cbn [sumR fold_right]. lra.
    - assert (P : (0 < sumR (fun y => f (y - 1)%Z * IZR y)%R (axis (S m)))%R); [|split; [lra|auto]].
      rewrite axis_S. rewrite opp_IZR.
      assert (P : (f (- Z.of_nat (S m) - 1)%Z < f (Z.of_nat (S m) - 1)%Z)%R) by (apply f_dec_abs; lia).
      assert (Q : (0 < IZR (Z.of_nat (S m)))%R) by (apply IZR_lt; lia).
      nra.
  Qed.

  (** The error along the rows depends on the height only. *)
  Lemma sum_prod (F G : Z -> R) rows cols : sumR (fun g : Z * Z => F (fst g) * G (snd g))%R (concat (map (fun y => map (fun x => (y, x)) cols) rows))
    = (sumR F rows * sumR G cols)%R.
  Proof.
    rewrite sumR_grid. cbn [fst snd]. rewrite (sumR_ext _ (fun y => sumR G cols * F y)%R); [rewrite sumR_scal; apply Rmult_comm|].
    intros y _. rewrite sumR_scal. apply Rmult_comm.
  Qed.
  Definition shift (z : Z) : Z := if (z mod 4 =? 3)%Z then 1%Z else 0%Z.
  Definition weights (z : Z) : R := sumR (fun y => f (y - shift z)%Z) (mgrid_axis (- (z / 2)) (z / 2 + z mod 2)).
  Definition moment (z : Z) : R := sumR (fun y => f (y - shift z)%Z * IZR y)%R (mgrid_axis (- (z / 2)) (z / 2 + z mod 2)).
  Lemma weights_pos z : (0 < z)%Z -> (0 < weights z)%R.
  Proof.
    intros H. unfold weights. apply sumR_pos; [intros; apply f_pos|].
    pose proof (Z.div_mod z 2 ltac:(lia)). pose proof (Z.mod_pos_bound z 2 ltac:(lia)). rewrite mgrid_cons by lia. discriminate.
  Qed.
  Lemma asm_weight_shift h w g : asm_weight (fun y x => f y * f x)%R h w (h / 2, w / 2)%Z g = (f (fst g - shift h)%Z * f (snd g - shift w)%Z)%R.
  Proof.
    unfold asm_weight, shift. rewrite !round_half_mod4. cbn [fst snd].
    destruct (h mod 4 =? 3)%Z, (w mod 4 =? 3)%Z; do 2 f_equal; lia.
  Qed.
  Lemma asm_error_fst h w target : (0 < h)%Z -> (0 < w)%Z ->
    asm_error (fun y x => f y * f x)%R h w (h / 2, w / 2)%Z fst target = (- (moment h / weights h))%R.
  Proof.
    intros Hh Hw. pose proof (weights_pos h Hh). pose proof (weights_pos w Hw).
    assert (T : sumR (asm_weight (fun y x => f y * f x)%R h w (h / 2, w / 2)%Z) (concat (build_grid h w)) = (weights h * weights w)%R).
    { rewrite (sumR_ext _ _ _ (fun g _ => asm_weight_shift h w g)). unfold build_grid. apply (sum_prod (fun y => f (y - shift h)%Z) (fun x => f (x - shift w)%Z)). }
    rewrite asm_error_eq by (rewrite T; nra). rewrite T.
    rewrite (sumR_ext _ (fun g => (f (fst g - shift h)%Z * IZR (fst g)) * f (snd g - shift w)%Z)%R) by (intros g _; rewrite asm_weight_shift; ring).
    unfold build_grid. rewrite (sum_prod (fun y => f (y - shift h)%Z * IZR y)%R (fun x => f (x - shift w)%Z)). fold (moment h) (weights w). field. lra.
  Qed.
  Lemma asm_error_snd h w target : (0 < h)%Z -> (0 < w)%Z ->
    asm_error (fun y x => f y * f x)%R h w (h / 2, w / 2)%Z snd target = (- (moment w / weights w))%R.
  Proof.
    intros Hh Hw. pose proof (weights_pos h Hh). pose proof (weights_pos w Hw).
    assert (T : sumR (asm_weight (fun y x => f y * f x)%R h w (h / 2, w / 2)%Z) (concat (build_grid h w)) = (weights h * weights w)%R).
    { rewrite (sumR_ext _ _ _ (fun g _ => asm_weight_shift h w g)). unfold build_grid. apply (sum_prod (fun y => f (y - shift h)%Z) (fun x => f (x - shift w)%Z)). }
    rewrite asm_error_eq by (rewrite T; nra). rewrite T.
    rewrite (sumR_ext _ (fun g => f (fst g - shift h)%Z * (f (snd g - shift w)%Z * IZR (snd g)))%R) by (intros g _; rewrite asm_weight_shift; ring).
    unfold build_grid. rewrite (sum_prod (fun y => f (y - shift h)%Z) (fun x => f (x - shift w)%Z * IZR x)%R). fold (moment w) (weights h). field. lra.
  Qed.
  Lemma moment_sign z : (0 < z)%Z ->
    ((z mod 4 = 1)%Z -> moment z = 0%R) /\ ((z mod 4 = 3)%Z -> (0 < moment z)%R) /\ ((z mod 2 = 0)%Z -> (moment z < 0)%R).
  Proof.
    intros Hz. pose proof (Z.div_mod z 4 ltac:(lia)) as D4. pose proof (Z.div_mod z 2 ltac:(lia)) as D2.
    pose proof (Z.mod_pos_bound z 4 ltac:(lia)) as B4. pose proof (Z.mod_pos_bound z 2 ltac:(lia)) as B2.
    assert (Hm : (z / 2)%Z = Z.of_nat (Z.to_nat (z / 2))) by (rewrite Z2Nat.id; [reflexivity|apply Z.div_pos; lia]).
    unfold moment, shift. split; [|split]; intros E.
    - rewrite E. cbn [Z.eqb Pos.eqb]. replace (z mod 2)%Z with 1%Z by lia. rewrite Hm. apply (sum_odd (fun y => f (y - 0)%Z * IZR y)%R).
      intros y. rewrite !Z.sub_0_r, f_even, opp_IZR. lra.
    - rewrite E. cbn [Z.eqb Pos.eqb]. replace (z mod 2)%Z with 1%Z by lia. rewrite Hm. apply moment_shifted. lia.
    - destruct (Z.eqb_spec (z mod 4) 3); [lia|]. rewrite E, Z.add_0_r, Hm.
      rewrite (sumR_ext _ (fun y => f y * IZR y)%R) by (intros; rewrite Z.sub_0_r; reflexivity). apply moment_even. lia.
  Qed.
  Lemma error_sign z : (0 < z)%Z ->
    ((z mod 4 = 1)%Z -> (- (moment z / weights z) = 0)%R) /\ ((z mod 4 = 3)%Z -> (- (moment z / weights z) < 0)%R) /\
    ((z mod 2 = 0)%Z -> (0 < - (moment z / weights z))%R).
  Proof.
    intros Hz. pose proof (weights_pos z Hz) as W. destruct (moment_sign z Hz) as (A & B & C).
    assert (V : (0 < / weights z)%R) by (apply Rinv_0_lt_compat; exact W). unfold Rdiv.
    split; [|split]; intros E.
    - rewrite (A E). lra.
    - specialize (B E). nra.
    - specialize (C E). nra.
  Qed.
End Kernel.
