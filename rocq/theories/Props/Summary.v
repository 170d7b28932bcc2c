(** C90: summaries of errors. *)
From Coq Require Import String List Reals Arith Bool Lia Lra Permutation QArith.
From Verif.Model Require Import Py ApsGraph Summary Stats.
From Verif.Spec Require Import ApsGraph Summary.
From Verif.Proofs Require Summary.
Import ListNotations.
Local Open Scope R_scope.

(** Several methods at once: each column holds what the method gets alone, in the order of the methods. *)
Theorem c90_methods : forall auc_fr ls, ls <> [] ->
  match compute_statistical_measures auc_fr (map Coll ls) with
  | Ok (Columns mean std median mad max auc fr) =>
      Forall (fun col => length col = length ls) [mean; std; median; mad; max; auc; fr] /\
      forall k l, nth_error ls k = Some l ->
        exists m, compute_statistical_measures auc_fr (map Num l) = Ok (Single m) /\
          nth_error mean k = Some (m_mean m) /\ nth_error std k = Some (m_std m) /\
          nth_error median k = Some (m_median m) /\ nth_error mad k = Some (m_mad m) /\
          nth_error max k = Some (m_max m) /\ nth_error auc k = Some (m_auc m) /\ nth_error fr k = Some (m_fr m)
  | Ok (Single _) => False
  | Err _ => exists l, In l ls /\ (l = [] \/ exists e, auc_fr l = Err e)
  end.
Proof.
  intros auc_fr ls Hne. destruct ls as [|l0 ls0]; [congruence|]. cbn [map compute_statistical_measures].
  change (Coll l0 :: map Coll ls0) with (map Coll (l0 :: ls0)). set (ls := l0 :: ls0).
  assert (HM : mapM (fun i => match i with Coll e => one_method auc_fr e | Num _ => Err TypeError end) (map Coll ls) =
               mapM (one_method auc_fr) ls).
  { clear. induction ls as [|l ls IH]; [reflexivity|]. cbn [map mapM]. now rewrite IH. }
  rewrite HM. destruct (mapM (one_method auc_fr) ls) as [ms|e] eqn:Hms; cbn [bind].
  - assert (Hlen : length ms = length ls /\ forall k l, nth_error ls k = Some l ->
              exists m, one_method auc_fr l = Ok m /\ nth_error ms k = Some m).
    { clear - Hms. revert ms Hms. induction ls as [|l ls IH]; intros ms H; cbn [mapM] in H.
      - injection H as <-. split; [reflexivity|]. intros [|k] l; discriminate.
      - destruct (one_method auc_fr l) as [m|] eqn:Hm; cbn [bind] in H; [|discriminate].
        destruct (mapM (one_method auc_fr) ls) as [ms'|] eqn:Hr; cbn [bind] in H; [|discriminate].
        injection H as <-. destruct (IH ms' eq_refl) as [Hl Hk]. split; [cbn; now rewrite Hl|].
        intros [|k] l' Hl'; [injection Hl' as <-; exists m; split; [exact Hm|reflexivity]|]. now apply Hk. }
    destruct Hlen as [Hlen Hk]. split.
    + repeat (constructor; [rewrite map_length; exact Hlen|]). constructor.
    + intros k l Hl. destruct (Hk k l Hl) as (m & Hm & Hn). exists m. split.
      * destruct l as [|x l]; [discriminate|]. cbn [map compute_statistical_measures].
        change (Num x :: map Num l) with (map Num (x :: l)).
        assert (HN : mapM (fun i => match i with Num y => Ok y | Coll _ => Err ValueError end) (map Num (x :: l)) = Ok (x :: l)).
        { generalize (x :: l). clear. induction l as [|y l IH]; [reflexivity|]. cbn [map mapM bind]. now rewrite IH. }
        rewrite HN. cbn [bind]. rewrite Hm. reflexivity.
      * rewrite !nth_error_map, Hn. cbn. tauto.
  - clear Hne HM. revert e Hms. induction ls as [|l ls1 IH]; intros e H; cbn [mapM] in H; [discriminate|].
    destruct (one_method auc_fr l) as [m|e'] eqn:Hm; cbn [bind] in H.
    + destruct (mapM (one_method auc_fr) ls1) as [ms'|e''] eqn:Hr; cbn [bind] in H; [discriminate|].
      destruct (IH e'' eq_refl) as (l' & Hin & Hl'). exists l'. split; [now right|exact Hl'].
    + exists l. split; [now left|]. destruct l as [|x l]; [now left|]. right. unfold one_method in Hm.
      destruct (auc_fr (x :: l)) as [af|e1]; [discriminate|]. now exists e1.
Qed.

(** The order of the images plays no role. *)
Theorem c90_order : forall l l', Permutation l l' ->
  mean l = mean l' /\ std l = std l' /\ median l = median l' /\ mad l = mad l' /\ rmax l = rmax l'.
Proof.
  intros l l' H. repeat split; [now apply Summary.mean_perm|now apply Summary.std_perm|now apply Summary.median_perm
    |now apply Summary.mad_perm|now apply Summary.rmax_perm].
Qed.
Theorem c90_auc_order : forall l l' step max_error min_error, Permutation l l' ->
  area_under_curve_and_failure_rate (EArray l) step max_error min_error =
  area_under_curve_and_failure_rate (EArray l') step max_error min_error.
Proof.
  intros l l' step mx mn HP. unfold area_under_curve_and_failure_rate.
  destruct (arange _ _ _) as [xs|e]; [cbn [bind]|reflexivity].
  assert (H : compute_cumulative_error (EArray l) (map BNp xs) = compute_cumulative_error (EArray l') (map BNp xs)).
  { unfold compute_cumulative_error. cbn [err_items]. rewrite (Permutation_length HP). generalize (map BNp xs).
    clear xs. induction l0 as [|b bs IH]; [reflexivity|]. cbn [mapM]. rewrite IH. unfold less_equal. cbn [bind err_items].
    assert (Hc : count_nonzero (map (fun e => Qle_bool e (bin_value b)) l) =
                 count_nonzero (map (fun e => Qle_bool e (bin_value b)) l')).
    { unfold count_nonzero. apply Permutation_length.
      assert (Hp : Permutation (map (fun e => Qle_bool e (bin_value b)) l) (map (fun e => Qle_bool e (bin_value b)) l'))
        by now apply Permutation_map.
      revert Hp. generalize (map (fun e => Qle_bool e (bin_value b)) l) (map (fun e => Qle_bool e (bin_value b)) l').
      clear. induction 1 as [|[] l l' _ IH|[] [] l|]; cbn; auto.
      eapply Permutation_trans; eassumption. }
    destruct b; rewrite Hc; reflexivity. }
  now rewrite H.
Qed.

(** Units: multiplying all errors by a constant (and adding another). *)
Theorem c90_units : forall a b l, l <> [] ->
  let l' := map (fun x => a * x + b) l in
  mean l' = a * mean l + b /\ std l' = Rabs a * std l /\ median l' = a * median l + b /\
  mad l' = Rabs a * mad l /\ (0 <= a -> rmax l' = a * rmax l + b).
Proof.
  intros a b l Hl. cbv zeta. repeat split; [now apply Summary.mean_affine|now apply Summary.std_affine
    |now apply Summary.median_affine|now apply Summary.mad_affine|now apply Summary.rmax_affine].
Qed.

(** The median: at least half of the images on either side; the MAD: at least half of the images within. *)
Theorem c90_median_half : forall l, l <> [] ->
  (length l <= 2 * count (at_most (median l)) l)%nat /\ (length l <= 2 * count (at_least (median l)) l)%nat.
Proof. exact Summary.median_half. Qed.
Theorem c90_mad_half : forall l, l <> [] ->
  (length l <= 2 * count (within (median l - mad l) (median l + mad l)) l)%nat.
Proof.
  intros l Hl. unfold mad. set (m := median l). set (d := map (fun x => Rabs (x - m)) l).
  destruct (Summary.median_half d) as [H _]; [subst d; destruct l; [congruence|discriminate]|].
  assert (Hd : length d = length l) by apply map_length. rewrite Hd in H.
  enough (Hc : (count (at_most (median d)) d <= count (within (m - median d) (m + median d)) l)%nat) by lia.
  subst d. clear H Hd. rewrite Summary.count_map. generalize (median (map (fun x => Rabs (x - m)) l)). intro r.
  apply Summary.count_impl. intros x _ Hx. apply Summary.leb_iff in Hx.
  apply andb_true_iff. split; apply Summary.leb_iff; unfold Rabs in Hx; destruct (Rcase_abs _); lra.
Qed.

(** Robustness: as long as more than half of the errors stay within bounds, so does the median, and the MAD is
    at most the width of the bounds, whatever the other errors. *)
Theorem c90_robust : forall l lo hi, l <> [] -> (length l < 2 * count (within lo hi) l)%nat ->
  lo <= median l <= hi /\ 0 <= mad l <= hi - lo.
Proof.
  intros l lo hi Hl Hc. pose proof (Summary.median_majority l Hl lo hi Hc) as Hm. split; [exact Hm|].
  unfold mad. apply Summary.median_majority; [destruct l; [congruence|discriminate]|].
  rewrite map_length. revert Hc. generalize (median l) Hm. intros m Hm' Hc.
  enough (H : (count (within lo hi) l <= count (within 0 (hi - lo)) (map (fun x => Rabs (x - m)) l))%nat) by lia.
  rewrite Summary.count_map. apply Summary.count_impl. intros x _ H. apply andb_true_iff in H.
  destruct H as [H1 H2]. apply Summary.leb_iff in H1, H2.
  apply andb_true_iff. split; apply Summary.leb_iff; [apply Rabs_pos|].
  unfold Rabs. destruct (Rcase_abs _); lra.
Qed.

(** The summaries against each other. *)
Theorem c90_mean_median : forall l, l <> [] ->
  Rabs (mean l - median l) <= std l /\ (std l = 0 <-> forall x y, In x l -> In y l -> x = y).
Proof. intros l Hl. split; [now apply Summary.mean_median|now apply Summary.std_zero_iff]. Qed.
Theorem c90_max : forall l, l <> [] -> In (rmax l) l /\ (forall x, In x l -> x <= rmax l) /\ median l <= rmax l.
Proof.
  intros l Hl. destruct (Summary.rmax_spec l Hl) as [Hin Hle]. split; [exact Hin|]. split; [exact Hle|].
  destruct (Summary.rmin_spec l Hl) as [_ Hle'].
  apply (Summary.median_majority l Hl (rmin l) (rmax l)). rewrite Summary.count_all.
  - pose proof (Summary.n_pos l Hl). lia.
  - intros x Hx. apply andb_true_iff. split; apply Summary.leb_iff; auto.
Qed.

(** What each name stands for. *)
Lemma mean_is l : l <> [] -> is_mean l (mean l).
Proof. intros Hl. unfold is_mean. rewrite Summary.mean_avg. unfold average. pose proof (Summary.INR_len l Hl). field. lra. Qed.
Lemma std_is l : l <> [] -> is_std l (std l).
Proof.
  intros Hl. pose proof (Summary.INR_len l Hl) as HN. split; [apply sqrt_pos|]. exists (mean l). split; [now apply mean_is|].
  assert (E : mean (map (fun x => (x - mean l) * (x - mean l)) l) = total (fun x => (x - mean l) * (x - mean l)) l / INR (length l)).
  { unfold mean at 1. rewrite map_length. f_equal. generalize (mean l). intro m. clear. induction l as [|x l IH]; cbn; [reflexivity|]. now rewrite IH. }
  unfold std. rewrite sqrt_sqrt, E; [field; lra|]. rewrite E.
  apply Rmult_le_pos; [|left; now apply Rinv_0_lt_compat]. generalize (mean l). intro m. clear. induction l as [|x l IH]; cbn; [lra|]. pose proof (Rle_0_sqr (x - m)) as H. unfold Rsqr in H. lra.
Qed.
Lemma median_is l : is_median l (median l).
Proof. exists (sort l). split; [apply Summary.sort_perm|]. split; [apply Summary.sort_sorted|apply Summary.median_uniform]. Qed.

(** The measures of one method are what their names say. *)
Theorem c90_single : forall auc_fr l m, compute_statistical_measures auc_fr (map Num l) = Ok (Single m) ->
  is_mean l (m_mean m) /\ is_std l (m_std m) /\ is_median l (m_median m) /\ is_mad l (m_mad m) /\ is_max l (m_max m) /\
  auc_fr l = Ok (m_auc m, m_fr m).
Proof.
  intros af l m H. destruct l as [|x l]; [discriminate|]. set (e := x :: l) in *. assert (He : e <> []) by discriminate.
  assert (M : mapM (fun i => match i with Num x => Ok x | Coll _ => Err ValueError end) (map Num e) = Ok e).
  { clear. induction e as [|y e IH]; [reflexivity|]. cbn [map mapM bind]. now rewrite IH. }
  assert (C : compute_statistical_measures af (map Num e) = let? m := one_method af e in Ok (Single m)).
  { change (compute_statistical_measures af (map Num e)) with
      (let? e := mapM (fun i => match i with Num x => Ok x | Coll _ => Err ValueError end) (map Num e) in let? m := one_method af e in Ok (Single m)).
    now rewrite M. }
  rewrite C in H. change (one_method af e) with (let? p := af e in Ok (mkMeasures (mean e) (std e) (median e) (mad e) (rmax e) (fst p) (snd p))) in H.
  destruct (af e) as [[a f]|ex] eqn:E; [|discriminate]. cbn [bind] in H. injection H as <-. cbn [m_mean m_std m_median m_mad m_max m_auc m_fr fst snd].
  split; [now apply mean_is|]. split; [now apply std_is|]. split; [apply median_is|]. split; [exists (median e); split; apply median_is|].
  split; [exact (Summary.rmax_spec e He)|reflexivity].
Qed.

(** displacements_stats: one number per iteration, for the four documented statistics only: the one it is asked for. *)
Definition stands_for (t : string) (d : list R) (v : R) : Prop :=
  (t = "mean" /\ is_mean d v \/ t = "median" /\ is_median d v \/ t = "max" /\ is_max d v \/ t = "min" /\ is_min d v)%string.
Theorem c90_displacements : forall t ds,
  match displacements_stats t ds with
  | Ok r => (t = "mean" \/ t = "median" \/ t = "max" \/ t = "min")%string /\ length r = length ds /\
            forall k d, nth_error ds k = Some d -> d <> [] -> exists v, nth_error r k = Some v /\ stands_for t d v
  | Err e => e = ValueError /\ (t <> "mean" /\ t <> "median" /\ t <> "max" /\ t <> "min")%string
  end.
Proof.
  intros t ds. unfold displacements_stats.
  assert (Hin : forall f, (forall d, d <> [] -> stands_for t d (f d)) ->
    forall k d, nth_error ds k = Some d -> d <> [] -> exists v : R, nth_error (map f ds) k = Some v /\ stands_for t d v).
  { intros f Hf k d Hd Hne. exists (f d). rewrite nth_error_map, Hd. split; [reflexivity|now apply Hf]. }
  unfold stands_for in *.
  destruct (String.eqb_spec t "mean") as [->|H1].
  { split; [tauto|]. split; [apply map_length|]. apply Hin. intros d Hd. left. split; [reflexivity|now apply mean_is]. }
  destruct (String.eqb_spec t "median") as [->|H2].
  { split; [tauto|]. split; [apply map_length|]. apply Hin. intros d Hd. right. left. split; [reflexivity|apply median_is]. }
  destruct (String.eqb_spec t "max") as [->|H3].
  { split; [tauto|]. split; [apply map_length|]. apply Hin. intros d Hd. right. right. left. split; [reflexivity|now apply Summary.rmax_spec]. }
  destruct (String.eqb_spec t "min") as [->|H4].
  { split; [tauto|]. split; [apply map_length|]. apply Hin. intros d Hd. right. right. right. split; [reflexivity|now apply Summary.rmin_spec]. }
  split; [reflexivity|tauto].
Qed.
(** The statistics of a list are determined by these descriptions, and none of the four can stand for another. *)
Theorem c90_determined : forall t d v w, d <> [] -> stands_for t d v -> stands_for t d w -> v = w.
Proof.
  intros t d v w Hd Hv Hw. pose proof (Summary.INR_len d Hd) as HN. unfold stands_for in *.
  destruct Hv as [[-> Hv]|[[-> Hv]|[[-> Hv]|[-> Hv]]]]; destruct Hw as [[Ht Hw]|[[Ht Hw]|[[Ht Hw]|[Ht Hw]]]]; try discriminate.
  - unfold is_mean in *. apply (Rmult_eq_reg_l (INR (length d))); lra.
  - destruct Hv as [s [P1 [S1 ->]]], Hw as [s' [P2 [S2 ->]]]. now rewrite (Summary.sorted_unique s s' S1 S2 (Permutation_trans P1 (Permutation_sym P2))).
  - destruct Hv as [I1 U1], Hw as [I2 U2]. apply Rle_antisym; auto.
  - destruct Hv as [I1 U1], Hw as [I2 U2]. apply Rle_antisym; auto.
Qed.

(** *** An instance: two good images and an outlier of any size. *)
Example c90_ex : forall outlier, 1 <= median [1; 3; outlier] <= 3 /\ 0 <= mad [1; 3; outlier] <= 2.
Proof.
  intro o. destruct (c90_robust [1; 3; o] 1 3) as [H1 H2]; [discriminate| |split; [exact H1|lra]].
  unfold count, within, leb. cbn [filter].
  destruct (Rle_dec 1 1), (Rle_dec 1 3), (Rle_dec 3 3); try lra. cbn [andb length].
  destruct (_ && _)%bool; cbn [length]; lia.
Qed.

(** *** Note: the documentation of compute_statistical_measures announces the mean absolute deviation. *)
Theorem c90_mad_is_not_the_mean_deviation : exists l, l <> [] /\
  mad l <> mean (map (fun x => Rabs (x - mean l)) l) /\ mad l <> mean (map (fun x => Rabs (x - median l)) l).
Proof.
  exists [0; 0; 3]. split; [discriminate|].
  assert (Hm : 0 <= mad [0; 0; 3] <= 0 - 0).
  { apply (c90_robust [0; 0; 3] 0 0); [discriminate|]. unfold count, within, leb. cbn [filter].
    destruct (Rle_dec 0 0), (Rle_dec 0 3), (Rle_dec 3 0); try lra. cbn [andb length]. lia. }
  assert (Hmed : 0 <= median [0; 0; 3] <= 0).
  { apply (c90_robust [0; 0; 3] 0 0); [discriminate|]. unfold count, within, leb. cbn [filter].
    destruct (Rle_dec 0 0), (Rle_dec 0 3), (Rle_dec 3 0); try lra. cbn [andb length]. lia. }
  assert (Hmean : mean [0; 0; 3] = 1) by (unfold mean; cbn; field).
  rewrite Hmean. replace (median [0; 0; 3]) with 0 by lra. replace (mad [0; 0; 3]) with 0 by lra.
  unfold mean. cbn [map sumR length INR]. unfold Rabs. repeat destruct (Rcase_abs _); split; lra.
Qed.

Print Assumptions c90_methods.
Print Assumptions c90_order.
Print Assumptions c90_auc_order.
Print Assumptions c90_units.
Print Assumptions c90_median_half.
Print Assumptions c90_mad_half.
Print Assumptions c90_robust.
Print Assumptions c90_mean_median.
Print Assumptions c90_max.
Print Assumptions c90_displacements.
Print Assumptions c90_mad_is_not_the_mean_deviation.
Print Assumptions c90_single.
Print Assumptions c90_determined.
