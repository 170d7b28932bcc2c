(** C18, C19: cumulative error distribution, area under it, failure rate. *)
From Coq Require Import List QArith Qround ZArith Bool Lia Lqa Permutation Arith.
From Verif.Model Require Import Py Stats.
From Verif.Spec Require Import Stats.
From Verif.Proofs Require Import Stats.
Import ListNotations.
Local Open Scope Q_scope.

(** ** C18 *)
(** Errors given as an array, or bins that are numpy numbers: one value per bin, the fraction of errors
    not exceeding it. *)
Theorem c18_fraction : forall errors bins, err_items errors <> [] ->
  ((exists l, errors = EArray l) \/ (forall b, In b bins -> exists x, b = BNp x)) ->
  exists out, compute_cumulative_error errors bins = Ok out /\ length out = length bins /\
    forall i b, nth_error bins i = Some b ->
      exists q, nth_error out i = Some q /\ fraction (fun e => e <= bin_value b) (err_items errors) q.
Proof.
  intros errors bins Hne Hc. assert (HF : Forall (comparable errors) bins).
  { apply Forall_forall. intros b Hb. destruct Hc as [[l ->]|Hc]; [exact I|]. destruct (Hc b Hb) as [x ->]. destruct errors; exact I. }
  eexists. split; [apply cumulative_ok; assumption|]. split; [apply map_length|]. intros i b Hb.
  exists (ced_at (err_items errors) (bin_value b)). split; [rewrite nth_error_map, Hb; reflexivity|]. apply ced_fraction, Hne.
Qed.
Print Assumptions c18_fraction.
Example c18_fraction_ex :
  option_map (map Qred) (match compute_cumulative_error (EArray [3; 1; 2; 1]) [BPy 0; BPy 1; BPy 2; BPy (5 # 2); BPy 3] with Ok l => Some l | Err _ => None end)
  = Some [0; 1 # 2; 3 # 4; 3 # 4; 1].
Proof. reflexivity. Qed.

(** Values in [0, 1], monotone in the bin, 1 from the largest error on, 0 below the smallest. *)
Theorem c18_laws : forall errors bins out, err_items errors <> [] ->
  compute_cumulative_error errors bins = Ok out ->
  length out = length bins /\
  (forall q, In q out -> 0 <= q <= 1) /\
  (forall i j a b p q, nth_error bins i = Some a -> nth_error bins j = Some b ->
     nth_error out i = Some p -> nth_error out j = Some q -> bin_value a <= bin_value b -> p <= q) /\
  (forall i b q, nth_error bins i = Some b -> nth_error out i = Some q ->
     ((forall e, In e (err_items errors) -> e <= bin_value b) -> q == 1) /\
     ((forall e, In e (err_items errors) -> bin_value b < e) -> q == 0)).
Proof.
  intros errors bins out Hne H.
  assert (HF : Forall (comparable errors) bins).
  { revert out H. unfold compute_cumulative_error. induction bins as [|b bins IH]; intros out H; [constructor|].
    cbn [mapM] in H. destruct (less_equal errors b) as [le|] eqn:El; [|discriminate]. cbn [bind] in H.
    constructor; [destruct errors, b; try exact I; discriminate|].
    destruct (match length (err_items errors) with O => _ | _ => _ end); [|discriminate]. cbn [bind] in H.
    destruct (mapM _ bins) as [t|] eqn:Et; [|discriminate]. apply (IH t eq_refl). }
  rewrite (cumulative_ok _ _ Hne HF) in H. assert (out = map (fun b => ced_at (err_items errors) (bin_value b)) bins) by congruence. subst out. clear H.
  assert (Hn : forall i b q, nth_error bins i = Some b -> nth_error (map (fun b => ced_at (err_items errors) (bin_value b)) bins) i = Some q ->
    q = ced_at (err_items errors) (bin_value b)).
  { intros i b q Hb Hq. rewrite nth_error_map, Hb in Hq. cbn [option_map] in Hq. congruence. }
  split; [apply map_length|]. split.
  { intros q Hq. apply in_map_iff in Hq. destruct Hq as (b & <- & _). apply ced_bounds, Hne. }
  split.
  { intros i j a b p q Ha Hb Hp Hq Hle. rewrite (Hn _ _ _ Ha Hp), (Hn _ _ _ Hb Hq). apply ced_le; assumption. }
  intros i b q Hb Hq. rewrite (Hn _ _ _ Hb Hq). split; intros He; [apply ced_all|apply ced_none]; assumption.
Qed.
Print Assumptions c18_laws.

(** The order of the errors is irrelevant. *)
Theorem c18_order_independent : forall l l' bins, Permutation l l' ->
  compute_cumulative_error (EArray l) bins = compute_cumulative_error (EArray l') bins /\
  compute_cumulative_error (EList l) bins = compute_cumulative_error (EList l') bins.
Proof.
  intros l l' bins HP. pose proof (Permutation_length HP) as HL. split; unfold compute_cumulative_error; cbn [err_items]; rewrite HL;
    (induction bins as [|b bins IH]; [reflexivity|]); cbn [mapM]; rewrite IH; clear IH;
    destruct b as [x|x]; cbn [less_equal err_items bin_value bind]; try reflexivity;
    pose proof (nle_perm l l' x HP) as HN; unfold nle in HN; rewrite HN; reflexivity.
Qed.
Print Assumptions c18_order_independent.

(** An empty list of errors raises as soon as there is a bin. *)
Theorem c18_empty_raises : forall errors b bins, err_items errors = [] ->
  exists e, compute_cumulative_error errors (b :: bins) = Err e.
Proof.
  intros errors b bins H. unfold compute_cumulative_error. cbn [mapM].
  destruct (less_equal errors b); cbn [bind]; [|eauto]. rewrite H. cbn. eauto.
Qed.
Print Assumptions c18_empty_raises.
Theorem c18_empty_no_bins_refuted : exists errors, err_items errors = [] /\ compute_cumulative_error errors [] = Ok [].
Proof. exists (EList []). split; reflexivity. Qed.
Print Assumptions c18_empty_no_bins_refuted.

(** The documented argument types, a list of floats and a list of floats, raise a TypeError: for every
    list of errors and every non-empty list of Python floats. *)
Theorem c18_lists_refuted : forall l x bins, compute_cumulative_error (EList l) (BPy x :: bins) = Err TypeError.
Proof. reflexivity. Qed.
Print Assumptions c18_lists_refuted.

(** ** C19 *)
Lemma auc_form : forall errors step mx mn, err_items errors <> [] -> 0 < step -> mn < mx + step -> ~ mx == 0 ->
  exists n, let xs := grid mn step (S n) in
    mn + inject_Z (Z.of_nat n) * step < mx + step /\ mx <= mn + inject_Z (Z.of_nat n) * step /\
    exists area, simps (map (ced_at (err_items errors)) xs) xs = Ok area /\
    area_under_curve_and_failure_rate errors step mx mn
    = Ok (area / mx, 1 - ced_at (err_items errors) (mn + inject_Z (Z.of_nat n) * step)).
Proof.
  intros errors step mx mn Hne Hs Hlt Hm. destruct (arange_ok mn (mx + step) step Hs Hlt) as (n & E & H1 & H2).
  exists n. cbn zeta. split; [exact H1|]. split; [lra|].
  unfold area_under_curve_and_failure_rate. rewrite E. cbn [bind].
  rewrite cumulative_ok; [|exact Hne|].
  2:{ apply Forall_forall. intros b Hb. apply in_map_iff in Hb. destruct Hb as (x & <- & _). destruct errors; exact I. }
  cbn [bind]. rewrite map_map. cbn [bin_value].
  assert (Hsi : exists area, simps (map (ced_at (err_items errors)) (grid mn step (S n))) (grid mn step (S n)) = Ok area).
  { unfold simps. destruct (map _ _) eqn:Em; [discriminate|]. destruct (Nat.odd _); eauto. }
  destruct Hsi as [area Ha]. exists area. split; [exact Ha|].
  change (fun x => ced_at (err_items errors) x) with (ced_at (err_items errors)). rewrite Ha. cbn [bind].
  destruct (Qeq_bool mx 0) eqn:Eq; [apply Qeq_bool_iff in Eq; contradiction|].
  do 3 f_equal. unfold grid. rewrite seq_S, map_app, map_app. cbn [map]. rewrite last_last. reflexivity.
Qed.

(** In general the failure rate is the fraction of errors above the last grid point, which lies between
    max_error and max_error + step. *)
Theorem c19_failure_rate : forall errors step mx mn, err_items errors <> [] -> 0 < step -> mn < mx + step -> ~ mx == 0 ->
  exists x area f, mx <= x < mx + step /\
    area_under_curve_and_failure_rate errors step mx mn = Ok (area, f) /\
    fraction (fun e => e <= x) (err_items errors) (1 - f) /\ 0 <= f <= 1.
Proof.
  intros errors step mx mn Hne Hs Hlt Hm. destruct (auc_form errors step mx mn Hne Hs Hlt Hm) as (n & H1 & H2 & area & _ & E).
  eexists. eexists. eexists. split; [split; [exact H2|exact H1]|]. split; [exact E|].
  set (x := mn + inject_Z (Z.of_nat n) * step). pose proof (ced_bounds (err_items errors) x Hne). split; [|lra].
  destruct (ced_fraction (err_items errors) x Hne) as (k & Hk & Hq). exists k. split; [exact Hk|]. rewrite <- Hq. ring.
Qed.
Print Assumptions c19_failure_rate.

(** The area is that of the cumulative error curve, sampled at the grid points min_error, min_error + step, ... up to the first one
    not below max_error, under the parabolas through successive points (and the trapezoid rule for a left-over interval), divided
    by max_error. *)
Theorem c19_area : forall errors step mx mn, err_items errors <> [] -> 0 < step -> mn < mx + step -> ~ mx == 0 ->
  exists n ys area f, let xs := map (fun i => mn + inject_Z (Z.of_nat i) * step) (seq 0 (S n)) in
    mx <= mn + inject_Z (Z.of_nat n) * step < mx + step /\
    Forall2 (fun x y => fraction (fun e => e <= x) (err_items errors) y) xs ys /\
    area_under_curve_and_failure_rate errors step mx mn = Ok (area, f) /\
    exists A, area_rule xs ys A /\ area * mx == A.
Proof.
  intros errors step mx mn Hne Hs Hlt Hm. destruct (auc_form errors step mx mn Hne Hs Hlt Hm) as (n & H1 & H2 & area & Ha & E).
  exists n, (map (ced_at (err_items errors)) (grid mn step (S n))). eexists. eexists. cbn zeta. fold (grid mn step (S n)).
  split; [split; [exact H2|exact H1]|]. split.
  { clear Ha. induction (grid mn step (S n)) as [|x l IH]; cbn [map]; constructor; [apply ced_fraction; exact Hne|exact IH]. }
  split; [exact E|]. exists area. split.
  - apply simps_rule; [apply (even_increasing step); [exact Hs|apply grid_even]|apply map_length|exact Ha].
  - field. exact Hm.
Qed.
Print Assumptions c19_area.
(** On polynomials of degree at most two, an odd number of points gives the exact integral. *)
Example c19_area_ex : exists A, area_rule [0; 1; 3] [0; 1; 9] A /\ A == 9.
Proof.
  exists 9. split; [|reflexivity]. apply area_odd; [reflexivity|].
  apply (par_cons 0 1 3 [] 0 1 9 [] 1 0 0 9 0); try reflexivity. constructor. reflexivity.
Qed.

(** When the step divides the range, it is the fraction of errors above max_error; the area lies in
    [0, 1], and is 1 when no error is positive and the range starts at 0. *)
Theorem c19_exact_grid_partial : forall errors step mn n mx, err_items errors <> [] -> 0 < step -> 0 <= mn -> 0 < mx ->
  mx == mn + inject_Z (Z.of_nat n) * step ->
  exists area f, area_under_curve_and_failure_rate errors step mx mn = Ok (area, f) /\
    fraction (fun e => e <= mx) (err_items errors) (1 - f) /\ 0 <= f <= 1 /\
    0 <= area <= 1 /\
    (mn == 0 -> (forall e, In e (err_items errors) -> e <= 0) -> area == 1 /\ f == 0).
Proof.
  intros errors step mn n mx Hne Hs Hmn Hmx Hn.
  assert (Hnn : 0 <= inject_Z (Z.of_nat n)) by (change 0 with (inject_Z 0); rewrite <- Zle_Qle; lia).
  assert (Hlt : mn < mx + step) by nra. assert (Hm : ~ mx == 0) by (intros K; lra).
  destruct (auc_form errors step mx mn Hne Hs Hlt Hm) as (m & H1 & H2 & area & Ha & E). cbn zeta in Ha.
  assert (Emn : m = n).
  { assert (A : inject_Z (Z.of_nat m) < inject_Z (Z.of_nat n + 1)) by (rewrite inject_Z_plus; change (inject_Z 1) with 1; nra).
    assert (B : inject_Z (Z.of_nat n) <= inject_Z (Z.of_nat m)) by nra.
    rewrite <- Zlt_Qlt in A. rewrite <- Zle_Qle in B. lia. }
  subst m. eexists. eexists. split; [exact E|].
  set (x := mn + inject_Z (Z.of_nat n) * step) in *. pose proof (ced_bounds (err_items errors) x Hne) as Hb.
  split.
  { destruct (ced_fraction (err_items errors) x Hne) as (k & Hk & Hq). exists k. split.
    - clear -Hk Hn. induction Hk as [|e l k He _ IH|e l k He _ IH]; [constructor|apply counts_yes; [rewrite Hn; exact He|exact IH]|].
      apply counts_no; [|exact IH]. intros K. apply He. rewrite <- Hn. exact K.
    - rewrite <- Hq. ring. }
  split; [lra|].
  set (xs := grid mn step (S n)) in *. pose proof (grid_even mn step n) as He. fold xs in He.
  assert (Hlen : length (map (ced_at (err_items errors)) xs) = length xs) by apply map_length.
  assert (Hspan : last xs 0 - hd 0 xs == mx - mn).
  { unfold xs. rewrite grid_last, grid_hd, Hn. unfold x. ring. }
  assert (Hconst : forall c, exists a, simps (map (fun _ => c) xs) xs = Ok a /\ a == c * (mx - mn)).
  { intros c. assert (X : exists a, simps (map (fun _ => c) xs) xs = Ok a).
    { unfold simps. destruct (map (fun _ => c) xs) eqn:Em; [unfold xs, grid in Em; discriminate|]. destruct (Nat.odd _); eauto. }
    destruct X as [a Xa]. exists a. split; [exact Xa|]. rewrite <- Hspan.
    apply (simps_const step c Hs xs (map (fun _ => c) xs) a He); [apply map_length| |exact Xa].
    apply Forall_forall. intros y Hy. apply in_map_iff in Hy. destruct Hy as (? & <- & _). reflexivity. }
  assert (Hall : forall g h : Q -> Q, (forall y, g y <= h y) -> Forall2 Qle (map g xs) (map h xs)).
  { intros g h Hgh. clear -Hgh. induction xs as [|y xs IH]; [constructor|]. cbn. constructor; auto. }
  split.
  { destruct (Hconst 0) as (a0 & Ea0 & Va0). destruct (Hconst 1) as (a1 & Ea1 & Va1).
    assert (L : a0 <= area).
    { apply (simps_mono step Hs xs _ _ _ _ He (map_length _ _) (Hall (fun _ => 0) (ced_at (err_items errors)) (fun y => proj1 (ced_bounds _ y Hne))) Ea0 Ha). }
    assert (U : area <= a1).
    { apply (simps_mono step Hs xs _ _ _ _ He (map_length _ _) (Hall (ced_at (err_items errors)) (fun _ => 1) (fun y => proj2 (ced_bounds _ y Hne))) Ha Ea1). }
    split.
    - apply Qle_shift_div_l; [exact Hmx|]. rewrite Qmult_0_l. rewrite Va0 in L. lra.
    - apply Qle_shift_div_r; [exact Hmx|]. rewrite Va1 in U. lra. }
  intros Hmn0 Hz.
  assert (C1 : forall y, In y xs -> ced_at (err_items errors) y == 1).
  { intros y Hy. apply ced_all; [exact Hne|]. intros e He'. apply Qle_trans with 0; [apply Hz; exact He'|].
    unfold xs, grid in Hy. apply in_map_iff in Hy. destruct Hy as (i & <- & _).
    assert (0 <= inject_Z (Z.of_nat i)) by (change 0 with (inject_Z 0); rewrite <- Zle_Qle; lia). nra. }
  split.
  - assert (Va : area == 1 * (last xs 0 - hd 0 xs)).
    { apply (simps_const step 1 Hs xs (map (ced_at (err_items errors)) xs) area He Hlen); [|exact Ha].
      apply Forall_forall. intros y Hy. apply in_map_iff in Hy. destruct Hy as (z & <- & Hz'). apply C1, Hz'. }
    rewrite Va, Hspan, Hmn0. field. exact Hm.
  - assert (In x xs).
    { unfold xs, grid. apply in_map_iff. exists n. split; [reflexivity|apply in_seq; lia]. }
    rewrite (C1 x H). ring.
Qed.
Print Assumptions c19_exact_grid_partial.
Example c19_exact_grid_ex :
  (match area_under_curve_and_failure_rate (EList [1 # 100; 3 # 100; 8 # 100; 5 # 100]) (1 # 100) (6 # 100) 0 with
   | Ok (a, f) => Some (Qred a, Qred f) | Err _ => None end) = Some (11 # 24, 1 # 4)
  /\ (6 # 100) == 0 + inject_Z (Z.of_nat 6) * (1 # 100).
Proof. split; vm_compute; reflexivity. Qed.

(** The area does not decrease when errors shrink, whatever the step and range. *)
Theorem c19_monotone : forall l l' step mx mn a f a' f', l <> [] -> 0 < step -> mn < mx + step -> 0 < mx ->
  Forall2 (fun e e' => e' <= e) l l' ->
  area_under_curve_and_failure_rate (EArray l) step mx mn = Ok (a, f) ->
  area_under_curve_and_failure_rate (EArray l') step mx mn = Ok (a', f') ->
  a <= a' /\ f' <= f.
Proof.
  intros l l' step mx mn a f a' f' Hne Hs Hlt Hmx HF E E'.
  assert (Hne' : l' <> []) by (intros ->; inversion HF; congruence). assert (Hm : ~ mx == 0) by (intros K; lra).
  destruct (auc_form (EArray l) step mx mn Hne Hs Hlt Hm) as (n & H1 & H2 & area & Ha & F).
  destruct (auc_form (EArray l') step mx mn Hne' Hs Hlt Hm) as (n' & H1' & H2' & area' & Ha' & F'). cbn zeta in *. cbn [err_items] in *.
  assert (Emn : n' = n).
  { assert (A : inject_Z (Z.of_nat n') < inject_Z (Z.of_nat n + 1)) by (rewrite inject_Z_plus; change (inject_Z 1) with 1; nra).
    assert (B : inject_Z (Z.of_nat n) < inject_Z (Z.of_nat n' + 1)) by (rewrite inject_Z_plus; change (inject_Z 1) with 1; nra).
    rewrite <- Zlt_Qlt in A, B. lia. }
  subst n'. set (x := mn + inject_Z (Z.of_nat n) * step) in *.
  assert (Ea : a = area / mx) by congruence. assert (Ef : f = 1 - ced_at l x) by congruence.
  assert (Ea' : a' = area' / mx) by congruence. assert (Ef' : f' = 1 - ced_at l' x) by congruence. subst. split.
  - unfold Qdiv. apply Qmult_le_compat_r; [|apply Qlt_le_weak, Qinv_lt_0_compat, Hmx].
    apply (simps_mono step Hs (grid mn step (S n)) (map (ced_at l) (grid mn step (S n))) (map (ced_at l') (grid mn step (S n)))); auto.
    + apply grid_even.
    + apply map_length.
    + generalize (grid mn step (S n)) as xs. induction xs as [|y xs IH]; [constructor|]. cbn. constructor; [apply ced_shrink; assumption|exact IH].
  - pose proof (ced_shrink l l' x Hne HF). lra.
Qed.
Print Assumptions c19_monotone.

(** When the step does not divide the range the grid overshoots max_error: the area of a perfect method
    exceeds 1 and an error above max_error is not counted as a failure. *)
Theorem c19_overshoot_refuted :
  exists l step mx area f, 0 < step /\ 0 < mx /\ (exists e, In e l /\ mx < e) /\
    area_under_curve_and_failure_rate (EArray l) step mx 0 = Ok (area, f) /\ f == 0.
Proof.
  exists [11 # 100], (3 # 100), (10 # 100). eexists. eexists. repeat split; try reflexivity.
  - exists (11 # 100). split; [left; reflexivity|reflexivity].
Qed.
Print Assumptions c19_overshoot_refuted.
Theorem c19_area_above_one_refuted :
  exists step mx area f, 0 < step /\ 0 < mx /\
    area_under_curve_and_failure_rate (EArray [0; 0]) step mx 0 = Ok (area, f) /\ area == 6 # 5.
Proof. exists (3 # 100), (10 # 100). eexists. eexists. repeat split; reflexivity. Qed.
Print Assumptions c19_area_above_one_refuted.

(** With a positive min_error the area of a perfect method is below 1: it is divided by max_error, not
    by the length of the range. *)
Theorem c19_min_error_refuted :
  exists step mx mn area f, 0 < step /\ 0 < mn /\ mn < mx /\
    area_under_curve_and_failure_rate (EArray [0; 0]) step mx mn = Ok (area, f) /\ area == 1 # 2.
Proof. exists (1 # 10), (4 # 10), (2 # 10). eexists. eexists. repeat split; reflexivity. Qed.
Print Assumptions c19_min_error_refuted.
