(** Proofs about the landmark mean shift. *)
From Coq Require Import List ZArith Reals Lia Lra Psatz.
From Verif.Model Require Import Py Base MeanShift.
From Verif.Spec Require Import Base MeanShift.
From Verif.Proofs Require Import Base.
Import ListNotations.
Local Open Scope nat_scope.

Lemma total_ext n f g : (forall i, i < n -> f i = g i) -> total n f = total n g.
Proof. induction n; simpl; intros H; auto. rewrite IHn, (H n); auto. Qed.
Lemma total_S n f : total (S n) f = (f 0%nat + total n (fun i => f (S i)))%R.
Proof. induction n; simpl in *. lra. rewrite IHn. lra. Qed.
Lemma total_scal n c f : total n (fun i => c * f i)%R = (c * total n f)%R.
Proof. induction n; simpl. lra. rewrite IHn. lra. Qed.
Lemma total_plus n f g : total n (fun i => f i + g i)%R = (total n f + total n g)%R.
Proof. induction n; simpl. lra. rewrite IHn. lra. Qed.
Lemma total_le n f g : (forall i, i < n -> (f i <= g i)%R) -> (total n f <= total n g)%R.
Proof. induction n; simpl; intros H. lra. pose proof (H n ltac:(lia)). pose proof (IHn ltac:(auto)). lra. Qed.
Lemma total_zero n f : (forall i, i < n -> f i = 0%R) -> total n f = 0%R.
Proof. induction n; simpl; intros H; auto. rewrite IHn, (H n); auto. lra. Qed.
Lemma total_ge n f k : (forall i, i < n -> (0 <= f i)%R) -> k < n -> (f k <= total n f)%R.
Proof.
  induction n; simpl; intros H Hk. lia. destruct (Nat.eq_dec k n) as [->|].
  - assert (total n (fun _ => 0) <= total n f)%R by (apply total_le; auto).
    rewrite total_zero in H0; auto. lra.
  - pose proof (IHn ltac:(auto) ltac:(lia)). pose proof (H n ltac:(lia)). lra.
Qed.
Lemma total_single n f k : k < n -> (forall i, i < n -> i <> k -> f i = 0%R) -> total n f = f k.
Proof.
  induction n; simpl; intros Hk H. lia. destruct (Nat.eq_dec k n) as [->|].
  - rewrite total_zero. lra. intros; apply H; lia.
  - rewrite IHn, (H n); auto. lra. lia.
Qed.
(** Reversing the order. *)
Lemma total_rev n f : total n f = total n (fun i => f (n - 1 - i)).
Proof.
  induction n. reflexivity. transitivity (f n + total n f)%R. simpl; lra.
  rewrite total_S, IHn. replace (S n - 1 - 0) with n by lia. f_equal.
  apply total_ext. intros i Hi. f_equal. lia.
Qed.

Lemma wsum_ext h w f g : (forall i j, i < h -> j < w -> f i j = g i j) -> window_sum h w f = window_sum h w g.
Proof. intros H. apply total_ext. intros. apply total_ext. auto. Qed.
Lemma wsum_scal h w c f : window_sum h w (fun i j => c * f i j)%R = (c * window_sum h w f)%R.
Proof.
  unfold window_sum. rewrite <- total_scal. apply total_ext. intros. apply total_scal.
Qed.
Lemma wsum_plus h w f g : window_sum h w (fun i j => f i j + g i j)%R = (window_sum h w f + window_sum h w g)%R.
Proof.
  unfold window_sum. rewrite <- total_plus. apply total_ext. intros. apply total_plus.
Qed.
Lemma wsum_le h w f g : (forall i j, i < h -> j < w -> (f i j <= g i j)%R) -> (window_sum h w f <= window_sum h w g)%R.
Proof. intros H. apply total_le. intros. apply total_le. auto. Qed.
Lemma wsum_ge h w f i j : (forall i j, i < h -> j < w -> (0 <= f i j)%R) -> i < h -> j < w -> (f i j <= window_sum h w f)%R.
Proof.
  intros H Hi Hj. apply Rle_trans with (total w (f i)).
  - apply (total_ge w (f i)); auto.
  - apply (total_ge h (fun i => total w (f i))); auto. intros k Hk.
    rewrite <- (total_zero w (fun _ => 0%R)); auto. apply total_le. auto.
Qed.
Lemma wsum_single h w f i j : i < h -> j < w ->
  (forall i' j', i' < h -> j' < w -> (i', j') <> (i, j) -> f i' j' = 0%R) -> window_sum h w f = f i j.
Proof.
  intros Hi Hj H. unfold window_sum. rewrite (total_single h _ i); auto.
  - apply total_single; auto. intros. apply H; auto. congruence.
  - intros i' Hi' N. apply total_zero. intros. apply H; auto. congruence.
Qed.
Lemma wsum_rev h w f : window_sum h w f = window_sum h w (fun i j => f (h - 1 - i) (w - 1 - j)).
Proof.
  unfold window_sum. rewrite total_rev. apply total_ext. intros. apply total_rev.
Qed.

(** Sums over lists and sums over indices. *)
Lemma sumR_total {A} (f : A -> R) l d n : length l = n -> sumR f l = total n (fun i => f (nth i l d)).
Proof.
  revert n. induction l; intros n <-. reflexivity.
  simpl length. rewrite total_S. simpl. f_equal. apply IHl. reflexivity.
Qed.
Lemma combine_app {A B} (a a' : list A) (b b' : list B) : length a = length b ->
  combine (a ++ a') (b ++ b') = combine a b ++ combine a' b'.
Proof. revert b. induction a; destruct b; simpl; intros H; try lia; auto. f_equal. auto. Qed.
Lemma combine_concat {A B} (a : list (list A)) (b : list (list B)) :
  Forall2 (fun x y => length x = length y) a b ->
  combine (concat a) (concat b) = concat (map (fun xy => combine (fst xy) (snd xy)) (combine a b)).
Proof. induction 1; simpl; auto. rewrite combine_app by auto. rewrite IHForall2. reflexivity. Qed.

Section Cells.
Context {A : Type} (d : A).
Lemma cells_sum (h w : nat) (m : list (list A)) (F : A * (Z * Z) -> R) : window h w m ->
  sumR F (combine (concat m) (concat (build_grid (Z.of_nat h) (Z.of_nat w))))
  = window_sum h w (fun i j => F (entry d m i j, (Z.of_nat i - Z.of_nat (Nat.div2 h), Z.of_nat j - Z.of_nat (Nat.div2 w))%Z)).
Proof.
  intros [Lm Hm]. destruct (build_grid_spec h w) as [Lg [Hg E]].
  set (g := build_grid _ _) in *.
  assert (LL : Forall2 (fun x y => length x = length y) m g).
  { clear E. clearbody g. revert h Lm g Lg Hg. induction Hm; intros h Lm g Lg Hg; destruct g; simpl in *; try lia; constructor.
    - inversion Hg; subst. congruence.
    - inversion Hg; subst. eapply IHHm; eauto. }
  rewrite combine_concat by exact LL. rewrite sumR_concat, sumR_map.
  rewrite (sumR_total _ _ ([], []) h) by (rewrite combine_length; lia).
  unfold window_sum. apply total_ext. intros i Hi.
  rewrite combine_nth by lia. simpl.
  assert (Wi : length (nth i m []) = w) by (rewrite Forall_nth in Hm; apply Hm; lia).
  assert (Gi : length (nth i g []) = w) by (rewrite Forall_nth in Hg; apply Hg; lia).
  rewrite (sumR_total _ _ (d, (0, 0)%Z) w) by (rewrite combine_length; lia).
  apply total_ext. intros j Hj. rewrite combine_nth by lia. unfold entry. f_equal. f_equal.
  specialize (E i j Hi Hj).
  rewrite (nth_error_nth' g []) in E by lia. simpl in E. injection E as E.
  rewrite (nth_error_nth' _ (0, 0)%Z) in E by lia. injection E as E. exact E.
Qed.
Lemma window_guard (h w : nat) (m : list (list A)) : window h w m ->
  let g := build_grid (Z.of_nat h) (Z.of_nat w) in
  (length m =? length g) = true /\ forallb (fun rg => length (fst rg) =? length (snd rg)) (combine m g) = true.
Proof.
  intros [Lm Hm] g. destruct (build_grid_spec h w) as [Lg [Hg _]]. fold g in Lg, Hg. split.
  - apply Nat.eqb_eq. lia.
  - apply forallb_forall. intros [a b] Hin. simpl. apply Nat.eqb_eq.
    rewrite Forall_forall in Hm, Hg. rewrite (Hm a), (Hg b); auto.
    + eapply in_combine_r; eauto.
    + eapply in_combine_l; eauto.
Qed.
(** Arrays of any other shape raise. *)
Lemma guard_window (h w : nat) (m : list (list A)) :
  let g := build_grid (Z.of_nat h) (Z.of_nat w) in
  (length m =? length g) = true -> forallb (fun rg => length (fst rg) =? length (snd rg)) (combine m g) = true -> window h w m.
Proof.
  intros g E1 E2. destruct (build_grid_spec h w) as [Lg [Hg _]]. fold g in Lg, Hg. apply Nat.eqb_eq in E1. split. lia.
  clearbody g. revert E1 E2 Hg. clear Lg. revert g. induction m; destruct g; simpl; intros E1 E2 Hg; try lia; constructor.
  - apply andb_prop in E2. destruct E2 as [E _]. apply Nat.eqb_eq in E. inversion Hg; subst. congruence.
  - apply andb_prop in E2. destruct E2 as [_ E]. inversion Hg; subst. eapply IHm; eauto.
Qed.
End Cells.

Lemma mean_shift_raw kernel h w m coord t : window h w m ->
  let W := window_sum h w (mass kernel h w m) in
  mean_shift_error kernel (Z.of_nat h) (Z.of_nat w) m coord t =
  if Req_EM_T W 0 then Ok None else
  Ok (Some (window_sum h w (fun i j => mass kernel h w m i j *
     IZR (coord (Z.of_nat i - Z.of_nat (Nat.div2 h), Z.of_nat j - Z.of_nat (Nat.div2 w))%Z)) / W)%R).
Proof.
  intros Hw W. unfold mean_shift_error, mean_shift_target.
  destruct (window_guard h w m Hw) as [-> ->]. cbn [negb].
  rewrite !(cells_sum 0%R h w m) by exact Hw. cbn [fst snd].
  match goal with |- context [Req_EM_T ?X 0] => change X with W end.
  destruct (Req_EM_T W 0) as [Z|N]. reflexivity.
  cbn [bind option_map]. f_equal. f_equal.
  transitivity (t * (window_sum h w (mass kernel h w m) / W) + window_sum h w (fun i j => mass kernel h w m i j *
     IZR (coord (Z.of_nat i - Z.of_nat (Nat.div2 h), Z.of_nat j - Z.of_nat (Nat.div2 w))%Z)) / W - t)%R.
  - f_equal. unfold Rdiv. rewrite !(Rmult_comm _ (/ W)), <- !wsum_scal, <- wsum_plus.
    apply wsum_ext. intros i j _ _. fold W. unfold mass. lra.
  - fold W. field. exact N.
Qed.

Lemma offset_IZR i k : IZR (Z.of_nat i - Z.of_nat k) = (INR i - INR k)%R.
Proof. rewrite minus_IZR, <- !INR_IZR_INZ. reflexivity. Qed.
Lemma mean_shift_y kernel h w m t : window h w m -> window_sum h w (mass kernel h w m) <> 0%R ->
  mean_shift_error kernel (Z.of_nat h) (Z.of_nat w) m fst t = Ok (Some (mass_offset h w (mass kernel h w m))).
Proof.
  intros Hw N. rewrite mean_shift_raw by exact Hw. destruct (Req_EM_T _ 0); [contradiction|].
  unfold mass_offset. do 3 f_equal. apply wsum_ext. intros. cbn [fst]. rewrite offset_IZR. reflexivity.
Qed.
Lemma mean_shift_x kernel h w m t : window h w m -> window_sum h w (mass kernel h w m) <> 0%R ->
  mean_shift_error kernel (Z.of_nat h) (Z.of_nat w) m snd t = Ok (Some (mass_offset_x h w (mass kernel h w m))).
Proof.
  intros Hw N. rewrite mean_shift_raw by exact Hw. destruct (Req_EM_T _ 0); [contradiction|].
  unfold mass_offset_x. do 3 f_equal. apply wsum_ext. intros. cbn [snd]. rewrite offset_IZR. reflexivity.
Qed.
Lemma mean_shift_nan kernel h w m coord t : window h w m -> window_sum h w (mass kernel h w m) = 0%R ->
  mean_shift_error kernel (Z.of_nat h) (Z.of_nat w) m coord t = Ok None.
Proof. intros Hw Z. rewrite mean_shift_raw by exact Hw. destruct (Req_EM_T _ 0); [reflexivity|contradiction]. Qed.
Lemma mean_shift_shape kernel (h w : nat) m coord t : ~ window h w m ->
  mean_shift_error kernel (Z.of_nat h) (Z.of_nat w) m coord t = Err ValueError.
Proof.
  intros N. unfold mean_shift_error, mean_shift_target.
  destruct (length m =? _) eqn:E1; [|reflexivity]. cbn [negb].
  destruct (forallb _ _) eqn:E2; [|reflexivity]. exfalso. apply N. eapply guard_window; eauto.
Qed.

Section Mass.
Variables (h w : nat) (m : nat -> nat -> R).
Hypothesis Hm : forall i j, i < h -> j < w -> (0 <= m i j)%R.
Hypothesis HW : (0 < window_sum h w m)%R.
Lemma mean_bounds (o : nat -> nat -> R) lo hi : (forall i j, i < h -> j < w -> (lo <= o i j <= hi)%R) ->
  (lo <= window_sum h w (fun i j => m i j * o i j) / window_sum h w m <= hi)%R.
Proof.
  intros H. set (W := window_sum h w m) in *. split.
  - apply (Rmult_le_reg_r W); auto. replace (window_sum h w (fun i j => m i j * o i j) / W * W)%R
      with (window_sum h w (fun i j => m i j * o i j))%R by (field; lra).
    unfold W. rewrite <- wsum_scal. apply wsum_le. intros i j Hi Hj. pose proof (H i j Hi Hj). pose proof (Hm i j Hi Hj). nra.
  - apply (Rmult_le_reg_r W); auto. replace (window_sum h w (fun i j => m i j * o i j) / W * W)%R
      with (window_sum h w (fun i j => m i j * o i j))%R by (field; lra).
    unfold W. rewrite <- wsum_scal. apply wsum_le. intros i j Hi Hj. pose proof (H i j Hi Hj). pose proof (Hm i j Hi Hj). nra.
Qed.
End Mass.

Lemma mass_bounds h w m : (forall i j, i < h -> j < w -> (0 <= m i j)%R) -> (0 < window_sum h w m)%R ->
  (- INR (Nat.div2 h) <= mass_offset h w m <= INR h - 1 - INR (Nat.div2 h))%R /\
  (- INR (Nat.div2 w) <= mass_offset_x h w m <= INR w - 1 - INR (Nat.div2 w))%R.
Proof.
  intros Hm HW. split; apply mean_bounds; auto; intros i j Hi Hj.
  - pose proof (pos_INR i). apply le_INR in Hi. rewrite S_INR in Hi. lra.
  - pose proof (pos_INR j). apply le_INR in Hj. rewrite S_INR in Hj. lra.
Qed.
Lemma mass_single h w m i j : i < h -> j < w -> m i j <> 0%R ->
  (forall i' j', i' < h -> j' < w -> (i', j') <> (i, j) -> m i' j' = 0%R) ->
  mass_offset h w m = (INR i - INR (Nat.div2 h))%R /\ mass_offset_x h w m = (INR j - INR (Nat.div2 w))%R.
Proof.
  intros Hi Hj N Z. unfold mass_offset, mass_offset_x.
  assert (Zf : forall f : nat -> nat -> R, window_sum h w (fun i j => m i j * f i j)%R = (m i j * f i j)%R).
  { intros f. apply (wsum_single h w (fun i j => m i j * f i j)%R); auto. intros. rewrite Z; auto. lra. }
  rewrite !Zf, (wsum_single h w m i j); auto. split; field; exact N.
Qed.
(** Masses that are the same at opposite pixels. *)
Lemma odd_half h : Nat.odd h = true -> h = 2 * Nat.div2 h + 1.
Proof. intros H. pose proof (Nat.div2_odd h). rewrite H in *. simpl Nat.b2n in *. lia. Qed.
Lemma even_half h : Nat.even h = true -> h = 2 * Nat.div2 h.
Proof. intros H. pose proof (Nat.div2_odd h). rewrite <- Nat.negb_even, H in *. simpl Nat.b2n in *. lia. Qed.
Lemma mass_centre h w m : Nat.odd h = true -> Nat.odd w = true ->
  (forall i j, i < h -> j < w -> m (h - 1 - i) (w - 1 - j) = m i j) ->
  mass_offset h w m = 0%R /\ mass_offset_x h w m = 0%R.
Proof.
  intros Oh Ow S. unfold mass_offset, mass_offset_x.
  assert (Z : forall o : nat -> nat -> R, (forall i j, i < h -> j < w -> o (h - 1 - i) (w - 1 - j) = (- o i j)%R) ->
             window_sum h w (fun i j => m i j * o i j)%R = 0%R).
  { intros o Ho. assert (E : window_sum h w (fun i j => m i j * o i j)%R = (-1 * window_sum h w (fun i j => m i j * o i j))%R); [|lra].
    rewrite wsum_rev at 1. rewrite <- wsum_scal. apply wsum_ext. intros i j Hi Hj. rewrite S, Ho by auto. lra. }
  assert (OO : forall h i, Nat.odd h = true -> i < h ->
     (INR (h - 1 - i) - INR (Nat.div2 h) = - (INR i - INR (Nat.div2 h)))%R).
  { intros h' i O Hi. apply odd_half in O. rewrite !minus_INR by lia. rewrite O at 1. rewrite plus_INR, mult_INR. simpl. lra. }
  rewrite !Z; [unfold Rdiv; lra| |]; intros i j Hi Hj; apply OO; auto.
Qed.
(** With an even number of rows the first row has no opposite row. *)
Lemma total_mirror n f : (forall i, 1 <= i < n -> f (n - i) = (- f i)%R) -> total n f = (if n then 0 else f 0%nat)%R.
Proof.
  destruct n. reflexivity. intros H. rewrite total_S.
  assert (E : total n (fun i => f (S i)) = (-1 * total n (fun i => f (S i)))%R); [|lra].
  rewrite total_rev at 1. rewrite <- total_scal. apply total_ext. intros i Hi.
  replace (S (n - 1 - i)) with (S n - S i) by lia. rewrite H by lia. lra.
Qed.
Lemma mass_even h w m : Nat.even h = true -> 0 < h ->
  (forall i j, 1 <= i < h -> j < w -> m (h - i) j = m i j) ->
  mass_offset h w m = (- INR (Nat.div2 h) * total w (m 0%nat) / window_sum h w m)%R.
Proof.
  intros Eh Ph S. unfold mass_offset. f_equal. unfold window_sum at 1. rewrite total_mirror.
  - destruct h; [lia|]. rewrite <- total_scal. apply total_ext. intros. simpl INR at 1. lra.
  - intros i Hi. transitivity (total w (fun j => -1 * (m i j * (INR i - INR (Nat.div2 h))))%R).
    + apply total_ext. intros j Hj. rewrite S by auto. rewrite minus_INR by lia. apply even_half in Eh.
      rewrite Eh at 1. rewrite mult_INR. simpl INR at 1. lra.
    + rewrite total_scal. lra.
Qed.
Lemma entry_repeat {A} (d c : A) h w i j : i < h -> j < w -> entry d (repeat (repeat c w) h) i j = c.
Proof.
  intros Hi Hj. unfold entry. rewrite (nth_indep _ [] (repeat c w)) by (rewrite repeat_length; auto).
  rewrite nth_repeat. rewrite (nth_indep _ d c) by (rewrite repeat_length; auto). apply nth_repeat.
Qed.
Lemma window_repeat {A} (c : A) h w : window h w (repeat (repeat c w) h).
Proof. split. apply repeat_length. apply Forall_forall. intros r Hr. apply repeat_spec in Hr. subst. apply repeat_length. Qed.
Lemma wsum_pos h w m : 0 < h -> 0 < w -> (forall i j, i < h -> j < w -> (0 < m i j)%R) -> (0 < window_sum h w m)%R.
Proof.
  intros Hh Hw H. apply Rlt_le_trans with (m 0 0). auto. apply (wsum_ge h w m); auto. intros. left; auto.
Qed.
Lemma even_bias kernel h w c t : Nat.even h = true -> 0 < h -> 0 < w -> (0 < c)%R ->
  (forall y x, (0 < kernel y x)%R) -> (forall y x, kernel (- y)%Z x = kernel y x) ->
  exists e, mean_shift_error kernel (Z.of_nat h) (Z.of_nat w) (repeat (repeat c w) h) fst t = Ok (Some e) /\ (e < 0)%R.
Proof.
  intros Eh Hh Hw Hc Kp Ks. set (m := mass kernel h w (repeat (repeat c w) h)).
  assert (P : forall i j, i < h -> j < w -> (0 < m i j)%R).
  { intros i j Hi Hj. unfold m, mass. rewrite entry_repeat by auto. apply Rmult_lt_0_compat; auto. }
  pose proof (wsum_pos h w m Hh Hw P) as W. exists (mass_offset h w m). split.
  - apply mean_shift_y. apply window_repeat. fold m. lra.
  - rewrite mass_even; auto.
    + assert (0 < total w (m 0%nat))%R.
      { apply Rlt_le_trans with (m 0 0). auto. apply (total_ge w (m 0)); auto. intros. left; auto. }
      assert (0 < INR (Nat.div2 h))%R by (apply lt_0_INR; apply even_half in Eh; lia).
      pose proof (Rinv_0_lt_compat _ W). unfold Rdiv.
      apply Ropp_lt_cancel. rewrite Ropp_0. rewrite <- !Ropp_mult_distr_l, Ropp_involutive.
      repeat apply Rmult_lt_0_compat; auto.
    + intros i j Hi Hj. unfold m, mass. rewrite !entry_repeat by lia. f_equal.
      rewrite <- Ks. f_equal. apply even_half in Eh. lia.
Qed.
(** Scaling the responses changes nothing. *)
Lemma entry_map {A B} (f : A -> B) dA dB (m : list (list A)) h w i j : window h w m -> i < h -> j < w ->
  entry dB (map (map f) m) i j = f (entry dA m i j).
Proof.
  intros [L H] Hi Hj. unfold entry. change (@nil B) with (map f []). rewrite map_nth.
  rewrite (nth_indep _ dB (f dA)), map_nth; auto. rewrite map_length.
  rewrite Forall_nth in H. rewrite H; lia.
Qed.
Lemma window_map {A B} (f : A -> B) (m : list (list A)) h w : window h w m -> window h w (map (map f) m).
Proof.
  intros [L H]. split. rewrite map_length; auto. rewrite Forall_map. eapply Forall_impl; [|exact H].
  intros r Hr. simpl. rewrite map_length. exact Hr.
Qed.
Lemma mean_shift_scale kernel h w m coord t c : window h w m -> c <> 0%R ->
  mean_shift_error kernel (Z.of_nat h) (Z.of_nat w) (map (map (Rmult c)) m) coord t =
  mean_shift_error kernel (Z.of_nat h) (Z.of_nat w) m coord t.
Proof.
  intros Hw Hc. rewrite !mean_shift_raw; auto using window_map.
  assert (E : forall i j, i < h -> j < w -> mass kernel h w (map (map (Rmult c)) m) i j = (c * mass kernel h w m i j)%R).
  { intros. unfold mass. rewrite (entry_map _ 0%R) with (h := h) (w := w); auto. lra. }
  rewrite (wsum_ext h w (mass kernel h w (map (map (Rmult c)) m)) (fun i j => c * mass kernel h w m i j)%R) by auto.
  rewrite wsum_scal. set (W := window_sum h w (mass kernel h w m)).
  destruct (Req_EM_T (c * W) 0) as [Z|N]; destruct (Req_EM_T W 0) as [Z'|N']; auto.
  - exfalso. apply N'. apply Rmult_integral in Z. tauto.
  - exfalso. apply N. rewrite Z'. lra.
  - do 2 f_equal. rewrite (wsum_ext h w _ (fun i j => c * (mass kernel h w m i j *
      IZR (coord (Z.of_nat i - Z.of_nat (Nat.div2 h), Z.of_nat j - Z.of_nat (Nat.div2 w))%Z)))%R).
    rewrite wsum_scal. field; auto. intros. rewrite E by auto. lra.
Qed.
