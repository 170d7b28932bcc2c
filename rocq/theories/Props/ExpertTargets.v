(** C110: the experts are trained to answer with one peak, at their landmark. *)
From Coq Require Import List ZArith Reals Lra Lia.
From Verif.Model Require Import Py Base Ensemble.
From Verif.Props Require Base.
Import ListNotations.
Local Open Scope nat_scope.

Definition px (x : list (list R)) (i j : nat) : R := nth j (nth i x []) 0%R.
Definition sized {A} (h w : nat) (x : list (list A)) : Prop := length x = h /\ forall r, In r x -> length r = w.
(** The landmark sits at row h // 2 and column w // 2 of a patch; squared distance from there. *)
Definition away (h w i j : nat) : Z :=
  let y := (Z.of_nat i - Z.of_nat h / 2)%Z in let x := (Z.of_nat j - Z.of_nat w / 2)%Z in (y * y + x * x)%Z.

Lemma nth_map_in {A B} (f : A -> B) l n d d' : n < length l -> nth n (map f l) d = f (nth n l d').
Proof. intros H. rewrite (nth_indep _ _ (f d')) by (rewrite map_length; exact H). apply map_nth. Qed.
Lemma axis_length n : length (mgrid_axis (- (Z.of_nat n / 2)) (Z.of_nat n / 2 + Z.of_nat n mod 2)) = n.
Proof. unfold mgrid_axis. rewrite map_length, seq_length. pose proof (Z.div_mod (Z.of_nat n) 2). lia. Qed.
Lemma axis_nth n k d : k < n -> nth k (mgrid_axis (- (Z.of_nat n / 2)) (Z.of_nat n / 2 + Z.of_nat n mod 2)) d = (Z.of_nat k - Z.of_nat n / 2)%Z.
Proof.
  intros H. pose proof (axis_length n) as L. unfold mgrid_axis in *. rewrite map_length, seq_length in L. rewrite L.
  rewrite (nth_map_in _ _ _ _ 0) by (rewrite seq_length; exact H). rewrite seq_nth by exact H. lia.
Qed.

Lemma response_px h w c : (0 < c)%R -> exists r, generate_gaussian_response (h, w) c = Ok r /\ sized h w r /\
  forall i j, i < h -> j < w -> px r i j = (exp (- IZR (away h w i j) / (2 * c)) / (2 * PI * c))%R.
Proof.
  intros Hc. unfold generate_gaussian_response. destruct (Rlt_dec 0 c) as [_|L]; [|contradiction]. eexists. split; [reflexivity|].
  unfold build_grid. cbn [fst snd]. split.
  - split; [rewrite !map_length; apply axis_length|]. intros r H. apply in_map_iff in H. destruct H as (r' & <- & H).
    apply in_map_iff in H. destruct H as (y & <- & _). rewrite !map_length. apply axis_length.
  - intros i j Hi Hj. unfold px. rewrite (nth_map_in _ _ _ _ []) by (rewrite map_length, axis_length; exact Hi).
    rewrite (nth_map_in _ _ _ _ 0%Z) by (rewrite axis_length; exact Hi).
    rewrite (nth_map_in _ _ _ _ (0, 0)%Z) by (rewrite map_length, axis_length; exact Hj).
    rewrite (nth_map_in _ _ _ _ 0%Z) by (rewrite axis_length; exact Hj). rewrite !axis_nth by assumption.
    unfold gaussian_pdf, away. cbn [fst snd]. rewrite plus_IZR, !mult_IZR. do 4 f_equal; ring.
Qed.

(** ** C110 *)
(** The desired response has the size of the patch, is positive, decreases strictly with the distance from the landmark, and so
    has its only maximum there. *)
Theorem c110_response : forall h w c, (0 < c)%R -> exists r, generate_gaussian_response (h, w) c = Ok r /\ sized h w r /\
  (forall i j, i < h -> j < w -> (0 < px r i j)%R) /\
  (forall i j i' j', i < h -> j < w -> i' < h -> j' < w -> ((px r i j < px r i' j')%R <-> (away h w i' j' < away h w i j)%Z)) /\
  forall i j, i < h -> j < w -> (i, j) <> (h / 2, w / 2) -> (px r i j < px r (h / 2) (w / 2))%R.
Proof.
  intros h w c Hc. destruct (response_px h w c Hc) as (r & E & S & V). exists r. do 2 (split; [assumption|]).
  assert (Hp : (0 < 2 * PI * c)%R) by (pose proof PI_RGT_0; apply Rmult_lt_0_compat; lra).
  assert (M : forall i j i' j', i < h -> j < w -> i' < h -> j' < w -> ((px r i j < px r i' j')%R <-> (away h w i' j' < away h w i j)%Z)).
  { assert (K : forall a b : Z, (a < b)%Z -> (exp (- IZR b / (2 * c)) / (2 * PI * c) < exp (- IZR a / (2 * c)) / (2 * PI * c))%R).
    { intros a b H. apply Rmult_lt_compat_r; [apply Rinv_0_lt_compat; exact Hp|]. apply exp_increasing. apply IZR_lt in H.
      apply Rmult_lt_compat_r; [apply Rinv_0_lt_compat; lra|lra]. }
    intros i j i' j' Hi Hj Hi' Hj'. rewrite !V by assumption. split; [|apply K]. intros H.
    destruct (Z.lt_trichotomy (away h w i' j') (away h w i j)) as [L|[L|L]]; [exact L|rewrite L in H; lra|apply K in L; lra]. }
  split; [|split; [exact M|]].
  - intros i j Hi Hj. rewrite V by assumption. apply Rdiv_lt_0_compat; [apply exp_pos|exact Hp].
  - intros i j Hi Hj N. assert (Hh : h / 2 < h) by (apply Nat.div_lt; lia). assert (Hw : w / 2 < w) by (apply Nat.div_lt; lia).
    apply M; [assumption..|]. unfold away.
    pose proof (div_Zdiv h 2 ltac:(lia)) as Dh. pose proof (div_Zdiv w 2 ltac:(lia)) as Dw. cbn [Z.of_nat Pos.of_succ_nat Pos.succ] in Dh, Dw.
    rewrite <- Dh, <- Dw. rewrite !Z.sub_diag.
    assert (D : Z.of_nat i <> Z.of_nat (h / 2) \/ Z.of_nat j <> Z.of_nat (w / 2)).
    { destruct (Nat.eq_dec i (h / 2)) as [->|]; [|left; lia]. destruct (Nat.eq_dec j (w / 2)) as [->|]; [congruence|right; lia]. }
    assert (D' : (Z.of_nat i - Z.of_nat (h / 2) <> 0 \/ Z.of_nat j - Z.of_nat (w / 2) <> 0)%Z) by lia.
    revert D'. generalize (Z.of_nat i - Z.of_nat (h / 2))%Z (Z.of_nat j - Z.of_nat (w / 2))%Z. clear. intros a b D'.
    pose proof (Z.square_nonneg a). pose proof (Z.square_nonneg b). destruct D' as [D'|D']; nia.
Qed.
Print Assumptions c110_response.

Definition theta (m k : nat) : R := (PI * IZR (2 * Z.of_nat k - (Z.of_nat m - 1)) / (2 * IZR (Z.of_nat m - 1)))%R.
Lemma hanning_length m : length (hanning m) = m.
Proof. unfold hanning. destruct (Nat.eqb_spec m 1) as [->|_]; [reflexivity|]. rewrite map_length, seq_length. reflexivity. Qed.
Lemma hanning_nth m k : 2 <= m -> k < m -> nth k (hanning m) 0%R = (cos (theta m k) * cos (theta m k))%R.
Proof.
  intros Hm Hk. unfold hanning. destruct (Nat.eqb_spec m 1) as [->|_]; [lia|].
  rewrite (nth_map_in _ _ _ _ 0) by (rewrite seq_length; exact Hk). rewrite seq_nth by exact Hk. cbn [Nat.add].
  replace (2 * PI * INR k / (INR m - 1))%R with (2 * theta m k + PI)%R.
  - rewrite neg_cos, cos_2a_cos. lra.
  - unfold theta. rewrite !minus_IZR, mult_IZR, <- !INR_IZR_INZ. field. apply (lt_INR 1) in Hm. cbn [INR] in Hm. lra.
Qed.
(** The distance from the middle, as a number between 0 and m - 1, decides. *)
Lemma theta_abs m k : 2 <= m -> k < m ->
  cos (theta m k) = cos (PI * IZR (Z.abs (2 * Z.of_nat k - (Z.of_nat m - 1))) / (2 * IZR (Z.of_nat m - 1)))%R.
Proof.
  intros Hm Hk. unfold theta. destruct (Z.abs_spec (2 * Z.of_nat k - (Z.of_nat m - 1))) as [[_ ->]|[_ ->]]; [reflexivity|].
  rewrite opp_IZR, <- cos_neg. f_equal. field. apply not_0_IZR. lia.
Qed.
Definition dist (m k : nat) : Z := Z.abs (2 * Z.of_nat k - (Z.of_nat m - 1)).
Definition h (m : nat) (d : Z) : R := cos (PI * IZR d / (2 * IZR (Z.of_nat m - 1)))%R.
Lemma h_range m d : 2 <= m -> (0 <= d <= Z.of_nat m - 1)%Z -> (0 <= PI * IZR d / (2 * IZR (Z.of_nat m - 1)) <= PI / 2)%R.
Proof.
  intros Hm [H0 H1]. pose proof PI_RGT_0 as P. apply IZR_le in H0, H1. assert (Hn : (0 < IZR (Z.of_nat m - 1))%R) by (apply IZR_lt; lia).
  split; [apply Rmult_le_pos; [apply Rmult_le_pos; lra|left; apply Rinv_0_lt_compat; lra]|].
  apply Rmult_le_reg_r with (2 * IZR (Z.of_nat m - 1))%R; [lra|].
  replace (PI * IZR d / (2 * IZR (Z.of_nat m - 1)) * (2 * IZR (Z.of_nat m - 1)))%R with (PI * IZR d)%R by (field; lra).
  replace (PI / 2 * (2 * IZR (Z.of_nat m - 1)))%R with (PI * IZR (Z.of_nat m - 1))%R by field. apply Rmult_le_compat_l; lra.
Qed.
Lemma h_nonneg m d : 2 <= m -> (0 <= d <= Z.of_nat m - 1)%Z -> (0 <= h m d)%R.
Proof. intros Hm H. destruct (h_range m d Hm H). apply cos_ge_0; lra. Qed.
Lemma h_decr m d e : 2 <= m -> (0 <= d < e)%Z -> (e <= Z.of_nat m - 1)%Z -> (h m e < h m d)%R.
Proof.
  intros Hm H He. destruct (h_range m d Hm ltac:(lia)), (h_range m e Hm ltac:(lia)). pose proof PI_RGT_0 as P.
  apply cos_decreasing_1; try lra. assert (Hn : (0 < IZR (Z.of_nat m - 1))%R) by (apply IZR_lt; lia).
  apply Rmult_lt_compat_r; [apply Rinv_0_lt_compat; lra|]. apply Rmult_lt_compat_l; [lra|]. apply IZR_lt. lia.
Qed.
Lemma h_last m : 2 <= m -> h m (Z.of_nat m - 1) = 0%R.
Proof.
  intros Hm. unfold h. replace (PI * IZR (Z.of_nat m - 1) / (2 * IZR (Z.of_nat m - 1)))%R with (PI / 2)%R; [apply cos_PI2|].
  field. apply not_0_IZR. lia.
Qed.
Lemma dist_range m k : 2 <= m -> k < m -> (0 <= dist m k <= Z.of_nat m - 1)%Z.
Proof. unfold dist. lia. Qed.
Lemma hann_value m k : 2 <= m -> k < m -> nth k (hanning m) 0%R = (h m (dist m k) * h m (dist m k))%R.
Proof. intros Hm Hk. rewrite hanning_nth by assumption. rewrite !theta_abs by assumption. reflexivity. Qed.
Lemma hann_bounds m k : k < m -> (0 <= nth k (hanning m) 0 <= 1)%R.
Proof.
  intros Hk. destruct (le_lt_dec 2 m) as [Hm|Hm].
  - rewrite hanning_nth by assumption. destruct (COS_bound (theta m k)). split; nra.
  - destruct m as [|[|]]; [lia| |lia]. destruct k; [cbn; lra|lia].
Qed.
Lemma hann_border m k : 2 <= m -> k < m -> (nth k (hanning m) 0%R = 0%R <-> k = 0 \/ k = m - 1).
Proof.
  intros Hm Hk. rewrite hann_value by assumption. pose proof (dist_range m k Hm Hk) as D. split.
  - intros E. destruct (Z.eq_dec (dist m k) (Z.of_nat m - 1)) as [F|F]; [unfold dist in F; lia|].
    pose proof (h_decr m (dist m k) (Z.of_nat m - 1) Hm ltac:(lia) ltac:(lia)) as L. rewrite h_last in L by exact Hm. nra.
  - intros H. replace (dist m k) with (Z.of_nat m - 1)%Z by (unfold dist; lia). rewrite h_last by exact Hm. ring.
Qed.
Lemma hann_rev m k : k < m -> nth (m - 1 - k) (hanning m) 0%R = nth k (hanning m) 0%R.
Proof.
  intros Hk. destruct (le_lt_dec 2 m) as [Hm|Hm].
  - rewrite !hann_value by lia. replace (dist m (m - 1 - k)) with (dist m k) by (unfold dist; lia). reflexivity.
  - destruct m as [|[|]]; [lia| |lia]. destruct k; [reflexivity|lia].
Qed.
Lemma hann_mono m k k' : 2 <= m -> k < m -> k' < m -> (dist m k <= dist m k')%Z -> (nth k' (hanning m) 0 <= nth k (hanning m) 0)%R.
Proof.
  intros Hm Hk Hk' L. rewrite !hann_value by assumption. pose proof (dist_range m k Hm Hk) as D. pose proof (dist_range m k' Hm Hk') as D'.
  destruct (Z.eq_dec (dist m k) (dist m k')) as [->|N]; [lra|].
  pose proof (h_decr m (dist m k) (dist m k') Hm ltac:(lia) ltac:(lia)). pose proof (h_nonneg m (dist m k') Hm D'). nra.
Qed.
Lemma hann_centre m k : k < m -> (nth k (hanning m) 0 <= nth (m / 2) (hanning m) 0)%R.
Proof.
  intros Hk. destruct (le_lt_dec 2 m) as [Hm|Hm].
  - apply hann_mono; try assumption; [apply Nat.div_lt; lia|]. unfold dist. pose proof (Nat.div_mod m 2). pose proof (Nat.mod_upper_bound m 2). lia.
  - destruct m as [|[|]]; [lia| |lia]. destruct k; [cbn; lra|lia].
Qed.
Lemma flat_nth (rows : list (list R)) w i j : (forall r, In r rows -> length r = w) -> i < length rows -> j < w ->
  nth (i * w + j) (concat rows) 0%R = px rows i j.
Proof.
  revert i. induction rows as [|r rows IH]; intros i Hr Hi Hj; [cbn in Hi; lia|]. cbn [concat]. pose proof (Hr r (or_introl eq_refl)) as Lr.
  destruct i as [|i].
  - rewrite app_nth1 by lia. reflexivity.
  - rewrite app_nth2 by (cbn; lia). cbn [length] in Hi. change (px (r :: rows) (S i) j) with (px rows i j). rewrite <- (IH i); [f_equal; rewrite Lr; cbn; lia| |lia|exact Hj].
    intros r' H. apply Hr. now right.
Qed.
(** Pixel (i, j) of the window, which is stored row by row. *)
Definition weight (h w i j : nat) : R := nth (i * w + j) (generate_cosine_mask (h, w)) 0%R.
Lemma mask_px h w i j : i < h -> j < w -> weight h w i j = (nth i (hanning h) 0 * nth j (hanning w) 0)%R.
Proof.
  intros Hi Hj. unfold weight, generate_cosine_mask. cbn [fst snd]. rewrite flat_nth; [|..].
  - unfold px. rewrite (nth_map_in _ _ _ _ 0%R) by (rewrite hanning_length; exact Hi).
    rewrite (nth_map_in _ _ _ _ 0%R) by (rewrite hanning_length; exact Hj). reflexivity.
  - intros r H. apply in_map_iff in H. destruct H as (a & <- & _). rewrite map_length. apply hanning_length.
  - rewrite map_length, hanning_length. exact Hi.
  - exact Hj.
Qed.
Lemma mask_length h w : length (generate_cosine_mask (h, w)) = h * w.
Proof.
  unfold generate_cosine_mask. cbn [fst snd]. transitivity (length (hanning h) * w); [|rewrite hanning_length; reflexivity].
  induction (hanning h) as [|a l IH]; [reflexivity|]. cbn [map concat length Nat.mul]. rewrite app_length, map_length, hanning_length, IH. reflexivity.
Qed.
(** The window has the size of the context, weighs between 0 and 1, is symmetrical, and no pixel weighs more than the landmark's. *)
Theorem c110_window : forall h w, length (generate_cosine_mask (h, w)) = h * w /\
  forall i j, i < h -> j < w ->
    (0 <= weight h w i j <= 1)%R /\ weight h w (h - 1 - i) j = weight h w i j /\ weight h w i (w - 1 - j) = weight h w i j /\
    (weight h w i j <= weight h w (h / 2) (w / 2))%R.
Proof.
  intros h w. split; [apply mask_length|]. intros i j Hi Hj.
  rewrite !mask_px by (try assumption; try lia; apply Nat.div_lt; lia). rewrite !hann_rev by assumption.
  destruct (hann_bounds h i Hi), (hann_bounds w j Hj). pose proof (hann_centre h i Hi). pose proof (hann_centre w j Hj).
  split; [split; nra|]. do 2 (split; [reflexivity|]). nra.
Qed.
Print Assumptions c110_window.
(** From 2 x 2 on it vanishes on the border, and only there. *)
Theorem c110_border : forall h w i j, 2 <= h -> 2 <= w -> i < h -> j < w ->
  (weight h w i j = 0%R <-> i = 0 \/ i = h - 1 \/ j = 0 \/ j = w - 1).
Proof.
  intros h w i j Hh Hw Hi Hj. rewrite mask_px by assumption. pose proof (hann_border h i Hh Hi) as A. pose proof (hann_border w j Hw Hj) as B.
  split; [intros E; apply Rmult_integral in E|intros E]; [tauto|].
  destruct A as [_ A], B as [_ B]. destruct E as [E|[E|[E|E]]]; [rewrite A|rewrite A|rewrite B|rewrite B]; auto; ring.
Qed.
Print Assumptions c110_border.
Section Patches.
Context {Img Pt Off : Type}.
Variable extract : Img -> Pt -> nat * nat -> Off -> list (list R).
(** What an expert is trained on: the channels of all offsets, normalised, times the window, or left alone without it. *)
Theorem c110_training_patch : forall (o : settings (Off := Off)) h w image landmark, context_shape o = (h, w) ->
  let normalised := norm3 o (concat (map (extract image landmark (h, w)) (sample_offsets o))) in
  (forall c, In c normalised -> length c = h * w) ->
  let patch := extract_patch extract o image landmark in
  length patch = length normalised /\
  forall c i j, c < length normalised -> i < h -> j < w ->
    nth (i * w + j) (nth c patch []) 0%R =
    if cosine_mask o then (weight h w i j * nth (i * w + j) (nth c normalised []) 0)%R else nth (i * w + j) (nth c normalised []) 0%R.
Proof.
  intros o h w image landmark Hs normalised Hn. cbv zeta. unfold extract_patch. rewrite Hs. fold normalised.
  destruct (cosine_mask o); [|split; [reflexivity|]; intros; reflexivity]. split; [apply map_length|]. intros c i j Hc Hi Hj.
  rewrite (nth_map_in _ _ _ _ []) by exact Hc. pose proof (Hn _ (nth_In normalised [] Hc)) as L. pose proof (mask_length h w) as Lm.
  assert (i * w + j < h * w) by nia. rewrite (nth_map_in _ _ _ _ (0, 0)%R) by (rewrite combine_length; lia).
  rewrite combine_nth by lia. reflexivity.
Qed.
(** With a context of two rows or two columns nothing is left of any patch. *)
Theorem c110_small_context : forall (o : settings (Off := Off)) h w image landmark, context_shape o = (h, w) -> cosine_mask o = true ->
  (h = 2 /\ 2 <= w) \/ (w = 2 /\ 2 <= h) ->
  (forall c, In c (norm3 o (concat (map (extract image landmark (h, w)) (sample_offsets o)))) -> length c = h * w) ->
  forall c, In c (extract_patch extract o image landmark) -> forall i j, i < h -> j < w -> nth (i * w + j) c 0%R = 0%R.
Proof.
  intros o h w image landmark Hs Hm Hhw Hn c I i j Hi Hj. destruct (c110_training_patch o h w image landmark Hs Hn) as [L V].
  destruct (In_nth _ _ [] I) as (k & Hk & <-). rewrite V by (try assumption; lia). rewrite Hm.
  rewrite (proj2 (c110_border h w i j ltac:(lia) ltac:(lia) Hi Hj)) by lia. ring.
Qed.
End Patches.
Print Assumptions c110_training_patch.
Print Assumptions c110_small_context.

(** The default sizes: patches of 17 x 17 in a context of 34 x 34, covariance 3. *)
Definition default_settings : settings (Off := unit) := mk_settings (17, 17) (34, 34) (fun x => x) (fun x => x) true [tt].
Definition white (_ _ : unit) (s : nat * nat) (_ : unit) : list (list R) := [repeat 1%R (fst s * snd s)].
Example c110_ex : exists r, generate_gaussian_response (17, 17) 3 = Ok r /\ sized 17 17 r /\ (px r 7 8 < px r 8 8)%R /\
  (forall c, In c (norm3 default_settings (concat (map (white tt tt (34, 34)) (sample_offsets default_settings)))) -> length c = 34 * 34) /\
  (0 < weight 34 34 1 32)%R.
Proof.
  destruct (c110_response 17 17 3 ltac:(lra)) as (r & E & S & _ & _ & M). exists r. split; [exact E|]. split; [exact S|].
  split; [apply (M 7 8); [lia|lia|discriminate]|]. split.
  - cbn [default_settings norm3 sample_offsets map white fst snd concat app]. intros c [<-|[]]. apply repeat_length.
  - destruct (proj2 (c110_window 34 34) 1 32 ltac:(lia) ltac:(lia)) as [[L _] _].
    assert (N : weight 34 34 1 32 <> 0%R) by (intros Z; apply c110_border in Z; lia). lra.
Qed.
