(** C51: noisy alignments. *)
From Coq Require Import String List Reals Bool Lra Lia.
From Verif.Model Require Import Py Noise.
From Verif.Spec Require Import Noise.
From Verif.Proofs Require Import Noise.
Import ListNotations.
Local Open Scope R_scope.

Definition uniform_literal := PyStr "uniform" true.
Definition gaussian_literal := PyStr "gaussian" true.

Section C51.
  Variable align : list pt -> list pt -> bool -> res similarity.
  Variable box_of : list pt -> list pt.

  (** How the user may give the percentages: a float, or a list or tuple of one or three values. *)
  Definition given (p : percentage) (p0 p1 p2 : R) : Prop :=
    match p with PFloat x => p0 = x /\ p1 = x /\ p2 = x | PList l | PTuple l => means l p0 p1 p2 | PInt => False end.
  Lemma given_three p p0 p1 p2 : given p p0 p1 p2 -> exists q, three_of p = Ok ([p0; p1; p2], q).
  Proof.
    destruct p as [x|l|l|]; cbn; [intros (-> & -> & ->); eauto| | |contradiction]; intros [->|(-> & -> & ->)]; cbn; eauto.
  Qed.

  (** What the transform does, for any source, target and draws: the point is rotated by r degrees and scaled by 1 + s about
      the centre of the target, translated by t, and only then aligned.  With uniform noise the angle is within 180 p1 degrees
      and the translation within p2 times the sides of the target's box.
      Missing: the bound on the scale, see below. *)
  Theorem c51_uniform_partial : forall source target p p0 p1 p2 rotation d sim, given p p0 p1 p2 -> target <> [] ->
    align source target rotation = Ok sim ->
    0 <= d_r d < 1 -> 0 <= fst (d_t d) < 1 -> 0 <= snd (d_t d) < 1 ->
    exists T q s r t h w, noisy_alignment align source target uniform_literal p rotation d = Ok (T, q) /\
      (forall x, T x = apply_sim sim (translate t (scale_about (centre target) (1 + s) (rotate_about (centre target) r x)))) /\
      Rabs r <= 180 * Rabs p1 /\ has_range target h w /\ Rabs (fst t) <= Rabs p2 * h /\ Rabs (snd t) <= Rabs p2 * w /\
      s = p0 / 2 * (2 * d_s d - 1).
  Proof.
    intros source target p p0 p1 p2 rotation d sim G N A U1 U2 U3. destruct (given_three _ _ _ _ G) as [q Q].
    unfold noisy_alignment. rewrite Q. cbn [bind]. rewrite A. cbn [bind]. change (is_literal uniform_literal "gaussian") with false.
    change (is_literal uniform_literal "uniform") with true. cbn [uniform_noise pct nth_error bind].
    eexists. exists q. eexists. eexists. eexists. exists (fst (range target)), (snd (range target)).
    split; [reflexivity|]. split; [intros x; reflexivity|].
    pose proof (range_spec target N) as RS. assert (RP : 0 <= fst (range target) /\ 0 <= snd (range target)).
    { destruct RS as [B _]. destruct target as [|x ?]; [congruence|]. specialize (B x x (or_introl eq_refl) (or_introl eq_refl)). lra. }
    split.
    { eapply Rle_trans; [apply abs_mul_le, unit_draw; exact U1|]. rewrite Rabs_mult, (Rabs_right 180) by lra. lra. }
    split; [exact RS|]. cbn [fst snd mul scal]. split; [|split].
    - eapply Rle_trans; [apply abs_mul_le, unit_draw; exact U2|]. rewrite Rabs_mult, (Rabs_right (fst (range target))) by lra. apply Rle_refl.
    - eapply Rle_trans; [apply abs_mul_le, unit_draw; exact U3|]. rewrite Rabs_mult, (Rabs_right (snd (range target))) by lra. apply Rle_refl.
    - lra.
  Qed.

  (** With gaussian noise the scale, the angle and the translation are the draws times a sixth of the first percentage, sixty
      degrees times the second and a third of the target's box times the third; applied in the same order. *)
  Theorem c51_gaussian : forall source target p p0 p1 p2 rotation d sim, given p p0 p1 p2 -> target <> [] ->
    align source target rotation = Ok sim ->
    exists T q h w, noisy_alignment align source target gaussian_literal p rotation d = Ok (T, q) /\ has_range target h w /\
      (forall x, T x = apply_sim sim (translate (p2 * h / 3 * fst (d_t d), p2 * w / 3 * snd (d_t d))
                         (scale_about (centre target) (1 + p0 / 6 * d_s d) (rotate_about (centre target) (60 * p1 * d_r d) x)))).
  Proof.
    intros source target p p0 p1 p2 rotation d sim G N A. destruct (given_three _ _ _ _ G) as [q Q].
    unfold noisy_alignment. rewrite Q. cbn [bind]. rewrite A. cbn [bind]. change (is_literal gaussian_literal "gaussian") with true.
    cbn [gaussian_noise pct nth_error bind]. eexists. exists q, (fst (range target)), (snd (range target)).
    split; [reflexivity|]. split; [exact (range_spec target N)|]. intros x. unfold compose_after. f_equal.
    replace (p0 * (0.5 / 3) * d_s d) with (p0 / 6 * d_s d) by lra. replace (p1 * (180 / 3) * d_r d) with (60 * p1 * d_r d) by lra.
    f_equal. unfold mul, scal. cbn [fst snd]. apply pt_eq; cbn [fst snd]; field.
  Qed.

  (** The scale is drawn from a normal distribution even for uniform noise: it leaves every bound, and may even be
      negative, whatever the (non-zero) percentage. *)
  Theorem c51_scale_unbounded_refuted : forall source target p p0 p1 p2 rotation sim bound, given p p0 p1 p2 -> p0 <> 0 ->
    align source target rotation = Ok sim ->
    exists d T q s, 0 <= d_r d < 1 /\ 0 <= fst (d_t d) < 1 /\ 0 <= snd (d_t d) < 1 /\
      noisy_alignment align source target uniform_literal p rotation d = Ok (T, q) /\
      (forall x, T x = apply_sim sim (scale_about (centre target) (1 + s) x)) /\ s < - Rabs bound - 1.
  Proof.
    intros source target p p0 p1 p2 rotation sim bound G N A. destruct (given_three _ _ _ _ G) as [q Q].
    set (u := ((- Rabs bound - 2) * 2 / p0 + 1) / 2). exists (Draws u (/ 2) (/ 2, / 2)). unfold noisy_alignment. rewrite Q. cbn [bind]. rewrite A. cbn [bind].
    change (is_literal uniform_literal "gaussian") with false. change (is_literal uniform_literal "uniform") with true. cbn [uniform_noise pct nth_error bind d_s d_r d_t].
    eexists. exists q. exists (- Rabs bound - 2). cbn [fst snd]. do 3 (split; [lra|]). split; [reflexivity|]. split; [|lra].
    intros x. unfold compose_after.
    assert (E : p0 * 0.5 * (2 * u - 1) = - Rabs bound - 2) by (replace 0.5 with (/ 2) by lra; unfold u; field; exact N). rewrite E.
    assert (E2 : forall k, k * (2 * / 2 - 1) = 0) by (intros; lra). rewrite !E2.
    rewrite rotate_zero. f_equal. unfold translate, mul. cbn [fst snd]. rewrite !E2. apply pt_eq; cbn; lra.
  Qed.

  (** Zero percentages: the exact alignment, for every draw and both types of noise. *)
  Theorem c51_zero_noise : forall source target p rotation d sim ty, given p 0 0 0 -> ty = uniform_literal \/ ty = gaussian_literal ->
    align source target rotation = Ok sim ->
    exists T q, noisy_alignment align source target ty p rotation d = Ok (T, q) /\ forall x, T x = apply_sim sim x.
  Proof.
    intros source target p rotation d sim ty G TY A. destruct (given_three _ _ _ _ G) as [q Q]. unfold noisy_alignment. rewrite Q. cbn [bind]. rewrite A. cbn [bind].
    destruct TY as [-> | ->];
      [change (is_literal uniform_literal "gaussian") with false; change (is_literal uniform_literal "uniform") with true
      |change (is_literal gaussian_literal "gaussian") with true]; cbn [uniform_noise gaussian_noise pct nth_error bind];
      eexists; exists q; (split; [reflexivity|]); intros x; unfold compose_after; rewrite !Rmult_0_l, Rplus_0_r, rotate_zero, scale_one;
      f_equal; unfold translate, mul; cbn [fst snd scal]; apply pt_eq; cbn; lra.
  Qed.
  (** In particular the shape made from a bounding box is then the aligned shape. *)
  Theorem c51_zero_noise_shape : forall shape box p rotation d ty, given p 0 0 0 -> ty = uniform_literal \/ ty = gaussian_literal ->
    noisy_shape_from_bounding_box align box_of shape box ty p rotation d = align_shape_with_bounding_box align box_of shape box rotation.
  Proof.
    intros shape box p rotation d ty G TY. unfold noisy_shape_from_bounding_box, align_shape_with_bounding_box.
    destruct (align (box_of shape) box rotation) as [sim|e] eqn:A.
    - destruct (c51_zero_noise (box_of shape) box p rotation d sim ty G TY A) as (T & q & E & H). rewrite E. cbn [bind]. f_equal. apply map_ext. exact H.
    - destruct (given_three _ _ _ _ G) as [q Q]. unfold noisy_alignment. rewrite Q. cbn [bind]. rewrite A. reflexivity.
  Qed.

  (** And the shape made from another shape is the reference aligned with it. *)
  Theorem c51_zero_noise_from_shape : forall reference shape p rotation d ty, given p 0 0 0 -> ty = uniform_literal \/ ty = gaussian_literal ->
    noisy_shape_from_shape align reference shape ty p rotation d =
    match align reference shape rotation with Ok sim => Ok (map (apply_sim sim) reference) | Err e => Err e end.
  Proof.
    intros reference shape p rotation d ty G TY. unfold noisy_shape_from_shape. destruct (align reference shape rotation) as [sim|e] eqn:A.
    - destruct (c51_zero_noise reference shape p rotation d sim ty G TY A) as (T & q & E & H). rewrite E. cbn [bind]. f_equal. apply map_ext. exact H.
    - destruct (given_three _ _ _ _ G) as [q Q]. unfold noisy_alignment. rewrite Q. cbn [bind]. rewrite A. reflexivity.
  Qed.

  (** Which list the caller has afterwards: it is unchanged unless it is a list of one element, which becomes three. *)
  Theorem c51_percentage_kept_partial : forall source target ty p rotation d T q,
    noisy_alignment align source target ty p rotation d = Ok (T, q) -> (forall x, p <> PList [x]) -> q = p.
  Proof.
    intros source target ty p rotation d T q H N. unfold noisy_alignment in H. destruct (three_of p) as [[l after]|] eqn:E; [|discriminate]. cbn [bind] in H.
    destruct (align source target rotation); [|discriminate]. cbn [bind] in H.
    match type of H with bind ?a _ = _ => destruct a as [[[s r] t]|]; [|discriminate] end. cbn [bind] in H. injection H as _ <-.
    destruct p as [x|[|x [|y l0]]|[|x [|y l0]]|]; cbn in E; try discriminate; try (injection E as <- <-; reflexivity). exfalso. apply (N x). reflexivity.
  Qed.
  Theorem c51_list_changed_refuted : forall source target x rotation d sim, align source target rotation = Ok sim ->
    exists T, noisy_alignment align source target uniform_literal (PList [x]) rotation d = Ok (T, PList [x; x; x]).
  Proof.
    intros source target x rotation d sim A. unfold noisy_alignment. cbn [three_of bind]. rewrite A. cbn. eexists. reflexivity.
  Qed.
  (** The type of noise is compared by identity: a string equal to 'uniform' but made at run time is refused. *)
  Theorem c51_noise_type_identity_refuted : forall source target p p0 p1 p2 rotation d sim, given p p0 p1 p2 -> align source target rotation = Ok sim ->
    noisy_alignment align source target (PyStr "uniform" false) p rotation d = Err ValueError.
  Proof. intros source target p p0 p1 p2 rotation d sim G A. destruct (given_three _ _ _ _ G) as [q Q]. unfold noisy_alignment. rewrite Q. cbn [bind]. rewrite A. reflexivity. Qed.

  (** The noise is applied before the alignment but about the centre of the target: scale noise alone moves the centre of the
      aligned source by s L(c_source - c_target), L being the linear part of the alignment, which is unbounded in the distance
      of the two centres; and the translation is multiplied by L too. *)
  Theorem c51_noise_moves_centre : forall source target p p0 p1 p2 rotation d sim T q, given p p0 p1 p2 ->
    align source target rotation = Ok sim -> d_r d = / 2 -> d_t d = (/ 2, / 2) ->
    noisy_alignment align source target uniform_literal p rotation d = Ok (T, q) ->
    T (centre source) = add (apply_sim sim (centre source)) (scal (p0 / 2 * (2 * d_s d - 1)) (linear sim (sub (centre source) (centre target)))).
  Proof.
    intros source target p p0 p1 p2 rotation d sim T q G A R1 R2 H. destruct (given_three _ _ _ _ G) as [q' Q]. unfold noisy_alignment in H. rewrite Q in H. cbn [bind] in H.
    rewrite A in H. cbn [bind] in H. change (is_literal uniform_literal "gaussian") with false in H. change (is_literal uniform_literal "uniform") with true in H.
    cbn [uniform_noise pct nth_error bind] in H. injection H as <- <-. rewrite R1, R2. unfold compose_after.
    assert (E2 : forall k, k * (2 * / 2 - 1) = 0) by (intros; lra). rewrite E2, rotate_zero. unfold translate, mul. cbn [fst snd]. rewrite !E2.
    unfold apply_sim, linear, scale_about, add, scal, sub. apply pt_eq; cbn [fst snd]; lra.
  Qed.
End C51.

(** An alignment that is the identity of the plane: a unit square aligned with itself. *)
Definition ex_align (source target : list pt) (rotation : bool) : res similarity := Ok (Sim 1 0 (0, 0)).
Definition ex_square : list pt := [(0, 0); (1, 0); (1, 1); (0, 1)].
Example c51_example : given (PFloat (/ 10)) (/ 10) (/ 10) (/ 10) /\ ex_square <> [] /\ ex_align ex_square ex_square false = Ok (Sim 1 0 (0, 0)) /\ has_range ex_square 1 1.
Proof.
  split; [cbn; auto|]. split; [discriminate|]. split; [reflexivity|]. split; [|split].
  - intros p q P Q. cbn in P, Q. intuition subst; cbn; lra.
  - exists (1, 0), (0, 0). cbn. intuition lra.
  - exists (1, 1), (0, 0). cbn. intuition lra.
Qed.
Print Assumptions c51_uniform_partial.
Print Assumptions c51_scale_unbounded_refuted.
Print Assumptions c51_zero_noise.
Print Assumptions c51_zero_noise_shape.
Print Assumptions c51_zero_noise_from_shape.
Print Assumptions c51_gaussian.
Print Assumptions c51_percentage_kept_partial.
Print Assumptions c51_list_changed_refuted.
Print Assumptions c51_noise_type_identity_refuted.
Print Assumptions c51_noise_moves_centre.
