(** C10 (results in the user's coordinates), C11 (continuity between scales), C12 (the user's landmarks). *)
From Coq Require Import String List ZArith QArith Qcanon Bool Lia.
From Verif.Model Require Import Py Dict Affine Result Checks Fitter.
From Verif.Spec Require Import Result Fitter.
From Verif.Proofs Require Dict Affine Result Fitter FitterDemo.
Import ListNotations.
Local Open Scope nat_scope.

Section P.
  Context {Px P A C : Type}.
  Notation img := (image Px).
  Variable rescale_to_pointcloud : img -> shape -> string -> res img.
  Variable feature : nat -> img -> res img.
  Variable rescale : img -> Qc -> res (img * aff).
  Variable alignment_affine : shape -> shape -> res aff.
  Variable algorithm : nat -> img -> shape -> option shape -> Z -> bool -> res (iresult shape P A C).
  Notation prepare := (prepare_image rescale_to_pointcloud feature rescale alignment_affine).
  Notation fit_call := (fit_from_shape rescale_to_pointcloud feature rescale alignment_affine algorithm).
  Notation Faithful := (faithful rescale_to_pointcloud feature rescale alignment_affine algorithm).

  (** ** C10.  Full statement: without the condition on the features. *)
  Theorem c10_shapes_in_original_frame_partial : forall world build F p init max_iters gt rc d m d' f fs,
    Faithful world p -> builds_on build -> spans init ->
    holistic_features F = f :: fs -> no_late_repeat f fs ->
    fit_call build F p init max_iters gt rc d = (Ok m, d') ->
    exists images rs, reported algorithm world (length (scales F)) rc init gt images rs m.
  Proof.
    intros world build F p init max_iters gt rc d m d' f fs HF Hb Hs Hf Hn H.
    assert (Hc : Proofs.Fitter.feature_condition F) by (unfold Proofs.Fitter.feature_condition; rewrite Hf; exact Hn).
    destruct (Proofs.Fitter.fit_from_shape_world _ _ _ _ _ world p HF build F init max_iters gt rc d m d' Hb Hs Hc H)
      as (images & affs & scs & rs & Hr & _). eauto.
  Qed.

  (** When the features change after the first scale and are then repeated, the affine map of the first
      scale is used for the repeated one. *)
  Theorem c10_late_repeat_affine_refuted : forall f g fs ss tmp init l x0 x2,
    f <> g ->
    prepare_scales feature rescale alignment_affine (f :: g :: g :: fs) ss tmp init None = Ok l ->
    nth_error l 0 = Some x0 -> nth_error l 2 = Some x2 -> snd (fst x2) = snd (fst x0).
  Proof.
    intros f g fs ss tmp init l x0 x2 Hfg H H0 H2.
    destruct ss as [|s0 [|s1 [|s2 ss]]]; cbn [prepare_scales] in H.
    - discriminate.
    - destruct (feature f tmp); cbn [bind] in H; [|discriminate]. destruct (dict_at _ _); cbn [bind] in H; [|discriminate].
      destruct (alignment_affine _ _); cbn [bind] in H; [|discriminate].
      destruct (if negb (Qc_eq_bool s0 1) then _ else _) as [[sc st]|]; discriminate.
    - destruct (feature f tmp); cbn [bind] in H; [|discriminate]. destruct (dict_at _ _); cbn [bind] in H; [|discriminate].
      destruct (alignment_affine _ _); cbn [bind] in H; [|discriminate].
      destruct (if negb (Qc_eq_bool s0 1) then _ else _) as [[sc st]|]; cbn [bind] in H; [|discriminate].
      destruct (if negb (g =? f) then _ else _) as [[[im af] ft]|]; cbn [bind] in H; [|discriminate].
      destruct (if negb (Qc_eq_bool s1 1) then _ else _) as [[sc' st']|]; discriminate.
    - destruct (feature f tmp); cbn [bind] in H; [|discriminate]. destruct (dict_at _ _); cbn [bind] in H; [|discriminate].
      destruct (alignment_affine _ _) as [aff0|]; cbn [bind] in H; [|discriminate].
      destruct (if negb (Qc_eq_bool s0 1) then _ else _) as [[sc st]|]; cbn [bind] in H; [|discriminate].
      replace (negb (g =? f)) with true in H by (symmetry; apply negb_true_iff, Nat.eqb_neq; auto).
      destruct (feature g tmp); cbn [bind] in H; [|discriminate]. destruct (dict_at _ _); cbn [bind] in H; [|discriminate].
      destruct (alignment_affine _ _); cbn [bind] in H; [|discriminate].
      destruct (if negb (Qc_eq_bool s1 1) then _ else _) as [[sc' st']|]; cbn [bind] in H; [|discriminate].
      rewrite Nat.eqb_refl in H. cbn [negb bind] in H.
      destruct (if negb (Qc_eq_bool s2 1) then _ else _) as [[sc2 st2]|]; cbn [bind] in H; [|discriminate].
      destruct (prepare_scales feature rescale alignment_affine fs ss tmp init _); cbn [bind] in H; [|discriminate].
      injection H as <-. injection H0 as <-. injection H2 as <-. reflexivity.
  Qed.

  (** ** C11.  Full statement: without the condition "same features or commuting transforms". *)
  Theorem c11_continuity_partial : forall world build F p init max_iters gt rc d m d' f fs,
    Faithful world p -> builds_on build -> spans init ->
    holistic_features F = f :: fs -> no_late_repeat f fs ->
    fit_call build F p init max_iters gt rc d = (Ok m, d') ->
    exists images affs scs rs,
      reported algorithm world (length (scales F)) rc init gt images rs m /\
      (* the first scale starts at the user's shape *)
      (exists r0 s0 im0, nth_error rs 0 = Some r0 /\ r_initial r0 = Some s0 /\ nth_error images 0 = Some im0 /\
         apply (world im0) s0 = init) /\
      (* [affs] and [scs] are the transforms of the scales *)
      (forall j im a t, nth_error images j = Some im -> nth_error affs j = Some a -> nth_error scs j = Some t ->
         world im = compose_after a t) /\
      length affs = length (scales F) /\ length scs = length (scales F) /\
      (* every other scale starts where the previous one ended *)
      (forall j im im' a t r r' g g',
         nth_error images j = Some im -> nth_error images (S j) = Some im' ->
         nth_error affs j = Some a -> nth_error scs j = Some t ->
         nth_error rs j = Some r -> nth_error rs (S j) = Some r' ->
         nth_error (holistic_features F) j = Some g -> nth_error (holistic_features F) (S j) = Some g' ->
         g = g' \/ compose_after t a = compose_after a t ->
         exists s', r_initial r' = Some s' /\ apply (world im') s' = apply (world im) (r_final r)).
  Proof.
    intros world build F p init max_iters gt rc d m d' f fs HF Hb Hs Hf Hn H.
    assert (Hc : Proofs.Fitter.feature_condition F) by (unfold Proofs.Fitter.feature_condition; rewrite Hf; exact Hn).
    destruct (Proofs.Fitter.fit_from_shape_world _ _ _ _ _ world p HF build F init max_iters gt rc d m d' Hb Hs Hc H)
      as (images & affs & scs & rs & Hr & La & Ls & Hw & (r0 & Hr0 & s0 & im0 & Hi0 & Him0 & Hw0) & Hc' & _).
    exists images, affs, scs, rs. split; [exact Hr|]. split; [exists r0, s0, im0; auto|].
    split; [exact Hw|]. split; [exact La|]. split; [exact Ls|].
    intros j im im' a t r r' g g' H1 H2 H3 H4 H5 H6 H7 H8 Hg.
    destruct (Hc' j im im' a t r r' g g' H1 H2 H3 H4 H5 H6 H7 H8) as (s' & Hi & Hsame & Hdiff).
    exists s'. split; [exact Hi|]. destruct (Nat.eq_dec g g') as [E|E]; [auto|].
    rewrite (Hdiff E), (Hw j im a t H1 H3 H4). destruct Hg as [Hg|Hg]; [congruence|].
    rewrite <- !Proofs.Affine.apply_compose. rewrite Hg. reflexivity.
  Qed.

  (** When the features change, the next scale starts at the wrong place unless the two transforms of the
      scale commute on the shape reached. *)
  Theorem c11_feature_change_refuted : forall f f' s s' af af' sc sc' final start,
    f <> f' -> next_shape f f' s s' af af' sc sc' final = Ok start ->
    (apply (compose_after af' sc') start = apply (compose_after af sc) final <->
     apply (compose_after sc af) final = apply (compose_after af sc) final).
  Proof.
    intros f f' s s' af af' sc sc' final start Hf H.
    rewrite !Proofs.Affine.apply_compose.
    rewrite (Proofs.Fitter.next_other_features _ _ _ _ _ _ _ _ _ _ Hf H). reflexivity.
  Qed.

  (** ** C12.  Landmark groups other than the two temporary ones are kept in every outcome. *)
  Theorem c12_other_groups_kept_partial : forall build F p init max_iters gt rc d out d' g,
    fit_call build F p init max_iters gt rc d = (out, d') ->
    g <> initial_group -> g <> gt_group -> dict_get g d' = dict_get g d.
  Proof.
    intros build F p init max_iters gt rc d out d' g H H1 H2. rewrite Proofs.Fitter.fit_from_shape_spec in H.
    assert (E : dict_get g (Proofs.Fitter.with_groups init gt d) = dict_get g d).
    { unfold Proofs.Fitter.with_groups. destruct gt; rewrite ?Proofs.Dict.get_set_other by assumption; reflexivity. }
    destruct (Proofs.Fitter.computed _ _ _ _ F p init gt (Proofs.Fitter.with_groups init gt d)); injection H as _ <-; [|exact E].
    rewrite <- E. unfold Proofs.Fitter.without_groups. destruct gt; rewrite ?Proofs.Dict.get_remove_other by assumption; reflexivity.
  Qed.

  (** When the preparation of the images does not raise and the temporary names were free, the landmarks are
      exactly what they were, even if an algorithm raises. *)
  Theorem c12_landmarks_unchanged_partial : forall build F p init max_iters gt rc d out d' x d1,
    dict_get initial_group d = None -> dict_get gt_group d = None ->
    prepare F p init gt d = (Ok x, d1) ->
    fit_call build F p init max_iters gt rc d = (out, d') -> d' = d.
  Proof.
    intros build F p init max_iters gt rc d out d' x d1 Hi Hg Hp H.
    rewrite Proofs.Fitter.prepare_image_spec in Hp. rewrite Proofs.Fitter.fit_from_shape_spec in H.
    destruct (Proofs.Fitter.computed _ _ _ _ F p init gt (Proofs.Fitter.with_groups init gt d)); [|discriminate].
    injection H as _ <-. apply Proofs.Fitter.without_with; assumption.
  Qed.

  (** When a resize, a feature function or an alignment raises, the temporary group stays on the image. *)
  Theorem c12_exception_leaves_group_refuted : forall build F p init max_iters gt rc d e d1,
    prepare F p init gt d = (Err e, d1) ->
    exists d', fit_call build F p init max_iters gt rc d = (Err e, d') /\ dict_get initial_group d' = Some init /\
      (forall g, gt = Some g -> dict_get gt_group d' = Some g).
  Proof.
    intros build F p init max_iters gt rc d e d1 Hp.
    rewrite Proofs.Fitter.prepare_image_spec in Hp. rewrite Proofs.Fitter.fit_from_shape_spec.
    destruct (Proofs.Fitter.computed _ _ _ _ F p init gt (Proofs.Fitter.with_groups init gt d)); [discriminate|].
    injection Hp as -> <-. eexists. split; [reflexivity|]. split; [apply Proofs.Fitter.get_init_with|].
    intros g ->. apply Proofs.Dict.get_set_same.
  Qed.

  (** A group of the user with the temporary name is lost. *)
  Theorem c12_existing_group_lost_refuted : forall build F p init max_iters gt rc d x d1,
    NoDup (map fst d) ->
    prepare F p init gt d = (Ok x, d1) ->
    exists out d', fit_call build F p init max_iters gt rc d = (out, d') /\ dict_get initial_group d' = None.
  Proof.
    intros build F p init max_iters gt rc d x d1 Hnd Hp.
    rewrite Proofs.Fitter.prepare_image_spec in Hp. rewrite Proofs.Fitter.fit_from_shape_spec.
    destruct (Proofs.Fitter.computed _ _ _ _ F p init gt (Proofs.Fitter.with_groups init gt d)); [|discriminate].
    eexists _, _. split; [reflexivity|]. unfold Proofs.Fitter.without_groups, Proofs.Fitter.with_groups.
    destruct gt as [g|].
    - rewrite Proofs.Dict.get_remove_other by discriminate. apply Proofs.Dict.get_remove_same.
      apply Proofs.Dict.keys_set, Proofs.Dict.keys_set. exact Hnd.
    - apply Proofs.Dict.get_remove_same. apply Proofs.Dict.keys_set. exact Hnd.
  Qed.
End P.
Print Assumptions c10_shapes_in_original_frame_partial.
Print Assumptions c10_late_repeat_affine_refuted.
Print Assumptions c11_continuity_partial.
Print Assumptions c11_feature_change_refuted.
Print Assumptions c12_other_groups_kept_partial.
Print Assumptions c12_landmarks_unchanged_partial.
Print Assumptions c12_exception_leaves_group_refuted.
Print Assumptions c12_existing_group_lost_refuted.

(** Every multi-scale result class reports the shapes of the multi-scale result. *)
Theorem c10_result_classes : forall P A C,
  builds_on (@multi_nonparametric shape P A C) /\ builds_on (@multi_parametric shape P A C) /\
  builds_on (@aam_result shape P A C) /\ builds_on (@lucas_kanade_result shape P A C).
Proof. exact @Proofs.Fitter.builds_on_all. Qed.
Print Assumptions c10_result_classes.

(** *** A concrete world: see Proofs/FitterDemo.v. *)
Import Proofs.FitterDemo.
Definition qz (z : Z) : Qc := Q2Qc (inject_Z z).
Definition triangle : shape := [(qz 0, qz 0); (qz 8, qz 0); (qz 0, qz 8)].
Example triangle_spans : spans triangle.
Proof.
  exists (qz 0, qz 0), (qz 8, qz 0), (qz 0, qz 8). repeat split; [left|right; left|right; right; left|]; try reflexivity.
  discriminate.
Qed.
Example demo_is_faithful :
  forall p, faithful demo_resize demo_feature demo_rescale demo_align demo_algorithm demo_world p.
Proof. exact demo_faithful. Qed.

Definition demo_fit := fit_from_shape demo_resize demo_feature demo_rescale demo_align demo_algorithm.
Definition half : Qc := Q2Qc (1 # 2).
Definition user_lms : dict shape := [("PTS"%string, triangle)].

Definition pts_eqb (s1 s2 : shape) : bool :=
  (length s1 =? length s2) && forallb (fun pq => Qc_eq_bool (fst (fst pq)) (fst (snd pq)) && Qc_eq_bool (snd (fst pq)) (snd (snd pq)))
    (combine s1 s2).

(** Two scales with the same features: the fit returns, the landmarks are untouched, and each step of one
    pixel at scale 1/2 (2) is 4 (2) pixels of the user's image. *)
Example c10_example :
  match demo_fit multi_nonparametric (mkFitter triangle [0; 0] [half; 1%Qc]) id_aff triangle (PInt 2) None false user_lms with
  | (Ok m, d') => r_initial (m_res m) = Some triangle /\ d' = user_lms /\
      map (fun s => match s with p :: _ => Z.of_nat (Z.to_nat (Qnum (this (fst p)))) | [] => (-1)%Z end) (r_shapes (m_res m)) = [0; 4; 6]%Z
  | _ => False
  end.
Proof. vm_compute. repeat split; repeat f_equal; apply Qc_is_canon; reflexivity. Qed.

(** Features [0; 3; 3]: the third scale is reported in the frame of the first. *)
Theorem c10_late_repeat_refuted : exists F images inits affs scs d' im a t s,
  holistic_features F = [0; 3; 3] /\
  prepare_image demo_resize demo_feature demo_rescale demo_align F id_aff triangle None user_lms
    = (Ok (images, inits, None, affs, scs), d') /\
  nth_error images 2 = Some im /\ nth_error affs 2 = Some a /\ nth_error scs 2 = Some t /\
  nth_error inits 2 = Some s /\
  apply (demo_world im) s = triangle /\ apply a (apply t s) <> triangle.
Proof.
  exists (mkFitter triangle [0; 3; 3] [half; half; 1%Qc]).
  eexists _, _, _, _, _, _, _, _, _.
  split; [reflexivity|]. split; [vm_compute; reflexivity|].
  do 4 (split; [reflexivity|]). split.
  - vm_compute. repeat f_equal; apply Qc_is_canon; reflexivity.
  - intros E. apply (f_equal (fun s => match s with p :: _ => Qnum (this (fst p)) | [] => 0%Z end)) in E.
    vm_compute in E. discriminate.
Qed.
Print Assumptions c10_late_repeat_refuted.

(** Features [3; 0] at scales [1/2; 1]: the second scale does not start where the first one ended. *)
Theorem c11_discontinuity_refuted : exists F images inits affs scs d' rs im0 im1 r0 r1 s1,
  holistic_features F = [3; 0] /\
  prepare_image demo_resize demo_feature demo_rescale demo_align F id_aff triangle None user_lms
    = (Ok (images, inits, None, affs, scs), d') /\
  fit demo_algorithm F images (nth 0 inits []) affs scs None (PInt 2) false = Ok rs /\
  nth_error images 0 = Some im0 /\ nth_error images 1 = Some im1 /\
  nth_error rs 0 = Some r0 /\ nth_error rs 1 = Some r1 /\ r_initial r1 = Some s1 /\
  apply (demo_world im1) s1 <> apply (demo_world im0) (r_final r0).
Proof.
  exists (mkFitter triangle [3; 0] [half; 1%Qc]).
  eexists _, _, _, _, _, _, _, _, _, _, _.
  split; [reflexivity|]. split; [vm_compute; reflexivity|]. split; [vm_compute; reflexivity|].
  do 5 (split; [reflexivity|]).
  intros E. apply (f_equal (fun s => match s with p :: _ => Qnum (this (fst p)) | [] => 0%Z end)) in E.
  vm_compute in E. discriminate.
Qed.
Print Assumptions c11_discontinuity_refuted.

(** A raising feature function leaves the temporary group behind. *)
Example c12_example :
  snd (fit_from_shape demo_resize (fun _ _ => Err (UserExn 9)) demo_rescale demo_align demo_algorithm
         multi_nonparametric (mkFitter triangle [0] [1%Qc]) id_aff triangle (PInt 2) None false user_lms)
  = user_lms ++ [("__initial_shape"%string, triangle)].
Proof. reflexivity. Qed.
