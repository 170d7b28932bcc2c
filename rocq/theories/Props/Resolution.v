(** C106: a picture at another resolution is fitted in the same way. *)
From Coq Require Import String List ZArith QArith Qcanon Bool Lia.
From Verif.Model Require Import Py Dict Affine Result Checks Fitter.
From Verif.Spec Require Import Result Fitter Resolution.
From Verif.Proofs Require Dict Affine Result Fitter FitterDemo.
Import ListNotations.
Local Open Scope nat_scope.

Lemma apply_enlarge_map c t s : apply (enlarge_map c t) s = enlarge c (apply t s).
Proof.
  unfold apply, enlarge. rewrite map_map. apply map_ext. intros p. unfold apply_pt. cbn [fa fb fc fd ftx fty enlarge_map fst snd].
  f_equal; ring.
Qed.
Lemma set_enlarged c k s d : dict_set k (enlarge c s) (enlarge_all c d) = enlarge_all c (dict_set k s d).
Proof.
  induction d as [|[k' v] d IH]; [reflexivity|]. cbn [enlarge_all map dict_set fst snd]. destruct (String.eqb k k'); [reflexivity|].
  cbn [map fst snd]. f_equal. exact IH.
Qed.
Lemma get_enlarged c k d : dict_get k (enlarge_all c d) = option_map (enlarge c) (dict_get k d).
Proof.
  induction d as [|[k' v] d IH]; [reflexivity|]. cbn [enlarge_all map dict_get fst snd]. destruct (String.eqb k k'); [reflexivity|exact IH].
Qed.
Lemma remove_enlarged c k d : dict_remove k (enlarge_all c d) = enlarge_all c (dict_remove k d).
Proof.
  induction d as [|[k' v] d IH]; [reflexivity|]. cbn [enlarge_all map dict_remove fst snd]. destruct (String.eqb k k'); [reflexivity|].
  cbn [map fst snd]. f_equal. exact IH.
Qed.
Lemma del_enlarged c k d : del_lm k (enlarge_all c d) = (fst (del_lm k d), enlarge_all c (snd (del_lm k d))).
Proof.
  unfold del_lm, dict_del. rewrite get_enlarged. destruct (dict_get k d); cbn [option_map fst snd]; [|reflexivity].
  now rewrite remove_enlarged.
Qed.

(** ** The classes of results. *)
Section Builds.
  Context {P A C : Type}.
  Notation follows := (@follows_enlarging P A C).
  Lemma nth_res_map {X Y} (f : X -> Y) l i : nth_res (map f l) i = match nth_res l i with Ok x => Ok (f x) | Err e => Err e end.
  Proof. unfold nth_res. rewrite nth_error_map. destruct (nth_error l i); reflexivity. Qed.
  Lemma nth_res_rel {X Y} (R : X -> Y -> Prop) l l' i : Forall2 R l l' ->
    match nth_res l i, nth_res l' i with Ok x, Ok y => R x y | Err e, Err e' => e = e' | _, _ => False end.
  Proof.
    unfold nth_res. intros H. revert i. induction H as [|x y l l' Hxy H IH]; intros [|i]; cbn [nth_error]; auto. apply IH.
  Qed.
  Lemma nonparametric_enlarged c shapes initial gt costs :
    @nonparametric_result shape P A C (map (enlarge c) shapes) (option_map (enlarge c) initial) (option_map (enlarge c) gt) costs =
    match nonparametric_result shapes initial gt costs with Ok r => Ok (enlarge_iresult c r) | Err e => Err e end.
  Proof.
    unfold nonparametric_result, last_res. rewrite <- map_rev, nth_res_map. destruct (nth_res (rev shapes) 0) as [s|e]; cbn [bind]; [|reflexivity].
    unfold enlarge_iresult. cbn. rewrite map_length. destruct initial; reflexivity.
  Qed.
  Lemma multi_nonparametric_enlarged : follows multi_nonparametric.
  Proof.
    intros c rs n affs affs' scs gt HF. unfold multi_nonparametric. destruct (negb _); [reflexivity|].
    destruct (nth_res rs 0) as [r0|e]; cbn [bind]; [|reflexivity].
    assert (E1 : (match r_initial r0 with
      | None => Ok None
      | Some i => let? a := nth_res affs' 0 in let? s := nth_res scs 0 in
                  let? i' := nth_res (rescale_shapes [i] a s) 0 in Ok (Some i')
      end) = match (match r_initial r0 with
      | None => Ok None
      | Some i => let? a := nth_res affs 0 in let? s := nth_res scs 0 in
                  let? i' := nth_res (rescale_shapes [i] a s) 0 in Ok (Some i')
      end) with Ok o => Ok (option_map (enlarge c) o) | Err e => Err e end).
    { destruct (r_initial r0) as [i|]; [|reflexivity]. pose proof (nth_res_rel _ affs affs' 0 HF) as HN. destruct (nth_res affs 0) as [a|e], (nth_res affs' 0) as [a'|e']; cbn [bind]; try contradiction; [|now rewrite HN].
      destruct (nth_res scs 0); cbn; [|reflexivity]. unfold rescale_shapes. cbn. now rewrite HN. }
    rewrite E1. clear E1. match goal with |- context [match ?X with Ok o => Ok (option_map _ o) | Err _ => _ end] => destruct X as [ini|e] end; cbn [bind]; [|reflexivity].
    match goal with |- bind (mapM ?f ?l) _ = match bind (mapM ?g _) _ with Ok _ => _ | Err _ => _ end =>
      assert (E2 : mapM f l = match mapM g l with Ok x => Ok (map (fun q => (fst q, map (enlarge c) (snd q))) x) | Err e => Err e end) end.
    { generalize (seq 0 n). intros l. induction l as [|i l IH]; [reflexivity|]. cbn [mapM].
      destruct (nth_res rs i) as [r|e]; cbn [bind]; [|reflexivity]. 
      pose proof (nth_res_rel _ affs affs' i HF) as HN. destruct (nth_res affs i) as [a|e], (nth_res affs' i) as [a'|e']; cbn [bind]; try contradiction; [|now rewrite HN].
      destruct (nth_res scs i) as [s|e]; cbn [bind]; [|reflexivity]. rewrite IH. clear IH. destruct (mapM _ l) as [x|e]; cbn [bind]; [|reflexivity].
      cbn [map fst snd]. do 3 f_equal. unfold rescale_shapes. rewrite map_map. apply map_ext. intros x0. apply HN. }
    rewrite E2. clear E2. destruct (mapM _ _) as [ps|e]; cbn [bind]; [|reflexivity].
    rewrite !map_map. cbn [fst snd]. rewrite <- (map_map snd (map (enlarge c))), <- concat_map, nonparametric_enlarged.
    destruct (nonparametric_result _ _ _ _) as [base|e]; cbn [bind]; [|reflexivity].
    destruct (concat_attr _) as [cs|e]; cbn [bind]; reflexivity.
  Qed.
  Lemma multi_parametric_enlarged : follows multi_parametric.
  Proof.
    intros c rs n affs affs' scs gt HF. unfold multi_parametric. rewrite (multi_nonparametric_enlarged c rs n affs affs' scs gt HF).
    destruct (multi_nonparametric _ _ _ _ _); reflexivity.
  Qed.
  Lemma aam_enlarged : follows aam_result.
  Proof.
    intros c rs n affs affs' scs gt HF. unfold aam_result. rewrite (multi_parametric_enlarged c rs n affs affs' scs gt HF).
    destruct (multi_parametric _ _ _ _ _); cbn [bind]; [|reflexivity]. destruct (concat_attr _); reflexivity.
  Qed.
  Lemma lk_enlarged : follows lucas_kanade_result.
  Proof.
    intros c rs n affs affs' scs gt HF. unfold lucas_kanade_result. rewrite (multi_parametric_enlarged c rs n affs affs' scs gt HF).
    destruct (multi_parametric _ _ _ _ _); reflexivity.
  Qed.
End Builds.

Section P.
  Context {Px P A C : Type}.
  Notation img := (image Px).
  Variable rescale_to_pointcloud : img -> shape -> string -> res img.
  Variable feature : nat -> img -> res img.
  Variable rescale : img -> Qc -> res (img * aff).
  Variable alignment_affine : shape -> shape -> res aff.
  Variable algorithm : nat -> img -> shape -> option shape -> Z -> bool -> res (iresult shape P A C).
  Variables (c : Qc) (p p' : Px).
  Hypothesis HC : c <> 0%Qc.
  Hypothesis HP : same_picture rescale_to_pointcloud c p p'.
  Hypothesis HA : aligns_to_enlarged alignment_affine c.
  Hypothesis HR : rescales_about_origin rescale.
  Notation prep := (prepare_scales feature rescale alignment_affine).
  Notation fit_call := (fit_from_shape rescale_to_pointcloud feature rescale alignment_affine algorithm).

  Definition lift_triple (x : img * aff * aff) : img * aff * aff := (fst (fst x), enlarge_map c (snd (fst x)), snd x).
  Definition central (t : aff) : Prop := ftx t = 0%Qc /\ fty t = 0%Qc.
  Lemma prep_enlarged fs : forall ss tmp init prev,
    prep fs ss tmp (enlarge c init) (option_map (fun q => (fst q, enlarge_map c (snd q))) prev) =
    match prep fs ss tmp init prev with Ok l => Ok (map lift_triple l) | Err e => Err e end.
  Proof.
    induction fs as [|f fs IH]; intros [|s ss] tmp init prev; try reflexivity. cbn [prepare_scales].
    assert (E : forall (r : res (img * aff * aff)),
      (let? (feature_image, affine, first) := match r with Ok q => Ok (fst (fst q), enlarge_map c (snd (fst q)), enlarge_map c (snd q)) | Err e => Err e end in
       let? (scaled, st) := if negb (Qc_eq_bool s 1) then rescale feature_image s else Ok (feature_image, scale_aff 1) in
       let? rest := prep fs ss tmp (enlarge c init) (Some (f, feature_image, first)) in Ok ((scaled, affine, st) :: rest)) =
      match (let? (feature_image, affine, first) := r in
       let? (scaled, st) := if negb (Qc_eq_bool s 1) then rescale feature_image s else Ok (feature_image, scale_aff 1) in
       let? rest := prep fs ss tmp init (Some (f, feature_image, first)) in Ok ((scaled, affine, st) :: rest)) with Ok l => Ok (map lift_triple l) | Err e => Err e end).
    { intros [[[im a] a0]|e]; cbn [bind fst snd]; [|reflexivity]. destruct (if negb _ then _ else _) as [[sc st]|e]; cbn [bind]; [|reflexivity].
      rewrite (IH ss tmp init (Some (f, im, a0)) : prep fs ss tmp (enlarge c init) (Some (f, im, enlarge_map c a0)) = _).
      destruct (prep fs ss tmp init _); reflexivity. }
    assert (N : forall (r : res img) (g : aff -> img -> aff * aff) (g' : aff -> img -> aff * aff), True) by auto. clear N.
    destruct prev as [[[f' im] a0]|]; cbn [option_map fst snd].
    - destruct (negb (f =? f')).
      + rewrite <- E. f_equal. destruct (feature f tmp) as [im'|e]; cbn [bind]; [|reflexivity]. destruct (dict_at _ _) as [l|e]; cbn [bind]; [|reflexivity].
        rewrite HA. destruct (alignment_affine l init); reflexivity.
      + rewrite <- E. reflexivity.
    - rewrite <- E. f_equal. destruct (feature f tmp) as [im'|e]; cbn [bind]; [|reflexivity]. destruct (dict_at _ _) as [l|e]; cbn [bind]; [|reflexivity].
      rewrite HA. destruct (alignment_affine l init); reflexivity.
  Qed.
  Lemma prep_central fs : forall ss tmp init prev l, prep fs ss tmp init prev = Ok l -> Forall (fun x => central (snd x)) l.
  Proof.
    induction fs as [|f fs IH]; intros [|s ss] tmp init prev l; cbn [prepare_scales]; try discriminate.
    - intros [= <-]. constructor.
    - destruct (match prev with Some _ => _ | None => _ end) as [[[im a] a0]|e]; cbn [bind]; [|discriminate].
      assert (K : forall sc st, (if negb (Qc_eq_bool s 1) then rescale im s else Ok (im, scale_aff 1)) = Ok (sc, st) -> central st).
      { destruct (negb _); intros sc st; [apply HR|intros [= <- <-]; split; reflexivity]. }
      destruct (if negb _ then _ else _) as [[sc st]|e]; cbn [bind]; [|discriminate].
      destruct (prep fs ss _ _ _) as [rest|e] eqn:Er; cbn [bind]; [|discriminate]. intros [= <-]. constructor; [exact (K _ _ eq_refl)|exact (IH _ _ _ _ _ Er)].
  Qed.

  Definition lift_level (lv : level Px) : level Px :=
    mkLevel (l_feature lv) (l_scale lv) (l_image lv) (enlarge_map c (l_affine lv)) (l_scaling lv) (l_gt lv) (l_max_iters lv).
  Lemma zip_enlarged fs : forall ss ims affs scs gts its,
    zip_levels fs ss ims (map (enlarge_map c) affs) scs gts its = map lift_level (zip_levels fs ss ims affs scs gts its).
  Proof.
    induction fs as [|f fs IH]; intros [|s ss] [|im ims] [|a affs] [|t scs] gts [|k its]; try reflexivity.
    cbn [map zip_levels]. now rewrite IH.
  Qed.
  Lemma zip_central fs : forall ss ims affs scs gts its, Forall central scs ->
    Forall (fun lv : level Px => central (l_scaling lv)) (zip_levels fs ss ims affs scs gts its).
  Proof.
    induction fs as [|f fs IH]; intros [|s ss] [|im ims] [|a affs] [|t scs] gts [|k its] H; try constructor; cbn [zip_levels]; inversion H; subst; auto.
  Qed.
  Lemma next_enlarged f f' s s' af af' sc sc' sh : central sc ->
    next_shape f f' s s' (enlarge_map c af) (enlarge_map c af') sc sc' sh = next_shape f f' s s' af af' sc sc' sh.
  Proof.
    intros [Z1 Z2]. unfold next_shape. destruct (negb (f' =? f)); [|reflexivity].
    assert (D : det (enlarge_map c af') = (c * c * det af')%Qc) by (unfold det; cbn; ring).
    assert (B : Qc_eq_bool (det (enlarge_map c af')) 0 = Qc_eq_bool (det af') 0).
    { rewrite D. destruct (Qc_eq_bool (det af') 0) eqn:E1.
      - apply Qc_eq_bool_correct in E1. rewrite E1. replace (c * c * 0)%Qc with 0%Qc by ring. reflexivity.
      - destruct (Qc_eq_bool (c * c * det af') 0) eqn:E2; [|reflexivity]. apply Qc_eq_bool_correct in E2. exfalso.
        apply Qcmult_integral in E2. destruct E2 as [E2|E2]; [apply Qcmult_integral in E2; tauto|]. rewrite E2 in E1. discriminate. }
    unfold pseudoinverse at 1 3. rewrite B. destruct (Qc_eq_bool (det af') 0) eqn:E0; cbn [bind]; [reflexivity|].
    assert (Dn : det af' <> 0%Qc) by (intros E; rewrite E in E0; discriminate).
    assert (E : compose_after (inverse (enlarge_map c af')) (compose_after sc (enlarge_map c af)) =
                compose_after (inverse af') (compose_after sc af)).
    { unfold compose_after, inverse. rewrite D. cbn. rewrite Z1, Z2. destruct af, af', sc. cbn in *. unfold det in *. cbn in *.
      f_equal; field; auto. }
    now rewrite E.
  Qed.
  Lemma levels_enlarged rc : forall levels i sh, Forall (fun lv : level Px => central (l_scaling lv)) levels ->
    fit_levels algorithm i (map lift_level levels) rc sh = fit_levels algorithm i levels rc sh.
  Proof.
    induction levels as [|lv rest IH]; intros i sh H; [reflexivity|]. inversion H; subst. cbn [map fit_levels l_image l_gt l_max_iters lift_level].
    destruct (algorithm _ _ _ _ _ _) as [r|e]; cbn [bind]; [|reflexivity].
    destruct rest as [|nx rest']; [reflexivity|]. cbn [map]. cbn [lift_level l_feature l_scale l_affine l_scaling].
    rewrite next_enlarged by assumption. destruct (next_shape _ _ _ _ _ _ _ _ _) as [sh'|e]; cbn [bind]; [|reflexivity].
    change (lift_level nx :: map lift_level rest') with (map lift_level (nx :: rest')). now rewrite IH.
  Qed.

  Theorem c106_fit : forall build F init max_iters gt rc d, follows_enlarging build ->
    fit_call build F p' (enlarge c init) max_iters (option_map (enlarge c) gt) rc (enlarge_all c d) =
    enlarged_outcome c (fit_call build F p init max_iters gt rc d).
  Proof using HC HP HA HR.
    intros build F init mi gt rc d HB. rewrite !Fitter.fit_from_shape_spec.
    assert (E2 : Fitter.with_groups (enlarge c init) (option_map (enlarge c) gt) (enlarge_all c d) = enlarge_all c (Fitter.with_groups init gt d)).
    { destruct gt; cbn [Fitter.with_groups option_map]; now rewrite !set_enlarged. }
    assert (E3 : forall d0, Fitter.without_groups (option_map (enlarge c) gt) (enlarge_all c d0) = enlarge_all c (Fitter.without_groups gt d0)).
    { intros d0. destruct gt; cbn [Fitter.without_groups option_map]; now rewrite !remove_enlarged. }
    rewrite E2, E3. set (d2 := Fitter.with_groups init gt d). clearbody d2. clear E2 E3.
    assert (E : Fitter.computed rescale_to_pointcloud feature rescale alignment_affine F p' (enlarge c init) (option_map (enlarge c) gt) (enlarge_all c d2) =
      match Fitter.computed rescale_to_pointcloud feature rescale alignment_affine F p init gt d2 with
      | Ok (images, inits, gts, affs, scs) => Ok (images, inits, gts, map (enlarge_map c) affs, scs) | Err e => Err e end /\
      forall images inits gts affs scs, Fitter.computed rescale_to_pointcloud feature rescale alignment_affine F p init gt d2 = Ok (images, inits, gts, affs, scs) -> Forall central scs).
    { unfold Fitter.computed. rewrite HP. destruct (rescale_to_pointcloud _ _ _) as [tmp|e]; cbn [bind]; [|split; [reflexivity|discriminate]].
      rewrite (prep_enlarged (holistic_features F) (scales F) tmp init None : prep _ _ tmp (enlarge c init) None = _).
      destruct (prep _ _ tmp init None) as [l|e] eqn:El; cbn [bind]; [|split; [reflexivity|discriminate]].
      apply prep_central in El. rewrite !map_map. cbn [lift_triple fst snd]. rewrite <- (map_map (fun x => snd (fst x)) (enlarge_map c)).
      destruct (mapM _ (map _ l)) as [inits|e]; cbn [bind]; [|split; [reflexivity|discriminate]].
      assert (K : Forall central (map snd l)) by (induction El; constructor; auto).
      destruct gt; cbn [option_map].
      - destruct (mapM _ (map _ l)) as [g|e]; cbn [bind]; [|split; [reflexivity|discriminate]]. split; [reflexivity|]. now intros ? ? ? ? ? [= <- <- <- <- <-].
      - split; [reflexivity|]. now intros ? ? ? ? ? [= <- <- <- <- <-]. }
    destruct E as [-> K]. destruct (Fitter.computed _ _ _ _ _ _ _ _ _) as [[[[[images inits] gts] affs] scs]|e]; [|reflexivity].
    specialize (K _ _ _ _ _ eq_refl). unfold Fitter.fitted, enlarged_outcome. cbn [fst snd].
    f_equal. destruct (nth_res inits 0) as [s0|e]; cbn [bind]; [|reflexivity].
    assert (E : fit algorithm F images s0 (map (enlarge_map c) affs) scs gts mi rc = fit algorithm F images s0 affs scs gts mi rc).
    { unfold fit. destruct (check_max_iters _ _) as [its|e]; cbn [bind]; [|reflexivity]. rewrite zip_enlarged. apply levels_enlarged, zip_central, K. }
    rewrite E. clear E. destruct (fit _ _ _ _ _ _ _ _ _) as [rs|e]; cbn [bind]; [|reflexivity].
    apply HB. clear. induction affs as [|a affs IH]; cbn [map]; constructor; [|exact IH]. intros s. apply apply_enlarge_map.
  Qed.
End P.
Print Assumptions c106_fit.

(** Every class of multi-scale results follows. *)
Theorem c106_result_classes : forall P A C,
  follows_enlarging (@multi_nonparametric shape P A C) /\ follows_enlarging (@multi_parametric shape P A C) /\
  follows_enlarging (@aam_result shape P A C) /\ follows_enlarging (@lucas_kanade_result shape P A C).
Proof. intros P A C. repeat split; [apply multi_nonparametric_enlarged|apply multi_parametric_enlarged|apply aam_enlarged|apply lk_enlarged]. Qed.
Print Assumptions c106_result_classes.

(** Errors that do not depend on the unit of length (every metric normalised by a length, C20) are the same for both results; errors
    measured in pixels are multiplied. *)
Theorem c106_errors : forall P A C Er (compute_error : shape -> shape -> res Er) (f : Er -> Er) c (r : iresult shape P A C),
  (forall s t, compute_error (enlarge c s) (enlarge c t) = match compute_error s t with Ok e => Ok (f e) | Err e => Err e end) ->
  final_error compute_error (enlarge_iresult c r) = match final_error compute_error r with Ok e => Ok (f e) | Err e => Err e end /\
  initial_error compute_error (enlarge_iresult c r) = match initial_error compute_error r with Ok e => Ok (f e) | Err e => Err e end /\
  errors compute_error (enlarge_iresult c r) = match errors compute_error r with Ok l => Ok (map f l) | Err e => Err e end.
Proof.
  intros P A C Er ce f c r H. unfold final_error, initial_error, errors, enlarge_iresult. cbn [r_gt r_final r_initial r_shapes].
  destruct (r_gt r) as [g|]; cbn [option_map].
  - split; [apply H|]. split; [destruct (r_initial r); cbn [option_map]; [apply H|reflexivity]|].
    induction (r_shapes r) as [|s l IH]; [reflexivity|]. cbn [map mapM]. rewrite H. destruct (ce s g); cbn [bind]; [|reflexivity].
    rewrite IH. destruct (mapM _ l); reflexivity.
  - split; [reflexivity|]. split; [destruct (r_initial r); reflexivity|reflexivity].
Qed.
Print Assumptions c106_errors.

(** ** Training.  With a given reference shape the images that the models of every scale are trained on are the same, whatever
    the resolution of each training image. *)
From Verif.Model Require Import TrainImages.
Definition same_at_other_size {Px} (rescale_to_pointcloud : image Px -> shape -> string -> res (image Px)) (im im' : image Px) : Prop :=
  exists c, same_picture rescale_to_pointcloud c (px im) (px im') /\ lms im' = enlarge_all c (lms im).
Theorem c106_training : forall Px (rescale_to_pointcloud : image Px -> shape -> string -> res (image Px)) feature rescale v smooth fs ss reference group images images',
  Forall2 (same_at_other_size rescale_to_pointcloud) images images' ->
  training_images rescale_to_pointcloud feature rescale v smooth fs ss reference group images' =
  training_images rescale_to_pointcloud feature rescale v smooth fs ss reference group images.
Proof.
  intros Px rtp feature rescale v smooth fs ss reference group images images' H. unfold training_images, rescale_images_to_reference_shape.
  assert (E : mapM (fun i => rtp i reference group) images' = mapM (fun i => rtp i reference group) images).
  { induction H as [|[p d] [p' d'] ims ims' (c & Hp & Hl) H IH]; [reflexivity|]. cbn [mapM]. cbn [px lms] in Hp, Hl. subst d'. rewrite IH. pose proof (Hp d reference group) as Hq. cbn beta in *. rewrite Hq. reflexivity. }
  now rewrite E.
Qed.
Print Assumptions c106_training.

(** *** A concrete world: an image is known by the map from its coordinates to the scene; it is brought to the size of the
    reference by the width of the first two points. *)
Import Proofs.FitterDemo.
Definition first_width (s : shape) : Qc := match s with p :: q :: _ => (fst q - fst p)%Qc | _ => 0%Qc end.
Definition res_resize (im : image aff) (ref : shape) (g : string) : res (image aff) :=
  match dict_get g (lms im) with
  | None => Err KeyError
  | Some s => if Qc_eq_bool (first_width s) 0 then Err (UserExn 4) else
              if Qc_eq_bool (first_width ref) 0 then Err (UserExn 4) else
              Ok (resample (scale_aff (first_width s / first_width ref)%Qc) im)
  end.
Lemma first_width_enlarged c s : first_width (enlarge c s) = (c * first_width s)%Qc.
Proof. destruct s as [|p [|q s]]; cbn; ring. Qed.
Example c106_picture : forall c p, c <> 0%Qc -> same_picture res_resize c p (compose_after p (scale_aff (/ c))).
Proof.
  intros c p Hc d ref g. unfold res_resize. cbn [lms]. rewrite get_enlarged. destruct (dict_get g d) as [s|]; cbn [option_map]; [|reflexivity].
  rewrite first_width_enlarged.
  destruct (Qc_eq_bool (first_width s) 0) eqn:E1.
  - apply Qc_eq_bool_correct in E1. rewrite E1. replace (c * 0)%Qc with 0%Qc by ring. reflexivity.
  - apply Affine.Qceqb_false in E1. assert (E2 : (c * first_width s)%Qc <> 0%Qc) by (intros E; apply Qcmult_integral in E; tauto).
    apply Affine.Qceqb_false in E2. rewrite E2. apply Affine.Qceqb_false in E2. destruct (Qc_eq_bool (first_width ref) 0) eqn:E3; [reflexivity|]. apply Affine.Qceqb_false in E3.
    f_equal. unfold resample. cbn [px lms]. f_equal.
    + unfold compose_after. cbn. f_equal; field; auto.
    + unfold move_lms, enlarge_all. rewrite map_map. apply map_ext. intros [k v]. cbn [fst snd]. f_equal. unfold apply, enlarge. rewrite map_map. apply map_ext.
      intros [x y]. unfold apply_pt, inverse, det, scale_aff. cbn [fa fb fc fd ftx fty fst snd]. f_equal; field; auto.
Qed.
Example c106_rescale : rescales_about_origin demo_rescale.
Proof. intros im q im' t. unfold demo_rescale. destruct (Qc_eq_bool q 0); [discriminate|]. intros [= <- <-]. split; reflexivity. Qed.
Lemma solve3_enlarged c p q r u v w : let e (x : point) := (c * fst x, c * snd x)%Qc in
  solve3 (p, e u) (q, e v) (r, e w) = map (enlarge_map c) (solve3 (p, u) (q, v) (r, w)).
Proof.
  destruct p as [x1 y1], q as [x2 y2], r as [x3 y3], u as [u1 v1], v as [u2 v2], w as [u3 v3]. unfold solve3. cbn [fst snd].
  destruct (Qc_eq_bool _ 0) eqn:E; [reflexivity|]. apply Affine.Qceqb_false in E. cbn [map enlarge_map fa fb fc fd ftx fty]. f_equal.
  unfold enlarge_map. cbn. f_equal; field; exact E.
Qed.
Lemma flat_map_both {X Y Z} (g : X -> X) (h : Y -> Z) (f : X -> list Y) (f' : X -> list Z) : (forall x, f' (g x) = map h (f x)) ->
  forall l, flat_map f' (map g l) = map h (flat_map f l).
Proof. intros H l. induction l as [|x l IH]; [reflexivity|]. cbn [map flat_map]. now rewrite H, IH, map_app. Qed.
Example c106_align : forall c, aligns_to_enlarged demo_align c.
Proof.
  intros c s t. unfold demo_align. set (e := fun q : point * point => (fst q, (c * fst (snd q), c * snd (snd q))%Qc)).
  assert (E : combine s (enlarge c t) = map e (combine s t)).
  { revert t. induction s as [|p s IH]; intros [|u t]; try reflexivity. cbn [enlarge map combine]. f_equal. apply IH. }
  rewrite E.
  rewrite (flat_map_both e (enlarge_map c) (fun p => flat_map (fun q => flat_map (fun r => solve3 p q r) (combine s t)) (combine s t))).
  { destruct (flat_map _ _); reflexivity. }
  intros p. apply flat_map_both. intros q. apply flat_map_both. intros r. destruct p, q, r. apply solve3_enlarged.
Qed.
Definition two : Qc := Q2Qc 2.
Definition tri : shape := [(Q2Qc 0, Q2Qc 0); (Q2Qc 8, Q2Qc 0); (Q2Qc 0, Q2Qc 8)].
(** Two scales with different features: the fit of the twice as large image returns, and ends twice as far to the right. *)
Example c106_example :
  let fit p s := fit_from_shape res_resize demo_feature demo_rescale demo_align demo_algorithm multi_nonparametric
                   (mkFitter tri [3; 0] [Q2Qc (1 # 2); 1%Qc]) p s (PInt 2) None false [] in
  match fit id_aff tri, fit (scale_aff (/ two)) (enlarge two tri) with
  | (Ok m, []), (Ok m', []) => length (r_shapes (m_res m)) = 3 /\ r_shapes (m_res m') = map (enlarge two) (r_shapes (m_res m)) /\
      r_final (m_res m) <> tri
  | _, _ => False
  end.
Proof.
  vm_compute. split; [reflexivity|]. split; [repeat f_equal; apply Qc_is_canon; reflexivity|].
  intros E. apply (f_equal (fun s => match s with p :: _ => Qnum (this (fst p)) | [] => 0%Z end)) in E. vm_compute in E. discriminate.
Qed.
