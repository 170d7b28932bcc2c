From Coq Require Import String List ZArith QArith Qcanon Bool Lia.
From Verif.Model Require Import Py Dict Affine Result Checks Fitter.
From Verif.Spec Require Import Result Fitter.
From Verif.Proofs Require Dict Affine Result.
Import ListNotations.
Local Open Scope nat_scope.
Set Default Proof Using "Type".

Tactic Notation "bs" hyp(H) "as" simple_intropattern(p) :=
  match type of H with
  | bind ?x _ = Ok _ => let E := fresh "E" in destruct x as [p|] eqn:E; cbn [bind] in H; [|discriminate H]
  end.

Lemma split_last {X} (l : list X) x : nth_error l (length l - 1) = Some x -> l = firstn (length l - 1) l ++ [x].
Proof.
  destruct l as [|y l _] using rev_ind; [discriminate|]. rewrite app_length. cbn [length].
  rewrite nth_error_app2 by lia. replace (length l + 1 - 1 - length l) with 0 by lia. cbn. intros [= <-].
  replace (length l + 1 - 1) with (length l) by lia. rewrite firstn_app, Nat.sub_diag, firstn_all. cbn.
  rewrite app_nil_r. reflexivity.
Qed.

Section F.
  Context {Px P A C : Type}.
  Notation img := (image Px).
  Variable rescale_to_pointcloud : img -> shape -> string -> res img.
  Variable feature : nat -> img -> res img.
  Variable rescale : img -> Qc -> res (img * aff).
  Variable alignment_affine : shape -> shape -> res aff.
  Variable algorithm : nat -> img -> shape -> option shape -> Z -> bool -> res (iresult shape P A C).
  Variable world : img -> aff.
  Variable user_px : Px.
  Notation Faithful := (faithful rescale_to_pointcloud feature rescale alignment_affine algorithm world user_px).
  Notation prep := (prepare_scales feature rescale alignment_affine).

  Definition located (tmp im : img) : Prop :=
    forall g s, dict_get g (lms tmp) = Some s ->
      exists s', dict_get g (lms im) = Some s' /\ apply (world im) s' = apply (world tmp) s.

  Lemma located_trans a b c : located a b -> located b c -> located a c.
  Proof.
    intros H1 H2 g s Hs. destruct (H1 g s Hs) as (s' & E & Ea). destruct (H2 g s' E) as (s2 & E2 & Ea2).
    exists s2. split; auto. congruence.
  Qed.

  Definition scaled_of (im : img) (s : Qc) : res (img * aff) :=
    if negb (Qc_eq_bool s 1) then rescale im s else Ok (im, scale_aff 1).

  Lemma scaled_faithful (HF : Faithful) im s im' t :
    scaled_of im s = Ok (im', t) ->
    det t <> 0%Qc /\ world im' = compose_after (world im) t /\ located im im'.
  Proof.
    unfold scaled_of. destruct (negb (Qc_eq_bool s 1)).
    - apply (f_rescale _ _ _ _ _ _ _ HF).
    - intros [= <- <-]. rewrite Affine.scale_1. split; [apply Affine.det_id|].
      split; [symmetry; apply Affine.compose_id_r|]. intros g l H. eauto.
  Qed.

  Section Prep.
    Hypothesis HF : Faithful.
    Variable tmp : img.
    Variable init s_tmp : shape.
    Hypothesis Htmp : dict_get initial_group (lms tmp) = Some s_tmp.
    Hypothesis Hinit : apply (world tmp) s_tmp = init.
    Hypothesis Hspan : spans init.

    Lemma new_feature f im l a :
      feature f tmp = Ok im -> dict_at initial_group (lms im) = Ok l -> alignment_affine l init = Ok a ->
      a = world im /\ det (world im) <> 0%Qc /\ located tmp im.
    Proof using Hinit Hspan Htmp HF.
      intros Ef El Ea. destruct (f_feature _ _ _ _ _ _ _ HF _ _ _ Ef) as [Hd Hc].
      destruct (Hc _ _ Htmp) as (s' & Es & Ew). unfold dict_at in El. rewrite Es in El. injection El as <-.
      rewrite Hinit in Ew. rewrite <- Ew in Ea, Hspan.
      rewrite (f_align _ _ _ _ _ _ _ HF _ _ Hd Hspan) in Ea. injection Ea as <-. auto.
    Qed.

    Definition good (x : img * aff * aff) : Prop :=
      let '(im, a, t) := x in
      compose_after a t = world im /\ det a <> 0%Qc /\ det t <> 0%Qc /\ located tmp im.

    Definition link (f f' : nat) (s s' : Qc) (x x' : img * aff * aff) : Prop :=
      f = f' -> snd (fst x) = snd (fst x') /\ (s = s' -> snd x = snd x').

    Fixpoint chain (fs : list nat) (ss : list Qc) (l : list (img * aff * aff)) : Prop :=
      match fs, ss, l with
      | f :: fs', s :: ss', x :: l' =>
          match fs', ss', l' with
          | f' :: _, s' :: _, x' :: _ => link f f' s s' x x'
          | _, _, _ => True
          end /\ chain fs' ss' l'
      | _, _, _ => True
      end.

    Lemma prep_step : forall fs ss f' im a0 s' x' l,
      prep fs ss tmp init (Some (f', im, a0)) = Ok l ->
      det (world im) <> 0%Qc -> located tmp im ->
      scaled_of im s' = Ok (fst (fst x'), snd x') ->
      (a0 = world im /\ snd (fst x') = a0 /\ no_late_repeat f' fs) \/ changes_every_time f' fs ->
      length l = length fs /\ length ss = length fs /\ Forall good l /\ chain (f' :: fs) (s' :: ss) (x' :: l).
    Proof using Hinit Hspan Htmp HF.
      induction fs as [|f fs IH]; intros ss f' im a0 s' x' l H Hd Hl Hx Hcase; destruct ss as [|s ss]; cbn [prepare_scales] in H; try discriminate.
      - injection H as <-. cbn. auto.
      - bs H as [[fim af] fst0]. fold (scaled_of fim s) in H.
        bs H as [sc st]. bs H as a. injection H as <-.
        assert (Hcases : (f <> f' /\ af = world fim /\ fst0 = a0 /\ det (world fim) <> 0%Qc /\ located tmp fim /\ changes_every_time f fs
                          \/ (f = f' /\ af = a0 /\ fst0 = a0 /\ fim = im /\ a0 = world im /\ snd (fst x') = a0 /\ no_late_repeat f fs))).
        { destruct (negb (f =? f')) eqn:Ef.
          - left. apply negb_true_iff, Nat.eqb_neq in Ef. split; [exact Ef|].
            bs E as im1. bs E as l1. bs E as a1. injection E as <- <- <-.
            destruct (new_feature _ _ _ _ E2 E3 E4) as (-> & Hd' & Hl').
            repeat (split; [auto; fail|]). destruct Hcase as [(_ & _ & Hn)|Hn]; cbn in Hn.
            + apply Nat.eqb_neq in Ef. rewrite Ef in Hn. exact Hn.
            + tauto.
          - right. apply negb_false_iff, Nat.eqb_eq in Ef. injection E as <- <- <-. subst f.
            destruct Hcase as [(Hw & Hx' & Hn)|[Hn _]]; [|congruence]. cbn in Hn. rewrite Nat.eqb_refl in Hn. auto 8. }
        assert (Hfim : det (world fim) <> 0%Qc /\ located tmp fim /\ af = world fim).
        { destruct Hcases as [(? & ? & ? & ? & ? & ?)|(? & ? & ? & ? & ? & ? & ?)]; subst; auto. }
        destruct Hfim as (Hd' & Hl' & Haf).
        destruct (scaled_faithful HF _ _ _ _ E0) as (Hdt & Hw & Hloc).
        edestruct (IH ss f fim fst0 s (sc, af, st) a) as (L1 & L2 & L3 & L4); try eassumption.
        { destruct Hcases as [(? & ? & ? & ? & ? & ?)|(? & ? & ? & ? & ? & ? & ?)]; subst; [right|left]; auto. }
        split; [cbn; congruence|]. split; [cbn; congruence|]. split.
        + constructor; [|exact L3]. cbn. subst af. split; [auto|]. split; [auto|]. split; [auto|].
          eapply located_trans; eauto.
        + split; [|exact L4]. intros Heq. cbn [fst snd].
          destruct Hcases as [(? & ? & ? & ? & ? & ?)|(? & ? & ? & ? & ? & ? & ?)]; subst; [congruence|].
          split; [congruence|]. intros ->. rewrite Hx in E0. injection E0 as E0 E0'. auto.
    Qed.

    Lemma prep_spec fs ss l :
      prep fs ss tmp init None = Ok l ->
      (match fs with [] => True | f :: fs' => no_late_repeat f fs' end) ->
      length l = length fs /\ length ss = length fs /\ Forall good l /\ chain fs ss l.
    Proof using Hinit Hspan Htmp HF.
      destruct fs as [|f fs], ss as [|s ss]; cbn [prepare_scales]; try discriminate.
      - intros [= <-] _. cbn. auto.
      - intros H Hn. bs H as [[fim af] fst0]. fold (scaled_of fim s) in H.
        bs H as [sc st]. bs H as a. injection H as <-.
        bs E as im1. bs E as l1. bs E as a1. injection E as <- <- <-.
        destruct (new_feature _ _ _ _ E2 E3 E4) as (-> & Hd' & Hl').
        destruct (scaled_faithful HF _ _ _ _ E0) as (Hdt & Hw & Hloc).
        edestruct (prep_step fs ss f im1 (world im1) s (sc, world im1, st) a) as (L1 & L2 & L3 & L4); try eassumption.
        { left. auto. }
        split; [cbn; congruence|]. split; [cbn; congruence|]. split; [|exact L4].
        constructor; [|exact L3]. cbn. split; [auto|]. split; [auto|]. split; [auto|]. eapply located_trans; eauto.
    Qed.
  End Prep.

  (** *** From one scale to the next *)
  Lemma next_same_features s s' af sc sc' final sh' :
    forall f, det sc' <> 0%Qc -> (s = s' -> sc = sc') ->
    next_shape f f s s' af af sc sc' final = Ok sh' ->
    apply af (apply sc' sh') = apply af (apply sc final).
  Proof.
    intros f Hd Hs. unfold next_shape. rewrite Nat.eqb_refl. cbn [negb].
    destruct (negb (Qc_eq_bool s s')) eqn:E.
    - rewrite Affine.pseudoinverse_det by exact Hd. cbn [bind]. intros [= <-]. f_equal.
      rewrite Affine.apply_compose, Affine.apply_inverse_r by exact Hd. reflexivity.
    - apply negb_false_iff, Affine.Qceqb_true in E. intros [= <-]. rewrite (Hs E). reflexivity.
  Qed.

  Lemma next_other_features f f' s s' af af' sc sc' final sh' :
    f <> f' -> next_shape f f' s s' af af' sc sc' final = Ok sh' ->
    apply af' (apply sc' sh') = apply sc (apply af final).
  Proof.
    intros Hf. unfold next_shape. replace (f' =? f) with false by (symmetry; apply Nat.eqb_neq; auto). cbn [negb].
    destruct (pseudoinverse af') as [ai|] eqn:Ea; cbn [bind]; [|discriminate].
    destruct (pseudoinverse sc') as [si|] eqn:Es; cbn [bind]; [|discriminate].
    intros [= <-]. apply Affine.pseudoinverse_ok in Ea, Es. destruct Ea as [Hda ->]. destruct Es as [Hds ->].
    rewrite !Affine.apply_compose, Affine.apply_inverse_r, Affine.apply_inverse_r by assumption. reflexivity.
  Qed.

  Lemma next_defined f f' s s' af af' sc sc' final :
    det af' <> 0%Qc -> det sc' <> 0%Qc -> exists sh', next_shape f f' s s' af af' sc sc' final = Ok sh'.
  Proof.
    intros Ha Hs. unfold next_shape. rewrite !Affine.pseudoinverse_det by assumption.
    destruct (negb (f' =? f)); cbn [bind]; [eauto|]. destruct (negb (Qc_eq_bool s s')); cbn [bind]; eauto.
  Qed.

  Notation fitl := (fit_levels algorithm).

  Lemma fit_levels_spec : forall levels i rc sh rs,
    fitl i levels rc sh = Ok rs ->
    length rs = length levels /\
    (forall lv r, nth_error levels 0 = Some lv -> nth_error rs 0 = Some r ->
       algorithm i (l_image lv) sh (l_gt lv) (l_max_iters lv) rc = Ok r) /\
    (forall j lv nx r r', nth_error levels j = Some lv -> nth_error levels (S j) = Some nx ->
       nth_error rs j = Some r -> nth_error rs (S j) = Some r' ->
       exists sh', next_shape (l_feature lv) (l_feature nx) (l_scale lv) (l_scale nx)
                     (l_affine lv) (l_affine nx) (l_scaling lv) (l_scaling nx) (r_final r) = Ok sh' /\
         algorithm (i + S j) (l_image nx) sh' (l_gt nx) (l_max_iters nx) rc = Ok r').
  Proof.
    induction levels as [|lv levels IH]; intros i rc sh rs H; cbn [fit_levels] in H.
    - injection H as <-. split; [reflexivity|]. split; intros; destruct j || idtac; discriminate.
    - bs H as r. destruct levels as [|nx levels].
      + injection H as <-. split; [reflexivity|]. split.
        * cbn. intros lv' r' [= <-] [= <-]. exact E.
        * intros [|j]; cbn; intros; [discriminate|]. destruct j; discriminate.
      + bs H as sh'. bs H as rs'. injection H as <-. destruct (IH _ _ _ _ E1) as (L1 & L2 & L3).
        split; [cbn in *; congruence|]. split.
        * cbn. intros lv' r' [= <-] [= <-]. exact E.
        * intros [|j] lv' nx' r1 r2; cbn [nth_error].
          -- intros [= <-] [= <-] [= <-] Hr. exists sh'. split; [exact E0|].
             specialize (L2 nx r2 eq_refl Hr). rewrite Nat.add_1_r. exact L2.
          -- intros H1 H2 H3 H4. destruct (L3 j lv' nx' r1 r2 H1 H2 H3 H4) as (s2 & Hs2 & Ha2).
             exists s2. split; [exact Hs2|]. rewrite Nat.add_succ_r. exact Ha2.
  Qed.

  Lemma zip_levels_length : forall fs ss (images : list img) affs scs gts its n,
    length fs = n -> length ss = n -> length images = n -> length affs = n -> length scs = n -> length its = n ->
    length (zip_levels fs ss images affs scs gts its) = n.
  Proof.
    induction fs as [|f fs IH]; intros [|s ss] [|im images] [|a affs] [|t scs] gts [|k its] n; cbn; intros; subst; try discriminate; auto.
  Qed.

  Lemma zip_levels_nth : forall fs ss (images : list img) affs scs gts its j lv,
    nth_error (zip_levels fs ss images affs scs gts its) j = Some lv ->
    nth_error fs j = Some (l_feature lv) /\ nth_error ss j = Some (l_scale lv) /\
    nth_error images j = Some (l_image lv) /\ nth_error affs j = Some (l_affine lv) /\
    nth_error scs j = Some (l_scaling lv) /\ nth_error its j = Some (l_max_iters lv) /\
    match gts with Some g => l_gt lv = nth_error g j | None => l_gt lv = None end.
  Proof.
    induction fs as [|f fs IH]; intros [|s ss] [|im images] [|a affs] [|t scs] gts [|k its] j lv; cbn [zip_levels]; intros H;
      try (destruct j; discriminate H).
    destruct j as [|j]; cbn [nth_error] in *.
    - injection H as <-. cbn. repeat (split; [reflexivity|]). destruct gts as [[|g gts]|]; reflexivity.
    - apply IH in H. destruct H as (? & ? & ? & ? & ? & ? & Hg). repeat (split; [assumption|]).
      destruct gts as [[|g gts]|]; cbn in *; auto. destruct j; auto.
  Qed.

  Lemma check_max_iters_len v n its : check_max_iters v n = Ok its -> length its = n.
  Proof.
    unfold check_max_iters. intros H.
    assert (G : (let? l := items v in
      if (length l =? 1) && (1 <? n)
      then match l with
           | [] => Err IndexError
           | x :: _ => let? (a, b) := num_frac x in Ok (repeat (round_half_even_div a (Z.pos b * Z.of_nat n)) n)
           end
      else if negb (length l =? n) then Err ValueError else mapM to_int64 l) = Ok its -> length its = n).
    { clear H. intros H. bs H as l. destruct ((length l =? 1) && (1 <? n)).
      - destruct l as [|x l]; [discriminate|]. bs H as [a b]. injection H as <-. apply repeat_length.
      - destruct (negb (length l =? n)) eqn:En; [discriminate|]. apply negb_false_iff, Nat.eqb_eq in En.
        apply Result.mapM_inv in H. destruct H as [H _]. congruence. }
    destruct v; try (apply G; exact H). injection H as <-. apply repeat_length.
  Qed.

  (** *** _prepare_image *)
  Notation prepare := (prepare_image rescale_to_pointcloud feature rescale alignment_affine).

  Definition with_groups (init : shape) (gt : option shape) (d : dict shape) : dict shape :=
    match gt with
    | Some g => dict_set gt_group g (dict_set initial_group init d)
    | None => dict_set initial_group init d
    end.
  Definition without_groups (gt : option shape) (d : dict shape) : dict shape :=
    match gt with
    | Some _ => dict_remove gt_group (dict_remove initial_group d)
    | None => dict_remove initial_group d
    end.

  Lemma groups_differ : gt_group <> initial_group.
  Proof. discriminate. Qed.

  Lemma get_init_with init gt d : dict_get initial_group (with_groups init gt d) = Some init.
  Proof.
    unfold with_groups. destruct gt.
    - rewrite Dict.get_set_other by (intros H; symmetry in H; revert H; apply groups_differ). apply Dict.get_set_same.
    - apply Dict.get_set_same.
  Qed.

  Lemma get_gt_with init g d : dict_get gt_group (dict_remove initial_group (with_groups init (Some g) d)) = Some g.
  Proof.
    unfold with_groups. rewrite Dict.get_remove_other by apply groups_differ. apply Dict.get_set_same.
  Qed.

  (** The part of _prepare_image that computes, with the landmarks it finds on the image. *)
  Definition computed (F : fitter) (p : Px) (init : shape) (gt : option shape) (d : dict shape)
    : res (list img * list shape * option (list shape) * list aff * list aff) :=
    let? tmp := rescale_to_pointcloud (mkImage p d) (reference_shape F) initial_group in
    let? l := prepare_scales feature rescale alignment_affine (holistic_features F) (scales F) tmp init None in
    let images := map (fun x => fst (fst x)) l in
    let? inits := mapM (fun i => dict_at initial_group (lms i)) images in
    let? gts := (match gt with
                 | Some _ => let? g := mapM (fun i => dict_at gt_group (lms i)) images in Ok (Some g)
                 | None => Ok None end) in
    Ok (images, inits, gts, map (fun x => snd (fst x)) l, map snd l).

  (** Exact effect of _prepare_image on the landmarks of the user's image. *)
  Lemma prepare_image_spec F p init gt d :
    prepare F p init gt d =
      match computed F p init gt (with_groups init gt d) with
      | Ok x => (Ok x, without_groups gt (with_groups init gt d))
      | Err e => (Err e, with_groups init gt d)
      end.
  Proof.
    unfold prepare_image, computed, andThen, set_lm, del_lm, ret, dict_del.
    destruct gt as [g|].
    - change (dict_set gt_group g (dict_set initial_group init d)) with (with_groups init (Some g) d).
      set (d' := with_groups init (Some g) d).
      destruct (rescale_to_pointcloud (mkImage p d') (reference_shape F) initial_group) as [tmp|e]; cbn [bind]; [|reflexivity].
      destruct (prepare_scales feature rescale alignment_affine (holistic_features F) (scales F) tmp init None) as [l|e]; cbn [bind]; [|reflexivity].
      destruct (mapM (fun i => dict_at initial_group (lms i)) _) as [inits|e]; cbn [bind]; [|reflexivity].
      destruct (mapM (fun i => dict_at gt_group (lms i)) _) as [gts|e]; cbn [bind]; [|reflexivity].
      unfold d' at 1. rewrite get_init_with. unfold d' at 1. rewrite get_gt_with. reflexivity.
    - change (dict_set initial_group init d) with (with_groups init None d).
      set (d' := with_groups init None d).
      destruct (rescale_to_pointcloud (mkImage p d') (reference_shape F) initial_group) as [tmp|e]; cbn [bind]; [|reflexivity].
      destruct (prepare_scales feature rescale alignment_affine (holistic_features F) (scales F) tmp init None) as [l|e]; cbn [bind]; [|reflexivity].
      destruct (mapM (fun i => dict_at initial_group (lms i)) _) as [inits|e]; cbn [bind]; [|reflexivity].
      unfold d' at 1. rewrite get_init_with. reflexivity.
  Qed.

  Lemma without_with init gt d : dict_get initial_group d = None -> dict_get gt_group d = None ->
    without_groups gt (with_groups init gt d) = d.
  Proof.
    intros Hi Hg. unfold without_groups, with_groups. destruct gt as [g|].
    - assert (E : dict_set initial_group init d = d ++ [(initial_group, init)]) by (apply Dict.set_new; exact Hi).
      assert (E2 : dict_get gt_group (dict_set initial_group init d) = None)
        by (rewrite Dict.get_set_other; [exact Hg|apply groups_differ]).
      rewrite (Dict.set_new _ _ _ E2), E.
      assert (E3 : dict_remove initial_group ((d ++ [(initial_group, init)]) ++ [(gt_group, g)]) = d ++ [(gt_group, g)]).
      { clear - Hi. revert Hi. generalize initial_group as k0. intros k0 Hi.
        induction d as [|[k v] d IH]; cbn in *; [rewrite String.eqb_refl; reflexivity|].
        destruct (String.eqb k0 k); [discriminate|]. f_equal. apply IH. exact Hi. }
      rewrite E3. apply Dict.remove_app_new. exact Hg.
    - rewrite Dict.set_new by exact Hi. apply Dict.remove_app_new. exact Hi.
  Qed.

  (** *** fit_from_shape *)
  Notation fitfs := (fit_from_shape rescale_to_pointcloud feature rescale alignment_affine algorithm).

  Definition fitted build (F : fitter) (init : shape) max_iters (gt : option shape) rc
      (x : list img * list shape * option (list shape) * list aff * list aff) : res (mresult shape P A C) :=
    let '(images, inits, gts, affs, scs) := x in
    let? s0 := nth_res inits 0 in
    let? rs := fit algorithm F images s0 affs scs gts max_iters rc in
    build rs (length (scales F)) (map apply affs) (map apply scs) gt.

  Lemma fit_from_shape_spec build F p init max_iters gt rc d :
    fitfs build F p init max_iters gt rc d =
      match computed F p init gt (with_groups init gt d) with
      | Ok x => (fitted build F init max_iters gt rc x, without_groups gt (with_groups init gt d))
      | Err e => (Err e, with_groups init gt d)
      end.
  Proof.
    unfold fit_from_shape, andThen at 1. rewrite prepare_image_spec.
    destruct (computed F p init gt (with_groups init gt d)) as [[[[[images inits] gts] affs] scs]|e]; [|reflexivity].
    unfold andThen, ret, fitted. destruct (nth_res inits 0); [|reflexivity]. cbn [bind].
    destruct (fit algorithm F images _ affs scs gts max_iters rc); reflexivity.
  Qed.


  Lemma mapM_nth {X Y} (f : X -> res Y) l ys : mapM f l = Ok ys ->
    length ys = length l /\ forall j x y, nth_error l j = Some x -> nth_error ys j = Some y -> f x = Ok y.
  Proof.
    intros H. apply Result.mapM_inv in H. destruct H as [Hl Hn]. split; [exact Hl|].
    intros j x y Hx Hy. destruct (Hn j x Hx) as (y' & E & Ey). congruence.
  Qed.

  Lemma chain_nth : forall fs ss (l : list (img * aff * aff)) j f f' s s' x x', chain fs ss l ->
    nth_error fs j = Some f -> nth_error fs (S j) = Some f' ->
    nth_error ss j = Some s -> nth_error ss (S j) = Some s' ->
    nth_error l j = Some x -> nth_error l (S j) = Some x' -> link f f' s s' x x'.
  Proof.
    induction fs as [|f0 fs IH]; intros ss l j f f' s s' x x' Hc; [destruct j; discriminate|].
    destruct ss as [|s0 ss]; [intros _ _; destruct j; discriminate|].
    destruct l as [|x0 l]; [intros _ _ _ _; destruct j; discriminate|].
    destruct Hc as [Hl Hc]. destruct j as [|j].
    - cbn [nth_error]. intros [= <-] Hf [= <-] Hs [= <-] Hx.
      destruct fs; [discriminate|]. destruct ss; [discriminate|]. destruct l; [discriminate|].
      injection Hf as <-. injection Hs as <-. injection Hx as <-. exact Hl.
    - intros. eapply (IH ss l j); eauto.
  Qed.

  Definition feature_condition (F : fitter) : Prop :=
    match holistic_features F with [] => True | f :: fs => no_late_repeat f fs end.

  Lemma computed_spec (HF : Faithful) F init gt d images inits gts affs scs :
    computed F user_px init gt (with_groups init gt d) = Ok (images, inits, gts, affs, scs) ->
    spans init -> feature_condition F ->
    let n := length (scales F) in
    length (holistic_features F) = n /\ length images = n /\ length inits = n /\ length affs = n /\ length scs = n /\
    (forall j im, nth_error images j = Some im ->
       exists a t s, nth_error affs j = Some a /\ nth_error scs j = Some t /\ nth_error inits j = Some s /\
         compose_after a t = world im /\ det a <> 0%Qc /\ det t <> 0%Qc /\ apply (world im) s = init /\
         (forall l, gts = Some l -> exists g0 g1, nth_error l j = Some g0 /\ gt = Some g1 /\ apply (world im) g0 = g1)) /\
    (forall j f s s' a a' t t', nth_error (holistic_features F) j = Some f -> nth_error (holistic_features F) (S j) = Some f ->
       nth_error (scales F) j = Some s -> nth_error (scales F) (S j) = Some s' ->
       nth_error affs j = Some a -> nth_error affs (S j) = Some a' ->
       nth_error scs j = Some t -> nth_error scs (S j) = Some t' ->
       a = a' /\ (s = s' -> t = t')).
  Proof.
    intros H Hspan Hcond. unfold computed in H. bs H as tmp. bs H as l. cbv zeta in H. bs H as inits0. bs H as gts0.
    injection H as <- <- <- <- <-.
    destruct (f_resize _ _ _ _ _ _ _ HF _ _ _ _ E) as [Hdw Hres].
    destruct (Hres _ _ (get_init_with init gt d)) as (s_tmp & Es & Ew).
    destruct (prep_spec HF tmp init s_tmp Es Ew Hspan _ _ _ E0 Hcond) as (L1 & L2 & Hgood & Hchain).
    apply mapM_nth in E1. destruct E1 as [Li Hi]. rewrite map_length in Li.
    cbv zeta. rewrite !map_length. split; [auto|]. split; [congruence|]. split; [congruence|].
    split; [congruence|]. split; [congruence|]. split.
    - intros j im Hj. rewrite nth_error_map in Hj. destruct (nth_error l j) as [[[im' a] t]|] eqn:Ej; [|discriminate].
      cbn in Hj. injection Hj as ->.
      pose proof (proj1 (Forall_forall _ _) Hgood _ (nth_error_In _ _ Ej)) as (G1 & G2 & G3 & G4).
      destruct (nth_error inits0 j) as [s|] eqn:Ej2.
      2: { apply nth_error_None in Ej2. assert (j < length l) by (apply nth_error_Some; congruence). lia. }
      exists a, t, s. rewrite !nth_error_map, Ej. repeat (split; [reflexivity || assumption|]).
      assert (Hat : dict_at initial_group (lms im) = Ok s).
      { eapply (Hi j); [|exact Ej2]. rewrite nth_error_map, Ej. reflexivity. }
      destruct (G4 _ _ Es) as (s1 & Es1 & Ew1). unfold dict_at in Hat. rewrite Es1 in Hat. injection Hat as ->.
      split; [congruence|]. intros lg Hlg. subst gts0.
      destruct gt as [g|]; [|discriminate]. bs E2 as lg'. injection E2 as <-.
      apply mapM_nth in E1. destruct E1 as [Lg Hg]. rewrite map_length in Lg.
      assert (Hgt : dict_get gt_group (with_groups init (Some g) d) = Some g) by apply Dict.get_set_same.
      destruct (Hres _ _ Hgt) as (g_tmp & Egt & Ewt). destruct (G4 _ _ Egt) as (g0 & Eg0 & Ew0).
      exists g0, g. split; [|split; [reflexivity|congruence]].
      destruct (nth_error lg' j) as [g2|] eqn:Ej3.
      2: { apply nth_error_None in Ej3. assert (j < length l) by (apply nth_error_Some; congruence). lia. }
      assert (Hat2 : dict_at gt_group (lms im) = Ok g2).
      { eapply (Hg j); [|exact Ej3]. rewrite nth_error_map, Ej. reflexivity. }
      unfold dict_at in Hat2. rewrite Eg0 in Hat2. congruence.
    - intros j f s s' a a' t t' Hf Hf' Hs Hs' Ha Ha' Ht Ht'. rewrite nth_error_map in Ha, Ha', Ht, Ht'.
      destruct (nth_error l j) as [x|] eqn:Ex; [|discriminate].
      destruct (nth_error l (S j)) as [x'|] eqn:Ex'; [|discriminate].
      cbn in Ha, Ha', Ht, Ht'. injection Ha as <-. injection Ha' as <-. injection Ht as <-. injection Ht' as <-.
      exact (chain_nth _ _ _ j f f s s' x x' Hchain Hf Hf' Hs Hs' Ex Ex' eq_refl).
  Qed.

  Lemma Ttwo affs scs j a t (x : shape) : nth_error affs j = Some a -> nth_error scs j = Some t ->
    T (map apply affs) (map apply scs) j x = apply (compose_after a t) x.
  Proof.
    intros Ha Ht. unfold T. rewrite Affine.apply_compose.
    assert (Ea : nth j (map apply affs) (fun y => y) = apply a).
    { apply nth_error_nth. rewrite nth_error_map, Ha. reflexivity. }
    assert (Et : nth j (map apply scs) (fun y => y) = apply t).
    { apply nth_error_nth. rewrite nth_error_map, Ht. reflexivity. }
    rewrite Ea, Et. reflexivity.
  Qed.

  Lemma concat_frames (affs scs : list aff) : forall (images : list img) (rs : list (iresult shape P A C)) k,
    (forall j im, nth_error images j = Some im -> forall x, T (map apply affs) (map apply scs) (k + j) x = apply (world im) x) ->
    length images = length rs ->
    map (fun ir => map (T (map apply affs) (map apply scs) (fst ir)) (tl (r_shapes (snd ir)))) (combine (seq k (length rs)) rs)
    = map (fun ir => map (apply (world (fst ir))) (tl (r_shapes (snd ir)))) (combine images rs).
  Proof.
    induction images as [|im images IH]; intros [|r rs] k H Hl; try discriminate; [reflexivity|].
    cbn [length seq combine map fst snd]. f_equal.
    - apply map_ext. intros x. rewrite <- (H 0 im eq_refl). rewrite Nat.add_0_r. reflexivity.
    - apply IH; [|cbn in Hl; lia]. intros j im' Hj x. rewrite <- (H (S j) im' Hj). rewrite Nat.add_succ_r. reflexivity.
  Qed.

  (** C10 and C11 together. *)
  Lemma fit_from_shape_world (HF : Faithful) build F init max_iters gt rc d m d' :
    builds_on build -> spans init -> feature_condition F ->
    fitfs build F user_px init max_iters gt rc d = (Ok m, d') ->
    exists images affs scs rs,
      reported algorithm world (length (scales F)) rc init gt images rs m /\
      length affs = length (scales F) /\ length scs = length (scales F) /\
      (forall j im a t, nth_error images j = Some im -> nth_error affs j = Some a -> nth_error scs j = Some t ->
         world im = compose_after a t) /\
      (exists r0, nth_error rs 0 = Some r0 /\ exists s0 im0, r_initial r0 = Some s0 /\ nth_error images 0 = Some im0 /\
         apply (world im0) s0 = init) /\
      (forall j im im' a t r r' f f',
         nth_error images j = Some im -> nth_error images (S j) = Some im' ->
         nth_error affs j = Some a -> nth_error scs j = Some t ->
         nth_error rs j = Some r -> nth_error rs (S j) = Some r' ->
         nth_error (holistic_features F) j = Some f -> nth_error (holistic_features F) (S j) = Some f' ->
         exists s', r_initial r' = Some s' /\
           (f = f' -> apply (world im') s' = apply (world im) (r_final r)) /\
           (f <> f' -> apply (world im') s' = apply t (apply a (r_final r)))) /\
      (exists inits gts, computed F user_px init gt (with_groups init gt d) = Ok (images, inits, gts, affs, scs) /\
         forall j im, nth_error images j = Some im ->
           exists s, nth_error inits j = Some s /\ apply (world im) s = init /\ det (world im) <> 0%Qc).
  Proof.
    intros Hb Hspan Hcond H. rewrite fit_from_shape_spec in H.
    destruct (computed F user_px init gt (with_groups init gt d)) as [[[[[images inits] gts] affs] scs]|e] eqn:Ec; [|discriminate].
    injection H as H _. unfold fitted in H. bs H as s0. bs H as rs.
    destruct (computed_spec HF _ _ _ _ _ _ _ _ _ Ec Hspan Hcond) as (Lf & Lim & Lin & La & Ls & Hlev & Hadj).
    unfold fit in E0. bs E0 as its. pose proof (check_max_iters_len _ _ _ E1) as Lits.
    pose proof (zip_levels_length (holistic_features F) (scales F) images affs scs gts its _ Lf eq_refl Lim La Ls Lits) as Lz.
    destruct (fit_levels_spec _ _ _ _ _ E0) as (Lrs & Hfirst & Hnext). rewrite Lz in Lrs.
    set (levels := zip_levels (holistic_features F) (scales F) images affs scs gts its) in *.
    set (n := length (scales F)) in *.
    assert (Hlv : forall j, j < n -> exists lv, nth_error levels j = Some lv).
    { intros j Hj. destruct (nth_error levels j) eqn:El; [eauto|]. apply nth_error_None in El. lia. }
    assert (Hran : forall j im r, nth_error images j = Some im -> nth_error rs j = Some r ->
      exists s g k, algorithm j im s g k rc = Ok r /\
        (forall g0, g = Some g0 -> exists g1, gt = Some g1 /\ apply (world im) g0 = g1) /\ (j = 0 -> s = s0)).
    { intros j im r Him Hr. assert (Hj : j < n) by (rewrite <- Lrs; apply nth_error_Some; congruence).
      destruct (Hlv j Hj) as (lv & El). destruct (zip_levels_nth _ _ _ _ _ _ _ _ _ El) as (_ & _ & Zim & _ & _ & _ & Zg).
      assert (Hgt : forall g0, l_gt lv = Some g0 -> exists g1, gt = Some g1 /\ apply (world im) g0 = g1).
      { intros g0 Hg0. destruct (Hlev j im Him) as (a & t & s & _ & _ & _ & _ & _ & _ & _ & Hg).
        destruct gts as [lg|]; [|congruence]. destruct (Hg lg eq_refl) as (g2 & g1 & E2 & E3 & E4).
        exists g1. split; [exact E3|]. congruence. }
      rewrite Him in Zim. injection Zim as Zim. rewrite Zim in *.
      destruct j as [|j].
      - exists s0, (l_gt lv), (l_max_iters lv). split; [exact (Hfirst lv r El Hr)|]. split; auto.
      - destruct (Hlv j ltac:(lia)) as (lv0 & El0).
        destruct (nth_error rs j) as [r0|] eqn:Er0; [|apply nth_error_None in Er0; lia].
        destruct (Hnext j lv0 lv r0 r El0 El Er0 Hr) as (s' & _ & Ha). cbn [plus] in Ha.
        exists s', (l_gt lv), (l_max_iters lv). split; [exact Ha|]. split; [exact Hgt|discriminate]. }
    destruct (Hb _ _ _ _ _ _ H) as (m0 & Hm0 & B1 & B2 & B3 & B4).
    pose proof (Result.multi_nonparametric_inv _ _ _ _ _ _ Hm0) as (_ & I1 & I2 & I3 & I4).
    assert (Hbody : forall j im r, nth_error images j = Some im -> nth_error rs j = Some r ->
       exists s rest, r_initial r = Some s /\ r_shapes r = s :: rest /\ last_res rest = Ok (r_final r) /\ (j = 0 -> s = s0)).
    { intros j im r Him Hr. destruct (Hran j im r Him Hr) as (s & g & k & Ha & _ & Hj).
      destruct (f_algorithm _ _ _ _ _ _ _ HF _ _ _ _ _ _ _ Ha) as (Hi & rest & Hs & Hl). exists s, rest. auto. }
    assert (Him_of : forall j r, nth_error rs j = Some r -> exists im, nth_error images j = Some im).
    { intros j r Hr. destruct (nth_error images j) eqn:El; [eauto|]. apply nth_error_None in El.
      assert (j < length rs) by (apply nth_error_Some; congruence). lia. }
    assert (Hframe : forall j im, nth_error images j = Some im -> forall x, T (map apply affs) (map apply scs) (0 + j) x = apply (world im) x).
    { intros j im Him x. destruct (Hlev j im Him) as (a & t & s & Ha & Ht & _ & Hw & _). cbn [plus].
      rewrite (Ttwo _ _ _ _ _ _ Ha Ht), Hw. reflexivity. }
    assert (Ebody : concat (map (fun ir => map (T (map apply affs) (map apply scs) (fst ir)) (Result.body (snd ir))) (combine (seq 0 n) rs))
        = concat (map (fun ir => map (apply (world (fst ir))) (tl (r_shapes (snd ir)))) (combine images rs))).
    { rewrite <- (concat_frames affs scs images rs 0 Hframe) by congruence. rewrite <- Lrs. f_equal. apply map_ext_in.
      intros [i r] Hin. cbn [fst snd]. f_equal. apply in_combine_r in Hin. apply In_nth_error in Hin. destruct Hin as (j & Hj).
      destruct (Him_of _ _ Hj) as (im & Him). destruct (Hbody j im r Him Hj) as (s & rest & Hi & Hs & _).
      unfold Result.body. rewrite Hi. reflexivity. }
    rewrite Ebody in I2, I3.
    assert (Hn : n <> 0).
    { intros Hn. unfold nth_res in E. destruct inits; [discriminate|]. cbn in Lin. congruence. }
    destruct (nth_error rs 0) as [r0|] eqn:Er0; [|apply nth_error_None in Er0; lia].
    destruct (Him_of 0 r0 Er0) as (im0 & Him0).
    destruct (Hbody 0 im0 r0 Him0 Er0) as (s00 & rest0 & Hi0 & Hs0 & _ & Hz). rewrite (Hz eq_refl) in *. clear Hz.
    assert (Hw0 : apply (world im0) s0 = init).
    { destruct (Hlev 0 im0 Him0) as (a & t & s & _ & _ & Hs & _ & _ & _ & Hw & _).
      unfold nth_res in E. rewrite Hs in E. injection E as ->. exact Hw. }
    assert (Hinit : r_initial (m_res m) = Some init).
    { rewrite B1, I1. destruct rs as [|r rs']; [discriminate|]. injection Er0 as ->. rewrite Hi0. cbn [option_map].
      rewrite (Hframe 0 im0 Him0 s0 : T _ _ 0 s0 = _), Hw0. reflexivity. }
    exists images, affs, scs, rs. split; [|split; [exact La|split; [exact Ls|split; [|split; [|split]]]]].
    - split.
      + exact Lim.
      + exact Lrs.
      + intros j im r Him Hr. destruct (Hran j im r Him Hr) as (s & g & k & Ha & Hg & _). exists s, g, k. auto.
      + exact Hinit.
      + rewrite B2, I2, <- B1, Hinit. reflexivity.
      + intros im r Him Hr. rewrite B3.
        destruct (Hbody _ _ _ Him Hr) as (s & rest & _ & Hs & Hl & _).
        assert (Esplit : combine images rs = firstn (n - 1) (combine images rs) ++ [(im, r)]).
        { clear - Him Hr Lim Lrs Hn. assert (Lc : length (combine images rs) = n) by (rewrite combine_length; lia).
          assert (En : nth_error (combine images rs) (n - 1) = Some (im, r)).
          { clear - Him Hr. revert rs Him Hr. generalize (n - 1) as k. revert images.
            induction images as [|x images IH]; intros [|k] [|y rs]; cbn; intros; try discriminate.
            - congruence.
            - apply IH; auto. }
          rewrite <- Lc in En |- *. apply split_last. exact En. }
        rewrite Esplit, map_app, concat_app in I3. cbn [map concat fst snd] in I3. rewrite app_nil_r, Hs in I3. cbn [tl] in I3.
        assert (Hne : map (apply (world im)) rest <> []).
        { apply Result.last_res_ne in Hl. destruct rest; [congruence|discriminate]. }
        rewrite Result.last_res_app in I3 by exact Hne.
        apply Result.last_res_nth in I3. apply Result.last_res_nth in Hl. rewrite map_length in I3.
        rewrite nth_error_map, Hl in I3. cbn in I3. congruence.
      + rewrite B4. exact I4.
    - intros j im a t Him Ha Ht. destruct (Hlev j im Him) as (a' & t' & s & Ha' & Ht' & _ & Hw & _). congruence.
    - exists r0. split; [exact Er0|]. exists s0, im0. auto.
    - intros j im im' a t r r' f f' Him Him' Ha Ht Hr Hr' Hf Hf'.
      assert (Hj : S j < n) by (rewrite <- Lrs; apply nth_error_Some; congruence).
      destruct (Hlv j ltac:(lia)) as (lv & El). destruct (Hlv (S j) Hj) as (nx & En).
      destruct (zip_levels_nth _ _ _ _ _ _ _ _ _ El) as (Zf & Zs & Zim & Za & Zt & _).
      destruct (zip_levels_nth _ _ _ _ _ _ _ _ _ En) as (Zf' & Zs' & Zim' & Za' & Zt' & _).
      destruct (Hnext j lv nx r r' El En Hr Hr') as (s' & Hns & Hal).
      destruct (f_algorithm _ _ _ _ _ _ _ HF _ _ _ _ _ _ _ Hal) as (Hi & _).
      exists s'. split; [exact Hi|].
      rewrite Hf in Zf. injection Zf as Zf. rewrite Hf' in Zf'. injection Zf' as Zf'.
      rewrite Ha in Za. injection Za as Za. rewrite Ht in Zt. injection Zt as Zt.
      rewrite <- Zf, <- Zf', <- Za, <- Zt in Hns.
      destruct (Hlev j im Him) as (a1 & t1 & s1 & Ha1 & Ht1 & _ & Hw & _).
      destruct (Hlev (S j) im' Him') as (a2 & t2 & s2 & Ha2 & Ht2 & _ & Hw' & Hda & Hdt & _).
      rewrite Ha2 in Za'. injection Za' as Za'. rewrite Ht2 in Zt'. injection Zt' as Zt'. rewrite <- Za', <- Zt' in Hns.
      rewrite Ha in Ha1. injection Ha1 as <-. rewrite Ht in Ht1. injection Ht1 as <-.
      rewrite <- Hw, <- Hw', !Affine.apply_compose. split.
      + intros <-. destruct (Hadj j f _ _ _ _ _ _ Hf Hf' Zs Zs' Ha Ha2 Ht Ht2) as [<- Hst].
        exact (next_same_features _ _ _ _ _ _ _ f Hdt Hst Hns).
      + intros Hne. exact (next_other_features _ _ _ _ _ _ _ _ _ _ Hne Hns).
    - exists inits, gts. split; [reflexivity|]. intros j im Him.
      destruct (Hlev j im Him) as (a & t & s & _ & _ & Hs & Hw & Hda & Hdt & Hi & _). exists s.
      split; [exact Hs|]. split; [exact Hi|]. rewrite <- Hw, Affine.det_compose. intros H0.
      apply Qcmult_integral in H0. tauto.
  Qed.
End F.

Lemma builds_on_all {P A C} :
  builds_on (@multi_nonparametric shape P A C) /\ builds_on (@multi_parametric shape P A C) /\
  builds_on (@aam_result shape P A C) /\ builds_on (@lucas_kanade_result shape P A C).
Proof.
  split; [|split; [|split]]; intros rs n affs scs gt m H.
  - exists m. auto.
  - unfold multi_parametric in H. bs H as m0. injection H as <-. exists m0. cbn. auto.
  - unfold aam_result, multi_parametric in H. bs H as m1. bs H as ap. bs E as m0. injection E as <-. injection H as <-. exists m0. cbn. auto.
  - unfold lucas_kanade_result, multi_parametric in H. bs H as m1. bs E as m0. injection E as <-. injection H as <-. exists m0. cbn. auto.
Qed.
