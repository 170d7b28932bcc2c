(** C91: a Lucas-Kanade fitter stays on its own template. *)
From Coq Require Import String List ZArith QArith Qcanon Bool Arith Lia.
From Verif.Model Require Import Py Dict Affine Result Fitter RunLoop LkTemplate.
From Verif.Spec Require Import Fitter TrainImages LkTemplate.
From Verif.Proofs Require Affine Dict Fitter FitterDemo TrainImages LkTemplate.
Import ListNotations.
Local Open Scope nat_scope.

Section Props.
  Context {Px P A C T V : Type}.
  Variable to_pointcloud : Px -> shape -> shape -> res (Px * (shape -> shape)).
  Variable features_of : nat -> Px -> res (Px * (shape -> shape)).
  Variable resized : Px -> Qc -> res (Px * (shape -> shape) * aff).
  Variable diagonal_of : Px -> shape -> Qc -> res (Px * (shape -> shape)).
  Variable rescale_to_pointcloud : image Px -> shape -> string -> res (image Px).
  Variable feature : nat -> image Px -> res (image Px).
  Variable rescale : image Px -> Qc -> res (image Px * aff).
  Variable alignment_affine : shape -> shape -> res aff.
  Variable to_diagonal : image Px -> Qc -> string -> res (image Px).
  Variable new_transform : shape -> shape -> res T.
  Variable set_target : T -> shape -> res T.
  Variable target : T -> shape.
  Variable as_vector : T -> P.
  Variable warp : image Px -> Px -> T -> res Px.
  Variable increment : Px -> image Px -> T -> Px -> res V.
  Variable cost : Px -> image Px -> T -> C.
  Variable update : T -> V -> res T.
  Variable exceeds : V -> bool.
  Variable none : V.
  Hypothesis rides : ride_along to_pointcloud features_of resized rescale_to_pointcloud feature rescale.
  Hypothesis exact : exact_resizing to_pointcloud diagonal_of to_diagonal.

  Notation init_ := (lk_init rescale_to_pointcloud feature rescale alignment_affine to_diagonal new_transform).
  Notation algorithms := (lk_algorithms (A := A) set_target target as_vector warp increment cost update exceeds).
  Notation fit_ := (lk_fit (A := A) rescale_to_pointcloud feature rescale alignment_affine set_target target as_vector warp
                           increment cost update exceeds).

  (** What the fitter prepares from its template image, when that is fitted from its own landmarks, are the templates and
      their shapes: at every scale, whatever the features, with and without a diagonal. *)
  Theorem c91_templates : forall template group fs diagonal ss L s0 gt d images inits gts affs scs d',
    init_ template group fs diagonal ss = Ok L -> dict_get group (lms template) = Some s0 ->
    prepare_image rescale_to_pointcloud feature rescale alignment_affine (lk_base L) (px template) s0 gt d =
      (Ok (images, inits, gts, affs, scs), d') ->
    map px images = map px (lk_templates L) /\ inits = lk_sources L.
  Proof.
    intros template group fs diagonal ss L s0 gt d images inits gts affs scs d' HL Hs0 H.
    rewrite Proofs.Fitter.prepare_image_spec in H.
    destruct (Proofs.Fitter.computed _ _ _ _ _ _ _ _ _) as [x|] eqn:Hc; [|discriminate]. injection H as -> _.
    destruct (Proofs.LkTemplate.template_alike _ _ _ _ _ _ _ _ _ _ rides exact _ _ _ _ _ _ _ _ _ _ _ _ _ _ HL Hs0 Hc) as [Hlen Hall].
    assert (Hi : length inits = length images).
    { unfold Proofs.Fitter.computed in Hc. destruct (rescale_to_pointcloud _ _ _); cbn [bind] in Hc; [|discriminate].
      destruct (prepare_scales _ _ _ _ _ _ _ _); cbn [bind] in Hc; [|discriminate].
      destruct (mapM _ _) as [l0|] eqn:E; cbn [bind] in Hc; [|discriminate].
      match type of Hc with bind ?X _ = _ => destruct X end; cbn [bind] in Hc; [|discriminate]. injection Hc as <- <- _ _ _.
      apply Proofs.Fitter.mapM_nth in E. tauto. }
    assert (Hl : length (lk_sources L) = length images).
    { rewrite <- Hlen. unfold lk_init in HL. destruct (match diagonal with Some _ => _ | None => _ end) as [t1|]; cbn [bind] in HL; [|discriminate].
      destruct (dict_at group (lms t1)) as [ref|]; cbn [bind] in HL; [|discriminate].
      rewrite Proofs.Fitter.prepare_image_spec in HL. cbn [fst] in HL.
      match type of HL with context [Proofs.Fitter.computed ?a ?b ?c ?d ?e ?f ?g ?h ?i] => destruct (Proofs.Fitter.computed a b c d e f g h i) as [[[[[tpls tin] tgts] taffs] tscs]|] eqn:Et end; cbn [bind fst] in HL; [|discriminate].
      destruct tgts as [sources|]; [|discriminate]. destruct (mapM _ sources); cbn [bind] in HL; [|discriminate]. injection HL as <-. cbn [lk_sources lk_templates].
      unfold Proofs.Fitter.computed in Et. destruct (rescale_to_pointcloud _ _ _); cbn [bind] in Et; [|discriminate].
      destruct (prepare_scales _ _ _ _ _ _ _ _) as [tl0|]; cbn [bind] in Et; [|discriminate].
      destruct (mapM (fun i => dict_at initial_group _) _) as [l0|]; cbn [bind] in Et; [|discriminate].
      destruct (mapM (fun i => dict_at gt_group _) _) as [l1|] eqn:E; cbn [bind] in Et; [|discriminate]. injection Et as <- <- <- _ _.
      apply Proofs.Fitter.mapM_nth in E. tauto. }
    split.
    - clear - Hlen Hall. revert Hlen Hall. generalize (lk_templates L) as ts, (lk_sources L) as srcs, (lk_transforms L) as trs. revert inits.
      induction images as [|im images IH]; intros inits ts srcs trs Hlen Hall; [destruct ts; [reflexivity|discriminate]|].
      destruct ts as [|t ts]; [discriminate|]. cbn [map]. f_equal.
      + destruct (Hall 0 im eq_refl) as (t' & tr & s & Ht & _ & _ & Hp & _). injection Ht as <-. symmetry. exact Hp.
      + apply (IH (tl inits) ts (tl srcs) (tl trs)); [cbn in Hlen; lia|]. intros j im' Hj. destruct (Hall (S j) im' Hj) as (t' & tr & s & H1 & H2 & H3 & H4 & H5 & H6).
        exists t', tr, s. split; [exact H1|]. split; [destruct srcs; [discriminate|exact H2]|]. split; [destruct trs; [discriminate|exact H3]|].
        split; [exact H4|]. split; [destruct inits; [discriminate|exact H5]|exact H6].
    - apply Proofs.LkTemplate.nth_error_ext. intros j. destruct (nth_error images j) as [im|] eqn:Ej.
      + destruct (Hall j im Ej) as (t & tr & s & _ & H2 & _ & _ & H5 & _). congruence.
      + apply nth_error_None in Ej. rewrite (proj2 (nth_error_None inits j)) by lia. rewrite (proj2 (nth_error_None (lk_sources L) j)) by lia. reflexivity.
  Qed.

  Hypothesis rest : at_rest new_transform set_target target warp increment update none.

  (** One kind of features: a fit of the template from its own landmarks reports them throughout, whatever the scales, the
      diagonal, the number of iterations and the other arguments. *)
  Theorem c91_template_stays : forall world template group fs f0 diagonal ss L s0 max_iters gt rc d m d',
    init_ template group fs diagonal ss = Ok L -> dict_get group (lms template) = Some s0 -> spans s0 ->
    (forall f, In f fs -> f = f0) ->
    faithful rescale_to_pointcloud feature rescale alignment_affine (algorithms L) world (px template) ->
    fit_ L (px template) s0 max_iters gt rc d = (Ok m, d') ->
    r_final (m_res m) = s0 /\ forall x, In x (r_shapes (m_res m)) -> x = s0.
  Proof.
    intros world template group fs f0 diagonal ss L s0 max_iters gt rc d m d' HL Hs0 Hspan Hfs HF H.
    assert (HfsL : holistic_features (lk_base L) = fs).
    { unfold lk_init in HL. destruct (match diagonal with Some _ => _ | None => _ end) as [t1|]; cbn [bind] in HL; [|discriminate].
      destruct (dict_at group (lms t1)) as [ref|]; cbn [bind] in HL; [|discriminate].
      destruct (fst _) as [[[[[a b] [srcs|]] e] g]|]; cbn [bind] in HL; try discriminate. destruct (mapM _ srcs); cbn [bind] in HL; [|discriminate].
      injection HL as <-. reflexivity. }
    assert (Hcond : Proofs.Fitter.feature_condition (lk_base L)).
    { unfold Proofs.Fitter.feature_condition. rewrite HfsL. destruct fs as [|f fs]; [exact I|].
      rewrite (Hfs f (or_introl eq_refl)). assert (Hr : forall g, In g fs -> g = f0) by (intros g Hg; apply Hfs; right; exact Hg).
      clear - Hr. induction fs as [|g fs IH]; [exact I|]. cbn. rewrite (Hr g (or_introl eq_refl)), Nat.eqb_refl. apply IH. intros h Hh. apply Hr. right. exact Hh. }
    destruct (Proofs.Fitter.fit_from_shape_world _ _ _ _ _ world (px template) HF lucas_kanade_result (lk_base L) s0 max_iters gt rc d m d'
                (proj2 (proj2 (proj2 (@Proofs.Fitter.builds_on_all P A C)))) Hspan Hcond H)
      as (images & affs & scs & rs & Hrep & La & Ls & Hw & (r0 & Hr0 & s00 & im0 & Hi0 & Him0 & Hw0) & Hnext & (inits & gts & Hc & Hin)).
    destruct (Proofs.LkTemplate.template_alike _ _ _ _ _ _ _ _ _ _ rides exact _ _ _ _ _ _ _ _ _ _ _ _ _ _ HL Hs0 Hc) as [Hlen Hall].
    destruct Hrep as [Rim Rrs Rran Rinit Rshapes Rfinal Rgt].
    (* a run that starts where the image was prepared to start stays there *)
    assert (Hstay : forall j im r s, nth_error images j = Some im -> nth_error rs j = Some r -> r_initial r = Some s ->
      apply (world im) s = s0 -> r_final r = s /\ forall x, In x (r_shapes r) -> x = s).
    { intros j im r s Him Hr Hs Hws. destruct (Rran j im r Him Hr) as (s' & g & k & Ha & _).
      destruct (Hall j im Him) as (t & tr & s1 & Ht & _ & Htr & Hp & Hs1 & Hn).
      destruct (Hin j im Him) as (s2 & Hs2 & Hw2 & Hd). rewrite Hs1 in Hs2. injection Hs2 as <-.
      unfold lk_algorithms in Ha. rewrite Ht, Htr, Hp in Ha.
      destruct (Proofs.LkTemplate.lk_reports _ _ _ _ _ _ _ _ _ _ _ _ _ _ _ _ Ha) as [Hi _].
      rewrite Hs in Hi. injection Hi as <-.
      assert (s = s1) as -> by (apply (Proofs.LkTemplate.apply_inj (world im)); [exact Hd|congruence]).
      eapply Proofs.LkTemplate.stay_run; eauto. }
    assert (Hlv : forall j im r, nth_error images j = Some im -> nth_error rs j = Some r ->
      exists s, r_initial r = Some s /\ apply (world im) s = s0).
    { induction j as [|j IH]; intros im r Him Hr.
      - exists s00. rewrite Hr0 in Hr. injection Hr as <-. rewrite Him0 in Him. injection Him as <-. auto.
      - assert (Hj : S j < length images) by (apply nth_error_Some; congruence).
        destruct (nth_error images j) as [im1|] eqn:E1; [|apply nth_error_None in E1; lia].
        destruct (nth_error rs j) as [r1|] eqn:E2; [|apply nth_error_None in E2; lia].
        destruct (nth_error affs j) as [a|] eqn:E3; [|apply nth_error_None in E3; lia].
        destruct (nth_error scs j) as [t|] eqn:E4; [|apply nth_error_None in E4; lia].
        assert (Lf : length fs = length images).
        { clear - Hc HfsL. unfold Proofs.Fitter.computed in Hc. destruct (rescale_to_pointcloud _ _ _); cbn [bind] in Hc; [|discriminate].
          destruct (prepare_scales _ _ _ _ _ _ _ _) as [l|] eqn:El; cbn [bind] in Hc; [|discriminate].
          destruct (mapM _ _) as [l0|]; cbn [bind] in Hc; [|discriminate].
          match type of Hc with bind ?X _ = _ => destruct X end; cbn [bind] in Hc; [|discriminate]. injection Hc as <- _ _ _ _.
          rewrite map_length, <- HfsL. symmetry. clear - El. revert El. generalize (@None (nat * image Px * aff)).
          generalize (scales (lk_base L)) as ss0. revert l. induction (holistic_features (lk_base L)) as [|f fs IH]; intros l [|q ss0] o El; cbn [prepare_scales] in El; try discriminate.
          - injection El as <-. reflexivity.
          - match type of El with bind ?X _ = _ => destruct X as [[[y1 y2] y3]|] end; cbn [bind] in El; [|discriminate].
            match type of El with bind ?X _ = _ => destruct X as [[y4 y5]|] end; cbn [bind] in El; [|discriminate].
            destruct (prepare_scales _ _ _ fs ss0 _ _ _) as [l2|] eqn:E2; cbn [bind] in El; [|discriminate]. injection El as <-. cbn. f_equal. eapply IH. exact E2. }
        destruct (nth_error fs j) as [g|] eqn:E5; [|apply nth_error_None in E5; lia].
        destruct (nth_error fs (S j)) as [g'|] eqn:E6; [|apply nth_error_None in E6; lia].
        rewrite <- HfsL in E5, E6.
        destruct (Hnext j im1 im a t r1 r g g' E1 Him E3 E4 E2 Hr E5 E6) as (s' & Hs' & Hsame & _).
        exists s'. split; [exact Hs'|]. rewrite HfsL in E5, E6. rewrite Hsame.
        + destruct (IH im1 r1 eq_refl eq_refl) as (s & Hs & Hws). destruct (Hstay j im1 r1 s E1 E2 Hs Hws) as [-> _]. exact Hws.
        + rewrite (Hfs g), (Hfs g'); [reflexivity| |]; eapply nth_error_In; eauto. }
    split.
    - assert (Hn : 0 < length images) by (apply nth_error_Some; congruence).
      destruct (nth_error images (length (scales (lk_base L)) - 1)) as [im|] eqn:E1; [|apply nth_error_None in E1; lia].
      destruct (nth_error rs (length (scales (lk_base L)) - 1)) as [r|] eqn:E2; [|apply nth_error_None in E2; lia].
      rewrite (Rfinal im r eq_refl eq_refl). destruct (Hlv _ _ _ E1 E2) as (s & Hs & Hws). destruct (Hstay _ _ _ _ E1 E2 Hs Hws) as [-> _]. exact Hws.
    - intros x. rewrite Rshapes. intros [<-|Hx]; [reflexivity|]. apply in_concat in Hx. destruct Hx as (l & Hl & Hx).
      apply in_map_iff in Hl. destruct Hl as ((im & r) & <- & Hir). cbn [fst snd] in Hx. apply in_map_iff in Hx. destruct Hx as (y & <- & Hy).
      apply In_nth_error in Hir. destruct Hir as (j & Hj).
      assert (E1 : nth_error images j = Some im /\ nth_error rs j = Some r).
      { clear - Hj. revert rs j Hj. induction images as [|a l IH]; intros [|b rs] [|j] Hj; cbn in *; try discriminate; [injection Hj as <- <-; auto|apply IH; exact Hj]. }
      destruct E1 as [E1 E2]. destruct (Hlv _ _ _ E1 E2) as (s & Hs & Hws). destruct (Hstay _ _ _ _ E1 E2 Hs Hws) as [_ Hsh].
      rewrite (Hsh y); [exact Hws|]. destruct (r_shapes r); [destruct Hy|right; exact Hy].
  Qed.
End Props.

(** *** A concrete world.  An image is the affine map of its coordinates to those of the template as it was given; resizing
    compares the distance of the first two points along the first axis; feature [f] cuts off a border of [f] pixels; a
    transform is its target; the increment is a step to the right unless the images agree. *)
Import Proofs.FitterDemo.
Definition w_world (im : image aff) : aff := if Qc_eq_bool (det (px im)) 0 then id_aff else px im.
Definition w_size (s : shape) : Qc := match s with p :: q :: _ => (fst q - fst p)%Qc | _ => 0%Qc end.
Definition w_scaled (k : Qc) (p : aff) : res (aff * (shape -> shape)) :=
  if Qc_eq_bool k 0 then Err (UserExn 4)
  else if Qc_eq_bool k 1 then Ok (p, fun s => s) else Ok (compose_after p (scale_aff (/ k)), apply (scale_aff k)).
Definition w_ratio (a b : Qc) : Qc := if Qc_eq_bool b 0 then 1%Qc else (a / b)%Qc.
Definition w_to_pointcloud (p : aff) (s r : shape) := w_scaled (w_ratio (w_size r) (w_size s)) p.
Definition w_diagonal_of (p : aff) (s : shape) (q : Qc) := w_scaled (w_ratio q (w_size s)) p.
Definition w_features_of (f : nat) (p : aff) : res (aff * (shape -> shape)) :=
  match f with
  | 0 => Ok (p, fun s => s)
  | _ => if Qc_eq_bool (det p) 0 then Err (UserExn 1)
         else let t := translation (Q2Qc (inject_Z (Z.of_nat f)), 0%Qc) in Ok (compose_after p t, apply (inverse t))
  end.
Definition w_resized (p : aff) (k : Qc) : res (aff * (shape -> shape) * aff) :=
  if Qc_eq_bool k 0 then Err (UserExn 2) else if Qc_eq_bool (det p) 0 then Err (UserExn 1)
  else let t := scale_aff (/ k) in Ok (compose_after p t, apply (inverse t), t).
Definition w_rtp (im : image aff) (ref : shape) (g : string) : res (image aff) :=
  let? s := dict_at g (lms im) in
  let? (p, t) := w_to_pointcloud (px im) s ref in Ok (mkImage p (moved t (lms im))).
Definition w_feature (f : nat) (im : image aff) : res (image aff) :=
  let? (p, t) := w_features_of f (px im) in Ok (mkImage p (moved t (lms im))).
Definition w_rescale (im : image aff) (s : Qc) : res (image aff * aff) :=
  let? (p, t, a) := w_resized (px im) s in Ok (mkImage p (moved t (lms im)), a).
Definition w_to_diagonal (im : image aff) (q : Qc) (g : string) : res (image aff) :=
  let? s := dict_at g (lms im) in
  let? (p, t) := w_diagonal_of (px im) s q in Ok (mkImage p (moved t (lms im))).
Definition aff_eqb (a b : aff) : bool :=
  Qc_eq_bool (fa a) (fa b) && Qc_eq_bool (fb a) (fb b) && Qc_eq_bool (fc a) (fc b) && Qc_eq_bool (fd a) (fd b) &&
  Qc_eq_bool (ftx a) (ftx b) && Qc_eq_bool (fty a) (fty b).
Definition w_new (s t : shape) : res shape := Ok t.
Definition w_set (_ s : shape) : res shape := Ok s.
Definition w_warp (im : image aff) (tpl : aff) (t : shape) : res aff := Ok (px im).
Definition w_increment (tpl : aff) (im : image aff) (t : shape) (w : aff) : res Qc := Ok (if aff_eqb tpl w then 0%Qc else 1%Qc).
Definition w_update (t : shape) (dp : Qc) : res shape := Ok (apply (translation (dp, 0%Qc)) t).
Definition w_exceeds (dp : Qc) : bool := negb (Qc_eq_bool dp 0).

Lemma w_rides : ride_along w_to_pointcloud w_features_of w_resized w_rtp w_feature w_rescale.
Proof. repeat split. Qed.

Lemma w_scaled_size k s : w_size (apply (scale_aff k) s) = (k * w_size s)%Qc.
Proof. destruct s as [|[x y] [|[x' y'] s]]; cbn; ring. Qed.

Lemma w_exact : exact_resizing w_to_pointcloud w_diagonal_of w_to_diagonal.
Proof.
  split; [|split; [|reflexivity]].
  - intros p s. unfold w_to_pointcloud, w_ratio. destruct (Qc_eq_bool (w_size s) 0) eqn:E; [reflexivity|].
    apply Affine.Qceqb_false in E. replace (w_size s / w_size s)%Qc with 1%Qc by (field; exact E). reflexivity.
  - intros p s q p' t. unfold w_diagonal_of, w_to_pointcloud. set (k := w_ratio q (w_size s)). intros H.
    assert (Ht : t s = s /\ k = 1%Qc \/ t s = apply (scale_aff k) s).
    { unfold w_scaled in H. destruct (Qc_eq_bool k 0); [discriminate|]. destruct (Qc_eq_bool k 1) eqn:E; injection H as <- <-; [left|right; reflexivity].
      split; [reflexivity|]. apply Affine.Qceqb_true. exact E. }
    assert (Hk : w_ratio (w_size (t s)) (w_size s) = k); [|rewrite Hk; exact H].
    unfold w_ratio. destruct (Qc_eq_bool (w_size s) 0) eqn:E.
    + unfold k, w_ratio. rewrite E. reflexivity.
    + apply Affine.Qceqb_false in E. destruct Ht as [[-> ->] | ->]; [|rewrite w_scaled_size]; field; exact E.
Qed.

Lemma apply_translation_0 s : apply (translation (0%Qc, 0%Qc)) s = s.
Proof. change (translation (0%Qc, 0%Qc)) with id_aff. apply Affine.apply_id. Qed.

Lemma w_rest : at_rest w_new w_set (fun t => t) w_warp w_increment w_update 0%Qc.
Proof.
  split; [|split].
  - intros s tr t0 _ [= <-]. split; [reflexivity|]. intros im w [= <-]. reflexivity.
  - intros im t dp [= <-]. unfold aff_eqb. rewrite !Proofs.TrainImages.Qc_eq_bool_refl. reflexivity.
  - intros t t' [= <-]. apply apply_translation_0.
Qed.

Notation w_algorithms := (lk_algorithms (A := nat) w_set (fun t => t) (fun t => t) w_warp w_increment (fun _ _ _ => 0) w_update w_exceeds).
Notation w_init := (lk_init w_rtp w_feature w_rescale demo_align w_to_diagonal w_new).
Notation w_fit := (lk_fit (A := nat) w_rtp w_feature w_rescale demo_align w_set (fun t => t) (fun t => t) w_warp w_increment
                          (fun _ _ _ => 0) w_update w_exceeds).

Lemma det_scale k : k <> 0%Qc -> det (scale_aff k) <> 0%Qc.
Proof.
  intros Hk H. unfold det, scale_aff in H. cbn in H. assert (H2 : (k * k = 0)%Qc) by (rewrite <- H; ring).
  apply Qcmult_integral in H2. tauto.
Qed.
Lemma inv_ne k : k <> 0%Qc -> (/ k)%Qc <> 0%Qc.
Proof. intros Hk H. assert (H1 : (k * / k = 1)%Qc) by (field; exact Hk). rewrite H, Qcmult_0_r in H1. apply (f_equal this) in H1. discriminate. Qed.

Lemma w_carries t im : det (px im) <> 0%Qc -> det t <> 0%Qc ->
  det (w_world (resample t im)) <> 0%Qc /\ w_world (resample t im) = compose_after (px im) t /\ w_world im = px im /\ carries w_world im (resample t im).
Proof.
  intros Hp Ht. assert (Hd : det (compose_after (px im) t) <> 0%Qc).
  { rewrite Affine.det_compose. intros H. apply Qcmult_integral in H. tauto. }
  assert (E1 : w_world (resample t im) = compose_after (px im) t).
  { unfold w_world. cbn [resample px]. rewrite (proj2 (Affine.Qceqb_false _ _) Hd). reflexivity. }
  assert (E2 : w_world im = px im) by (unfold w_world; rewrite (proj2 (Affine.Qceqb_false _ _) Hp); reflexivity).
  split; [rewrite E1; exact Hd|]. split; [exact E1|]. split; [exact E2|].
  intros g s Hs. exists (apply (inverse t) s). split; [apply get_move; exact Hs|].
  rewrite E1, E2, Affine.apply_compose, Affine.apply_inverse_r by exact Ht. reflexivity.
Qed.

Lemma w_faithful L : faithful w_rtp w_feature w_rescale demo_align (w_algorithms L) w_world id_aff.
Proof.
  constructor.
  - intros d ref g im' H. unfold w_rtp in H. cbn [px lms] in H. destruct (dict_at g d) as [s|]; cbn [bind] in H; [|discriminate].
    unfold w_to_pointcloud in H. set (k := w_ratio _ _) in H. unfold w_scaled in H.
    destruct (Qc_eq_bool k 0) eqn:E0; cbn [bind] in H; [discriminate|]. apply Affine.Qceqb_false in E0.
    destruct (Qc_eq_bool k 1); cbn [bind] in H; injection H as <-.
    + split; [discriminate|]. intros g' s' Hs'. exists s'. split; [cbn; rewrite Proofs.TrainImages.dict_get_moved, Hs'; reflexivity|]. apply Affine.apply_id.
    + assert (Hd : det (compose_after id_aff (scale_aff (/ k))) <> 0%Qc).
      { rewrite Affine.det_compose. intros H. apply Qcmult_integral in H. destruct H as [H|H]; [exact (Affine.det_id H)|]. revert H. apply det_scale, inv_ne. exact E0. }
      unfold w_world. cbn [px lms]. rewrite (proj2 (Affine.Qceqb_false _ _) Hd). split; [exact Hd|].
      intros g' s' Hs'. exists (apply (scale_aff k) s'). split; [rewrite Proofs.TrainImages.dict_get_moved, Hs'; reflexivity|].
      rewrite Affine.apply_compose, Affine.apply_id. rewrite <- (Affine.apply_compose (scale_aff (/ k)) (scale_aff k)).
      replace (compose_after (scale_aff (/ k)) (scale_aff k)) with id_aff; [apply Affine.apply_id|]. apply Affine.aff_ext; cbn; field; exact E0.
  - intros f im im' H. unfold w_feature, w_features_of in H. destruct f as [|f].
    + cbn [bind] in H. injection H as <-. split.
      * unfold w_world. cbn [px]. destruct (Qc_eq_bool (det (px im)) 0) eqn:E; [discriminate|]. apply Affine.Qceqb_false. exact E.
      * intros g s Hs. exists s. split; [cbn; rewrite Proofs.TrainImages.dict_get_moved, Hs; reflexivity|reflexivity].
    + destruct (Qc_eq_bool (det (px im)) 0) eqn:E; cbn [bind] in H; [discriminate|]. apply Affine.Qceqb_false in E. injection H as <-.
      set (t := translation _). destruct (w_carries t im E) as (H1 & _ & _ & H4); [|split; [exact H1|exact H4]].
      assert (Ht : det t = 1%Qc) by (unfold det, t; cbn; ring). rewrite Ht. discriminate.
  - intros im q im' t H. unfold w_rescale, w_resized in H. destruct (Qc_eq_bool q 0) eqn:E0; cbn [bind] in H; [discriminate|]. apply Affine.Qceqb_false in E0.
    destruct (Qc_eq_bool (det (px im)) 0) eqn:E; cbn [bind] in H; [discriminate|]. apply Affine.Qceqb_false in E. injection H as <- <-.
    assert (Ht : det (scale_aff (/ q)) <> 0%Qc) by (apply det_scale, inv_ne; exact E0).
    destruct (w_carries _ im E Ht) as (_ & H2 & H3 & H4). split; [exact Ht|]. split; [rewrite H3; exact H2|exact H4].
  - exact demo_align_exact.
  - intros i im s g k rc r H. unfold lk_algorithms in H. destruct (nth_error _ _); [|discriminate]. destruct (nth_error _ _); [|discriminate].
    eapply Proofs.LkTemplate.lk_reports. exact H.
Qed.

Definition wz (z : Z) : Qc := Q2Qc (inject_Z z).
Definition w_triangle : shape := [(wz 0, wz 0); (wz 8, wz 0); (wz 0, wz 8)].
Definition w_template : image aff := mkImage id_aff [("PTS"%string, w_triangle)].
Definition w_half : Qc := Q2Qc (1 # 2).

Lemma w_spans : spans w_triangle.
Proof.
  exists (wz 0, wz 0), (wz 8, wz 0), (wz 0, wz 8). repeat split; [left|right; left|right; right; left|]; try reflexivity. discriminate.
Qed.

(** A fitter with a diagonal, two scales and features that cut a border: ten iterations on the template. *)
Example c91_ex :
  spans w_triangle /\
  match w_init w_template "PTS" [3; 3] (Some (wz 4)) [w_half; 1%Qc] with
  | Ok L => match w_fit L id_aff w_triangle (PInt 10) None true [] with
            | (Ok m, d) => r_final (m_res m) = w_triangle /\ length (r_shapes (m_res m)) = 5 /\ d = []
            | _ => False
            end
  | Err _ => False
  end.
Proof.
  split.
  - exact w_spans.
  - vm_compute. repeat split; repeat f_equal; apply Qc_is_canon; reflexivity.
Qed.

(** With features that change between the scales the fit leaves the template, even without a single iteration. *)
Theorem c91_feature_change_refuted : exists L m d',
  w_init w_template "PTS" [3; 0] None [w_half; 1%Qc] = Ok L /\
  faithful w_rtp w_feature w_rescale demo_align (w_algorithms L) w_world id_aff /\
  w_fit L id_aff w_triangle (PInt 0) None false [] = (Ok m, d') /\ r_final (m_res m) <> w_triangle.
Proof.
  eexists _, _, _. split; [vm_compute; reflexivity|]. split; [apply w_faithful|]. split; [vm_compute; reflexivity|].
  intros E. apply (f_equal (fun s => match s with p :: _ => Qnum (this (fst p)) | [] => 0%Z end)) in E.
  vm_compute in E. discriminate.
Qed.

Print Assumptions c91_templates.
Print Assumptions c91_template_stays.
Print Assumptions c91_feature_change_refuted.
