(** C92: a training image fitted from its annotation stays there, at all scales, if the algorithms stay where they were
    trained (Props/Stays.v). *)
From Coq Require Import String List ZArith QArith Qcanon Bool Arith Lia.
From Verif.Model Require Import Py Dict Affine Result Fitter TrainImages LkTemplate.
From Verif.Spec Require Import Result Fitter TrainImages.
From Verif.Proofs Require Affine Dict Fitter FitterDemo TrainImages LkTemplate.
From Verif.Props Require TrainImages LkTemplate.
Import ListNotations.
Local Open Scope nat_scope.

Section Props.
  Context {Px P A C : Type}.
  Variable to_pointcloud : Px -> shape -> shape -> res (Px * (shape -> shape)).
  Variable features_of : nat -> Px -> res (Px * (shape -> shape)).
  Variable resized : Px -> Qc -> res (Px * (shape -> shape) * aff).
  Variable rescale_to_pointcloud : image Px -> shape -> string -> res (image Px).
  Variable feature : nat -> image Px -> res (image Px).
  Variable rescale : image Px -> Qc -> res (image Px * aff).
  Variable alignment_affine : shape -> shape -> res aff.
  Variable algorithm : nat -> image Px -> shape -> option shape -> Z -> bool -> res (iresult shape P A C).
  Variable build : list (iresult shape P A C) -> nat -> list (shape -> shape) -> list (shape -> shape) -> option shape ->
    res (mresult shape P A C).
  Variable world : image Px -> aff.
  Hypothesis rides : ride_along to_pointcloud features_of resized rescale_to_pointcloud feature rescale.

  (** The algorithm of each scale stays at the annotation of the training image number [k] as that scale saw it in training. *)
  Definition stays_where_trained (group : string) (k : nat) (tr : list (list (image Px))) : Prop :=
    forall j ims ti s im g q rc r, nth_error tr j = Some ims -> nth_error ims k = Some ti -> dict_get group (lms ti) = Some s ->
      px im = px ti -> algorithm j im s g q rc = Ok r -> r_final r = s /\ forall x, In x (r_shapes r) -> x = s.

  Theorem c92_training_images_stay : forall v fs ss reference group images im k tr s0 f0 max_iters gt rc d m d',
    objects fs -> clear_scales ss -> (forall f, In f fs -> fn_eq f = f0) -> builds_on build ->
    training_images rescale_to_pointcloud feature rescale v (fun i => Ok i) fs ss reference group images = Ok tr ->
    nth_error images k = Some im -> dict_get group (lms im) = Some s0 -> spans s0 ->
    faithful rescale_to_pointcloud feature rescale alignment_affine algorithm world (px im) ->
    stays_where_trained group k tr ->
    fit_from_shape rescale_to_pointcloud feature rescale alignment_affine algorithm build
      (mkFitter reference (map fn_eq fs) ss) (px im) s0 max_iters gt rc d = (Ok m, d') ->
    r_final (m_res m) = s0 /\ forall x, In x (r_shapes (m_res m)) -> x = s0.
  Proof.
    intros v fs ss reference group images0 im0' k tr s0 f0 max_iters gt rc d m d' Hobj Hcl Hfs Hb Htr Him0' Hs0 Hspan HF Hst H.
    set (F := mkFitter reference (map fn_eq fs) ss) in *.
    assert (Hcond : Proofs.Fitter.feature_condition F).
    { unfold Proofs.Fitter.feature_condition, F. cbn [holistic_features]. destruct fs as [|f fs']; [exact I|]. cbn [map].
      rewrite (Hfs f (or_introl eq_refl)). assert (Hr : forall g, In g fs' -> fn_eq g = f0) by (intros g Hg; apply Hfs; right; exact Hg).
      clear - Hr. induction fs' as [|g fs' IH]; [exact I|]. cbn. rewrite (Hr g (or_introl eq_refl)), Nat.eqb_refl. apply IH. intros h Hh. apply Hr. right. exact Hh. }
    destruct (Proofs.Fitter.fit_from_shape_world _ _ _ _ _ world (px im0') HF build F s0 max_iters gt rc d m d' Hb Hspan Hcond H)
      as (images & affs & scs & rs & Hrep & La & Ls & Hw & (r0 & Hr0 & s00 & im0 & Hi0 & Him0 & Hw0) & Hnext & (inits & gts & Hc & Hin)).
    assert (Hprep : prepare_image rescale_to_pointcloud feature rescale alignment_affine F (px im0') s0 gt d =
                    (Ok (images, inits, gts, affs, scs), snd (prepare_image rescale_to_pointcloud feature rescale alignment_affine F (px im0') s0 gt d))).
    { rewrite Proofs.Fitter.prepare_image_spec, Hc. reflexivity. }
    destruct (Props.TrainImages.c88_fitted_as_trained _ _ _ _ _ _ alignment_affine rides v fs ss reference group images0 im0' k tr Hobj Hcl Him0' Htr
                s0 gt d _ _ _ _ _ _ Hs0 Hprep) as [Hlen Hall].
    destruct Hrep as [Rim Rrs Rran Rinit Rshapes Rfinal Rgt].
    assert (Hstay : forall j im r s, nth_error images j = Some im -> nth_error rs j = Some r -> r_initial r = Some s ->
      apply (world im) s = s0 -> r_final r = s /\ forall x, In x (r_shapes r) -> x = s).
    { intros j im r s Him Hr Hs Hws. destruct (Rran j im r Him Hr) as (s' & g & q & Ha & _).
      destruct (nth_error tr j) as [ims|] eqn:Et; [|apply nth_error_None in Et; assert (j < length images) by (apply nth_error_Some; congruence); lia].
      destruct (Hall j ims im Et Him) as (ti & Hti & Hp & Hd). destruct (Hin j im Him) as (s2 & Hs2 & Hw2 & Hdet).
      rewrite Hs2 in Hd. destruct (f_algorithm _ _ _ _ _ _ _ HF _ _ _ _ _ _ _ Ha) as [Hi _]. rewrite Hs in Hi. injection Hi as <-.
      assert (s = s2) as -> by (apply (Proofs.LkTemplate.apply_inj (world im)); [exact Hdet|congruence]).
      eapply (Hst j ims ti s2 im); eauto. }
    assert (Lf : length fs = length images).
    { rewrite Hlen. clear - Htr. unfold training_images in Htr. destruct (rescale_images_to_reference_shape _ _ _ _); cbn [bind] in Htr; [|discriminate].
      destruct (mapM _ _) as [b|]; cbn [bind] in Htr; [|discriminate]. revert Htr. generalize (@None (callable * list (image Px))). revert ss tr.
      induction fs as [|f fs IH]; intros [|s ss] tr o El; cbn [scale_loop] in El; try discriminate; [injection El as <-; reflexivity|].
      match type of El with bind ?X _ = _ => destruct X end; cbn [bind] in El; [|discriminate].
      match type of El with bind ?X _ = _ => destruct X end; cbn [bind] in El; [|discriminate].
      destruct (scale_loop _ _ _ fs ss _ _) as [l2|] eqn:E2; cbn [bind] in El; [|discriminate]. injection El as <-. cbn. f_equal. eapply IH. exact E2. }
    assert (Hlv : forall j im r, nth_error images j = Some im -> nth_error rs j = Some r ->
      exists s, r_initial r = Some s /\ apply (world im) s = s0).
    { induction j as [|j IH]; intros im r Him Hr.
      - exists s00. rewrite Hr0 in Hr. injection Hr as <-. rewrite Him0 in Him. injection Him as <-. auto.
      - assert (Hj : S j < length images) by (apply nth_error_Some; congruence). 
        destruct (nth_error images j) as [im1|] eqn:E1; [|apply nth_error_None in E1; lia].
        destruct (nth_error rs j) as [r1|] eqn:E2; [|apply nth_error_None in E2; lia].
        destruct (nth_error affs j) as [a|] eqn:E3; [|apply nth_error_None in E3; lia].
        destruct (nth_error scs j) as [t|] eqn:E4; [|apply nth_error_None in E4; lia].
        destruct (nth_error fs j) as [g|] eqn:E5; [|apply nth_error_None in E5; lia].
        destruct (nth_error fs (S j)) as [g'|] eqn:E6; [|apply nth_error_None in E6; lia].
        destruct (Hnext j im1 im a t r1 r (fn_eq g) (fn_eq g') E1 Him E3 E4 E2 Hr) as (s' & Hs' & Hsame & _).
        { unfold F. cbn [holistic_features]. rewrite nth_error_map, E5. reflexivity. }
        { unfold F. cbn [holistic_features]. rewrite nth_error_map, E6. reflexivity. }
        exists s'. split; [exact Hs'|]. rewrite Hsame.
        + destruct (IH im1 r1 eq_refl eq_refl) as (s & Hs & Hws). destruct (Hstay j im1 r1 s E1 E2 Hs Hws) as [-> _]. exact Hws.
        + rewrite (Hfs g), (Hfs g'); [reflexivity| |]; eapply nth_error_In; eauto. }
    split.
    - assert (Hn : 0 < length images) by (apply nth_error_Some; congruence).
      destruct (nth_error images (length (scales F) - 1)) as [im|] eqn:E1; [|apply nth_error_None in E1; lia].
      destruct (nth_error rs (length (scales F) - 1)) as [r|] eqn:E2; [|apply nth_error_None in E2; lia].
      rewrite (Rfinal im r eq_refl eq_refl). destruct (Hlv _ _ _ E1 E2) as (s & Hs & Hws). destruct (Hstay _ _ _ _ E1 E2 Hs Hws) as [-> _]. exact Hws.
    - intros x. rewrite Rshapes. intros [<-|Hx]; [reflexivity|]. apply in_concat in Hx. destruct Hx as (l & Hl & Hx).
      apply in_map_iff in Hl. destruct Hl as ((im & r) & <- & Hir). cbn [fst snd] in Hx. apply in_map_iff in Hx. destruct Hx as (y & <- & Hy).
      apply In_nth_error in Hir. destruct Hir as (j & Hj).
      assert (E1 : nth_error images j = Some im /\ nth_error rs j = Some r).
      { clear - Hj. revert rs j Hj. induction images as [|a l IH]; intros [|b rs] [|j] Hj; cbn in *; try discriminate; [injection Hj as <- <-; auto|apply IH; exact Hj]. }
      destruct E1 as [E1 E2]. destruct (Hlv _ _ _ E1 E2) as (s & Hs & Hws). destruct (Hstay _ _ _ _ E1 E2 Hs Hws) as [_ Hsh].
      rewrite (Hsh y); [exact Hws|]. destruct (r_shapes r); [destruct Hy|right; exact Hy].
  Qed.
End Props.

(** *** An instance in the world of Props/LkTemplate.v: the algorithm of a scale stays where the pixels are those it was
    trained on and goes one to the right otherwise. *)
Import Proofs.FitterDemo Props.LkTemplate.
Definition t_fs : list callable := [mkFn 5 3; mkFn 5 3].
Definition t_ss : list Qc := [w_half; 1%Qc].
Definition t_training := training_images w_rtp w_feature w_rescale common_loop (fun i => Ok i) t_fs t_ss w_triangle "PTS" [w_template].
Definition t_pixels (j : nat) : aff :=
  match t_training with Ok tr => match nth_error tr j with Some (i :: _) => px i | _ => id_aff end | Err _ => id_aff end.
Definition t_algorithm (j : nat) (im : image aff) (s : shape) (g : option shape) (q : Z) (rc : bool) : res (iresult shape nat nat nat) :=
  parametric_result [s; if aff_eqb (px im) (t_pixels j) then s else apply (translation (1%Qc, 0%Qc)) s] [] None (Some s) g None.

Lemma aff_eqb_refl a : aff_eqb a a = true.
Proof. unfold aff_eqb. rewrite !Proofs.TrainImages.Qc_eq_bool_refl. reflexivity. Qed.
Lemma t_faithful : faithful w_rtp w_feature w_rescale demo_align t_algorithm w_world id_aff.
Proof.
  destruct (w_faithful (mkLk (mkFitter [] [] []) [] [] [])) as [H1 H2 H3 H4 _]. constructor; [exact H1|exact H2|exact H3|exact H4|].
  intros i im s g k rc r [= <-]. split; [reflexivity|]. eexists. split; reflexivity.
Qed.

Definition t_tr : list (list (image aff)) := match t_training with Ok tr => tr | Err _ => [] end.
Lemma t_trained : t_training = Ok t_tr.
Proof. unfold t_tr. assert (H : match t_training with Ok _ => true | Err _ => false end = true) by (vm_compute; reflexivity). destruct t_training; [reflexivity|discriminate]. Qed.

(** All the hypotheses are met: two scales, features that cut a border, and the fit makes two iterations. *)
Example c92_ex :
  objects t_fs /\ clear_scales t_ss /\ (forall f, In f t_fs -> fn_eq f = 3) /\ builds_on (@lucas_kanade_result shape nat nat nat) /\
  t_training = Ok t_tr /\ dict_get "PTS" (lms w_template) = Some w_triangle /\ spans w_triangle /\
  faithful w_rtp w_feature w_rescale demo_align t_algorithm w_world (px w_template) /\ stays_where_trained t_algorithm "PTS" 0 t_tr /\
  match fit_from_shape w_rtp w_feature w_rescale demo_align t_algorithm (@lucas_kanade_result shape nat nat nat) (mkFitter w_triangle (map fn_eq t_fs) t_ss)
    (px w_template) w_triangle (PInt 10) None true [] with
  | (Ok m, _) => length (r_shapes (m_res m)) = 5
  | _ => False
  end.
Proof.
  split; [intros f f' [<-|[<-|[]]] [<-|[<-|[]]]; reflexivity|].
  split; [intros s [<-|[<-|[]]]; [discriminate|reflexivity]|]. split; [intros f [<-|[<-|[]]]; reflexivity|].
  split; [exact (proj2 (proj2 (proj2 (@Proofs.Fitter.builds_on_all nat nat nat))))|].
  split; [exact t_trained|]. split; [reflexivity|]. split; [exact w_spans|]. split; [exact t_faithful|]. split; [|vm_compute; reflexivity].
  intros j ims ti s im g q rc r Hj Hk Hs Hp Ha.
  assert (E : px im = t_pixels j).
  { rewrite Hp. unfold t_pixels. rewrite t_trained, Hj. destruct ims; [discriminate|]. injection Hk as <-. reflexivity. }
  unfold t_algorithm in Ha. rewrite E, aff_eqb_refl in Ha. injection Ha as <-. cbn. split; [reflexivity|]. intros x [<-|[<-|[<-|[]]]]; reflexivity.
Qed.
Print Assumptions c92_training_images_stay.
