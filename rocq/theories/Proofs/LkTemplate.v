From Coq Require Import String List ZArith QArith Qcanon Bool Arith Lia.
From Verif.Model Require Import Py Dict Affine Result Fitter RunLoop LkTemplate.
From Verif.Spec Require Import Fitter TrainImages LkTemplate.
From Verif.Proofs Require Dict Affine Fitter TrainImages Result.
Import ListNotations.
Local Open Scope nat_scope.

Ltac bz H := match type of H with bind ?X _ = Ok _ => let E := fresh "E" in let a := fresh "a" in destruct X as [a|] eqn:E; cbn [bind] in H; [|discriminate] end.
Tactic Notation "bs" hyp(H) "as" simple_intropattern(p) :=
  match type of H with bind ?X _ = Ok _ => let E := fresh "E" in destruct X as [p|] eqn:E; cbn [bind] in H; [|discriminate] end.

Lemma apply_inj t s s' : det t <> 0%Qc -> apply t s = apply t s' -> s = s'.
Proof.
  intros Hd H. rewrite <- (Proofs.Affine.apply_inverse_l t s Hd), <- (Proofs.Affine.apply_inverse_l t s' Hd), H. reflexivity.
Qed.

Lemma nth_error_ext {X} : forall l l' : list X, (forall j, nth_error l j = nth_error l' j) -> l = l'.
Proof.
  induction l as [|x l IH]; intros [|x' l'] H; [reflexivity|specialize (H 0); discriminate|specialize (H 0); discriminate|].
  pose proof (H 0) as H0. injection H0 as ->. f_equal. apply IH. intros j. exact (H (S j)).
Qed.

Section P.
  Context {Px P A C T V : Type}.
  Variable to_pointcloud : Px -> shape -> shape -> res (Px * (shape -> shape)).
  Variable features_of : nat -> Px -> res (Px * (shape -> shape)).
  Variable resized : Px -> Qc -> res (Px * (shape -> shape) * aff).
  Variable diagonal_of : Px -> shape -> Qc -> res (Px * (shape -> shape)).
  Variable rescale_to_pointcloud : image Px -> shape -> string -> res (image Px).
  Variable feature : nat -> image Px -> res (image Px).
  Variable rescale : image Px -> Qc -> res (image Px * aff).
  Variable alignment_affine : shape -> shape -> res aff.
  Variable to_diagonal : image Px -> Qc -> string -> res (image Px).
  Variable new_transform : shape -> shape -> res T.
  Variable set_target : T -> shape -> res T.
  Variable target : T -> shape.
  Variable as_vector : T -> P.
  Variable warp : image Px -> Px -> T -> res Px.
  Variable increment : Px -> image Px -> T -> Px -> res V.
  Variable cost : Px -> image Px -> T -> C.
  Variable update : T -> V -> res T.
  Variable exceeds : V -> bool.
  Variable none : V.
  Hypothesis rides : ride_along to_pointcloud features_of resized rescale_to_pointcloud feature rescale.
  Hypothesis exact : exact_resizing to_pointcloud diagonal_of to_diagonal.
  Hypothesis rest : at_rest new_transform set_target target warp increment update none.

  Notation like := (alike initial_group).
  Notation prep := (prepare_scales feature rescale alignment_affine).

  (** ** Two preparations of alike images *)
  Lemma scaled_alike s im im' y y' a a' :
    like im initial_group im' ->
    (if negb (Qc_eq_bool s 1) then rescale im s else Ok (im, scale_aff 1)) = Ok (y, a) ->
    (if negb (Qc_eq_bool s 1) then rescale im' s else Ok (im', scale_aff 1)) = Ok (y', a') ->
    like y initial_group y'.
  Proof.
    intros Hl. destruct (negb (Qc_eq_bool s 1)).
    - intros H1 H2. exact (Proofs.TrainImages.rescale_alike _ _ _ _ _ _ rides _ _ _ _ _ _ _ _ _ Hl H1 H2).
    - intros [= <- _] [= <- _]. exact Hl.
  Qed.

  Lemma prep_alike tmp tmp' init init' : like tmp initial_group tmp' ->
    forall fs ss prev prev' l l',
    (match prev, prev' with
     | None, None => True
     | Some (f, im, _), Some (f', im', _) => f = f' /\ like im initial_group im'
     | _, _ => False end) ->
    prep fs ss tmp init prev = Ok l -> prep fs ss tmp' init' prev' = Ok l' ->
    Forall2 (fun x x' => like (fst (fst x)) initial_group (fst (fst x'))) l l'.
  Proof.
    intros Htmp. induction fs as [|f fs IH]; intros [|s ss] prev prev' l l' Hp H H'; cbn [prepare_scales] in H, H'; try discriminate.
    - injection H as <-. injection H' as <-. constructor.
    - bs H as [[fim af] ft]. bs H' as [[fim' af'] ft'].
      assert (Hf : like fim initial_group fim').
      { destruct prev as [[[g im] a0]|], prev' as [[[g' im'] a0']|]; try contradiction.
        - destruct Hp as [<- Hp]. destruct (negb (f =? g)).
          + bz E. bz E. bz E. injection E as <- <- <-. bz E0. bz E0. bz E0. injection E0 as <- <- <-.
            eapply (Proofs.TrainImages.feature_alike _ _ _ _ _ _ rides); [exact Htmp|eassumption|eassumption].
          + injection E as <- <- <-. injection E0 as <- <- <-. exact Hp.
        - bz E. bz E. bz E. injection E as <- <- <-. bz E0. bz E0. bz E0. injection E0 as <- <- <-.
          eapply (Proofs.TrainImages.feature_alike _ _ _ _ _ _ rides); [exact Htmp|eassumption|eassumption]. }
      bs H as [sc st]. bs H' as [sc' st'].
      bz H. bz H'. injection H as <-. injection H' as <-. constructor.
      + cbn [fst]. eapply scaled_alike; eauto.
      + eapply IH; [|exact E3|exact E4]. split; [reflexivity|exact Hf].
  Qed.

  (** ** Both groups of the template stay together *)
  Definition twin (im : image Px) : Prop := dict_get gt_group (lms im) = dict_get initial_group (lms im).
  Lemma twin_moved t d : dict_get gt_group d = dict_get initial_group d ->
    dict_get gt_group (moved t d) = dict_get initial_group (moved t d).
  Proof. intros H. rewrite !Proofs.TrainImages.dict_get_moved, H. reflexivity. Qed.
  Lemma feature_twin f im im' : twin im -> feature f im = Ok im' -> twin im'.
  Proof.
    destruct rides as (_ & Hf & _). intros Ht H. rewrite Hf in H. destruct (features_of f (px im)) as [[p t]|]; cbn [bind] in H; [|discriminate].
    injection H as <-. apply twin_moved. exact Ht.
  Qed.
  Lemma rescale_twin s im im' a : twin im -> rescale im s = Ok (im', a) -> twin im'.
  Proof.
    destruct rides as (_ & _ & Hf & _). intros Ht H. rewrite Hf in H. destruct (resized (px im) s) as [[[p t] b]|]; cbn [bind] in H; [|discriminate].
    injection H as <- <-. apply twin_moved. exact Ht.
  Qed.
  Lemma prep_twin tmp init : twin tmp -> forall fs ss prev l,
    (match prev with None => True | Some (_, im, _) => twin im end) ->
    prep fs ss tmp init prev = Ok l -> Forall (fun x => twin (fst (fst x))) l.
  Proof.
    intros Htmp. induction fs as [|f fs IH]; intros [|s ss] prev l Hp H; cbn [prepare_scales] in H; try discriminate.
    - injection H as <-. constructor.
    - bs H as [[fim af] ft].
      assert (Hf : twin fim).
      { destruct prev as [[[g im] a0]|].
        - destruct (negb (f =? g)).
          + bz E. bz E. bz E. injection E as <- <- <-. eapply feature_twin; [exact Htmp|eassumption].
          + injection E as <- <- <-. exact Hp.
        - bz E. bz E. bz E. injection E as <- <- <-. eapply feature_twin; [exact Htmp|eassumption]. }
      bs H as [sc st]. bz H. injection H as <-. constructor.
      + cbn [fst]. destruct (negb (Qc_eq_bool s 1)); [eapply rescale_twin; eauto|]. injection E0 as <- _. exact Hf.
      + eapply IH; [|exact E1]. exact Hf.
  Qed.

  (** ** A run from the source of the template on an image like the template *)
  Notation lkA := (lk_algorithm (A := A) set_target target as_vector warp increment cost update exceeds).
  Lemma stay_loop tpl im t0 : px im = tpl ->
    (forall w, warp im tpl t0 = Ok w -> w = tpl) ->
    forall n go ps shs cs ps' shs' cs',
    lk_loop (lk_step warp increment update tpl im) exceeds as_vector target (cost tpl im) n go t0 ps shs cs = Ok (ps', shs', cs') ->
    (forall s, In s shs -> s = target t0) -> forall s, In s shs' -> s = target t0.
  Proof.
    destruct rest as (_ & Hinc & Hup). intros Hpx Hw. induction n as [|n IH]; intros go ps shs cs ps' shs' cs' H Hin; cbn [lk_loop] in H.
    - injection H as <- <- <-. exact Hin.
    - destruct go; [|injection H as <- <- <-; exact Hin]. bs H as [t' dp]. cbn [fst snd] in H.
      assert (Ht : t' = t0).
      { unfold lk_step in E. bs E as w. bs E as v. bs E as t2. injection E as <- <-. rewrite (Hw w eq_refl) in E1. subst tpl.
        apply Hinc in E1. subst v. eapply Hup. eauto. }
      subst t'. eapply IH; [exact H|]. intros s Hs. apply in_app_or in Hs. destruct Hs as [Hs|[<-|[]]]; auto.
  Qed.

  Lemma lk_loop_grows {St Q Sh K E} (step : St -> res (St * E)) ex av (tg : St -> Sh) (ct : St -> K) :
    forall n go st (ps : list Q) shs cs ps' shs' cs',
    lk_loop step ex av tg ct n go st ps shs cs = Ok (ps', shs', cs') -> shs <> [] -> shs' <> [].
  Proof.
    induction n as [|n IH]; intros go st ps shs cs ps' shs' cs' H Hne; cbn [lk_loop] in H.
    - injection H as <- <- <-. exact Hne.
    - destruct go; [|injection H as <- <- <-; exact Hne]. bz H. eapply IH; [exact H|]. intros E'. apply app_eq_nil in E'. destruct E' as [_ E']. discriminate.
  Qed.

  (** What every run reports. *)
  Lemma lk_reports tpl tr im s gt k rc r : lkA tpl tr im s gt k rc = Ok r ->
    r_initial r = Some s /\ exists rst, r_shapes r = s :: rst /\ last_res rst = Ok (r_final r).
  Proof.
    unfold lk_algorithm. intros H. bs H as t. bs H as [[ps shs] cs]. unfold parametric_result in H. bz H.
    unfold nonparametric_result in H. destruct (last_res shs) as [fin|] eqn:El; cbn [bind] in H; [|discriminate].
    injection H as <-. cbn. eauto.
  Qed.

  Lemma last_res_In {X} (l : list X) x : last_res l = Ok x -> In x l.
  Proof. intros H. apply Proofs.Result.last_res_nth in H. eapply nth_error_In; eauto. Qed.

  Lemma stay_run s tr im gt k rc r : new_transform s s = Ok tr -> lkA (px im) tr im s gt k rc = Ok r ->
    r_final r = s /\ forall x, In x (r_shapes r) -> x = s.
  Proof.
    intros Hn H. destruct rest as (Htr & _). unfold lk_algorithm in H. bs H as t. bs H as [[ps shs] cs].
    destruct (Htr s tr t Hn E) as [Htg Hw].
    assert (Hall : forall x, In x shs -> x = s).
    { intros x Hx. rewrite <- Htg. eapply (stay_loop (px im) im t eq_refl (Hw im)); [exact E0| |exact Hx]. intros y [<-|[]]. reflexivity. }
    unfold parametric_result in H. bz H. unfold nonparametric_result in H.
    destruct (last_res shs) as [fin|] eqn:El; cbn [bind] in H; [|discriminate]. injection H as <-. cbn.
    split; [apply Hall, last_res_In; exact El|]. intros x [<-|Hx]; auto.
  Qed.

  (** ** The templates and the images fitted *)
  Notation init_ := (lk_init rescale_to_pointcloud feature rescale alignment_affine to_diagonal new_transform).

  Lemma template_alike template group fs diagonal ss L s0 gt d images inits gts affs scs :
    init_ template group fs diagonal ss = Ok L ->
    dict_get group (lms template) = Some s0 ->
    Fitter.computed rescale_to_pointcloud feature rescale alignment_affine (lk_base L) (px template) s0 gt (Fitter.with_groups s0 gt d)
      = Ok (images, inits, gts, affs, scs) ->
    length (lk_templates L) = length images /\
    forall j im, nth_error images j = Some im -> exists t tr s,
      nth_error (lk_templates L) j = Some t /\ nth_error (lk_sources L) j = Some s /\ nth_error (lk_transforms L) j = Some tr /\
      px t = px im /\ nth_error inits j = Some s /\ new_transform s s = Ok tr.
  Proof.
    intros HL Hs0 Hc. unfold lk_init in HL. bs HL as t1. bs HL as ref.
    rewrite Fitter.prepare_image_spec in HL.
    match type of HL with context [Fitter.computed ?a ?b ?c ?d ?e ?f ?g ?h ?i] => destruct (Fitter.computed a b c d e f g h i) as [[[[[tpls tin] tgts] taffs] tscs]|e1] eqn:Et end; cbn [fst bind] in HL; [|discriminate].
    destruct tgts as [sources|]; [|discriminate]. bs HL as trs. injection HL as <-. cbn [lk_base lk_templates lk_sources lk_transforms] in *.
    unfold Fitter.computed in Hc, Et. cbn [reference_shape holistic_features scales] in Hc, Et.
    destruct (rescale_to_pointcloud (mkImage (px template) (Fitter.with_groups s0 gt d)) ref initial_group) as [tmp|] eqn:Etmp; cbn [bind] in Hc; [|discriminate].
    destruct (prep fs ss tmp s0 None) as [l|] eqn:El; cbn [bind] in Hc; [|discriminate].
    destruct (mapM _ (map _ l)) as [inits0|] eqn:Ein; cbn [bind] in Hc; [|discriminate].
    match type of Hc with bind ?X _ = _ => destruct X as [gs|] end; cbn [bind] in Hc; [|discriminate]. injection Hc as <- <- _ _ _.
    destruct (rescale_to_pointcloud (mkImage (px t1) _) ref initial_group) as [ttmp|] eqn:Ettmp; cbn [bind] in Et; [|discriminate].
    destruct (prep fs ss ttmp ref None) as [tl_|] eqn:Etl; cbn [bind] in Et; [|discriminate].
    destruct (mapM (fun i => dict_at initial_group (lms i)) (map _ tl_)) as [tin0|] eqn:Etin; cbn [bind] in Et; [|discriminate].
    destruct (mapM (fun i => dict_at gt_group (lms i)) (map _ tl_)) as [src0|] eqn:Esrc; cbn [bind] in Et; [|discriminate].
    injection Et as <- <- <- <- <-.
    destruct rides as (Hrtp & _). destruct exact as (Hid & Hdiag & Hto).
    rewrite Hrtp in Etmp, Ettmp. cbn [lms px] in Etmp, Ettmp. unfold dict_at in Etmp, Ettmp.
    rewrite Fitter.get_init_with in Etmp, Ettmp. cbn [bind] in Etmp, Ettmp. rewrite Hid in Ettmp. cbn [bind] in Ettmp. injection Ettmp as <-.
    unfold dict_at in E0. destruct (dict_get group (lms t1)) as [ref'|] eqn:Eref; [|discriminate]. injection E0 as ->.
    (* both temporary images have the template's pixels and shape *)
    assert (Hboth : px tmp = px t1 /\ dict_get initial_group (lms tmp) = Some ref).
    { destruct diagonal as [q|].
      - rewrite Hto in E. unfold dict_at in E. rewrite Hs0 in E. cbn [bind] in E.
        destruct (diagonal_of (px template) s0 q) as [[p t]|] eqn:Ed; cbn [bind] in E; [|discriminate]. injection E as <-.
        cbn [lms px] in *. rewrite Proofs.TrainImages.dict_get_moved, Hs0 in Eref. cbn in Eref. injection Eref as <-.
        rewrite (Hdiag _ _ _ _ _ Ed) in Etmp. cbn [bind] in Etmp. injection Etmp as <-. cbn.
        rewrite Proofs.TrainImages.dict_get_moved, Fitter.get_init_with. auto.
      - injection E as <-. rewrite Hs0 in Eref. injection Eref as <-. rewrite Hid in Etmp. cbn [bind] in Etmp. injection Etmp as <-. cbn.
        rewrite Proofs.TrainImages.dict_get_moved, Fitter.get_init_with. auto. }
    destruct Hboth as [Hpx Hin].
    set (ttmp := mkImage (px t1) (moved (fun x : shape => x) (Fitter.with_groups ref (Some ref) (lms t1)))) in *.
    assert (Hlike : like tmp initial_group ttmp).
    { split; [exact Hpx|]. rewrite Hin. unfold ttmp. cbn [lms]. rewrite Proofs.TrainImages.dict_get_moved, Fitter.get_init_with. reflexivity. }
    assert (Htwin : twin ttmp).
    { unfold twin, ttmp. cbn [lms]. apply twin_moved. rewrite Fitter.get_init_with. unfold Fitter.with_groups. apply Proofs.Dict.get_set_same. }
    pose proof (prep_alike _ _ s0 ref Hlike fs ss None None l tl_ I El Etl) as Hall.
    pose proof (prep_twin _ ref Htwin fs ss None tl_ I Etl) as Htw.
    clear - Hall Htw Ein Etin Esrc E1. revert inits0 tin0 src0 trs Ein Etin Esrc E1 Htw.
    induction Hall as [|x x' l l' Hx Hall IH]; intros inits0 tin0 src0 trs Ein Etin Esrc Etr Htw.
    - cbn. split; [reflexivity|]. intros [|j] im Hj; discriminate.
    - cbn [map mapM] in Ein, Etin, Esrc. bs Ein as i0. bs Ein as i1. injection Ein as <-. bs Etin as i2. bs Etin as i3. injection Etin as <-. bs Esrc as s1. bs Esrc as s2. injection Esrc as <-.
      cbn [mapM] in Etr. bs Etr as t. bs Etr as t2. injection Etr as <-. inversion Htw; subst.
      destruct (IH _ _ _ _ eq_refl eq_refl eq_refl E6 H2) as [Hlen Hn].
      split; [cbn; cbn in Hlen; rewrite Hlen; reflexivity|].
      intros [|j] im Hj; [|exact (Hn j im Hj)]. cbn [nth_error map] in *. injection Hj as <-. exists (fst (fst x')), t, s1.
      split; [reflexivity|]. split; [reflexivity|]. split; [reflexivity|]. destruct Hx as [Hp Hd]. split; [symmetry; exact Hp|].
      split; [|exact E5]. f_equal. unfold dict_at in E, E1, E3. unfold twin in H1. rewrite H1, <- Hd in E3. destruct (dict_get initial_group (lms (fst (fst x)))); congruence.
  Qed.
End P.
