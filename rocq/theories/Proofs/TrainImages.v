From Coq Require Import String List ZArith QArith Qcanon Qcabs Bool Arith Lia.
From Verif.Model Require Import Py Dict Affine Result Fitter TrainImages.
From Verif.Spec Require Import TrainImages.
Import ListNotations.
Local Open Scope nat_scope.

Lemma mapM_nth {A B} (f : A -> res B) l l' k x :
  mapM f l = Ok l' -> nth_error l k = Some x -> exists y, f x = Ok y /\ nth_error l' k = Some y.
Proof.
  revert l' k. induction l as [|a l IH]; intros l' k H Hx; [destruct k; discriminate|].
  cbn [mapM] in H. destruct (f a) as [y|e] eqn:Hy; cbn [bind] in H; [|discriminate].
  destruct (mapM f l) as [ys|e]; cbn [bind] in H; [|discriminate].
  injection H as <-. destruct k; cbn [nth_error] in Hx |- *.
  - injection Hx as <-. eauto.
  - eapply IH; eauto.
Qed.

Lemma mapM_id {A} (l : list A) : mapM (fun i => Ok i) l = Ok l.
Proof. induction l as [|a l IH]; [reflexivity|]. cbn [mapM bind]. rewrite IH. reflexivity. Qed.

Lemma dict_get_moved t k d : dict_get k (moved t d) = option_map t (dict_get k d).
Proof.
  induction d as [|[k' v] d IH]; [reflexivity|]. cbn. destruct (String.eqb k k'); [reflexivity|exact IH].
Qed.

Lemma Qc_eq_bool_refl s : Qc_eq_bool s s = true.
Proof. unfold Qc_eq_bool. destruct (Qc_eq_dec s s); congruence. Qed.

Lemma close_one : close_to_one 1 = true.
Proof. unfold close_to_one. replace (1 - 1)%Qc with 0%Qc by ring. reflexivity. Qed.

Section P.
  Context {Px : Type}.
  Notation image := (@image Px).
  Variable to_pointcloud : Px -> shape -> shape -> res (Px * (shape -> shape)).
  Variable features_of : nat -> Px -> res (Px * (shape -> shape)).
  Variable resized : Px -> Qc -> res (Px * (shape -> shape) * aff).
  Variable rescale_to_pointcloud : image -> shape -> string -> res image.
  Variable feature : nat -> image -> res image.
  Variable rescale : image -> Qc -> res (image * aff).
  Variable alignment_affine : shape -> shape -> res aff.
  Hypothesis rides : ride_along to_pointcloud features_of resized rescale_to_pointcloud feature rescale.
  Variables (g g' : string).
  Notation alike := (alike g).

  Lemma feature_alike n im im' y y' :
    alike im g' im' -> feature n im = Ok y -> feature n im' = Ok y' -> alike y g' y'.
  Proof.
    destruct rides as (_ & Hf & _). intros [Hp Hd] H H'. rewrite Hf in H, H'. rewrite <- Hp in H'.
    destruct (features_of n (px im)) as [[p t]|e]; cbn [bind] in *; [|discriminate].
    injection H as <-. injection H' as <-. split; [reflexivity|]. cbn. now rewrite !dict_get_moved, Hd.
  Qed.

  Lemma rescale_alike s im im' y y' a a' :
    alike im g' im' -> rescale im s = Ok (y, a) -> rescale im' s = Ok (y', a') -> alike y g' y'.
  Proof.
    destruct rides as (_ & _ & Hr & _). intros [Hp Hd] H H'. rewrite Hr in H, H'. rewrite <- Hp in H'.
    destruct (resized (px im) s) as [[[p t] b]|e]; cbn [bind] in *; [|discriminate].
    injection H as <- <-. injection H' as <- <-. split; [reflexivity|]. cbn. now rewrite !dict_get_moved, Hd.
  Qed.

  Lemma to_pointcloud_alike ref im im' y y' :
    alike im g' im' -> rescale_to_pointcloud im ref g = Ok y -> rescale_to_pointcloud im' ref g' = Ok y' ->
    alike y g' y'.
  Proof.
    destruct rides as (Ht & _). intros [Hp Hd] H H'. rewrite Ht in H, H'. rewrite <- Hp in H'.
    unfold dict_at in H, H'. rewrite <- Hd in H'.
    destruct (dict_get g (lms im)) as [s|] eqn:Hs; cbn [bind] in *; [|discriminate].
    destruct (to_pointcloud (px im) s ref) as [[p t]|e]; cbn [bind] in *; [|discriminate].
    injection H as <-. injection H' as <-. split; [reflexivity|]. cbn. now rewrite !dict_get_moved, <- Hd, Hs.
  Qed.

  (** The two loops run in step. *)
  Lemma loops_alike v k batch tmp init :
    (exists b, nth_error batch k = Some b /\ alike b g' tmp) ->
    forall fs ss, objects fs -> clear_scales ss ->
    forall prev prev' tr l,
    match prev, prev' with
    | None, None => True
    | Some (f, ims), Some (n, im, a0) =>
        fn_eq f = n /\ (forall f', In f' fs -> fn_id f' = fn_id f -> fn_eq f' = fn_eq f) /\
        feature n tmp = Ok im /\ exists ti, nth_error ims k = Some ti /\ alike ti g' im
    | _, _ => False
    end ->
    scale_loop feature rescale v fs ss batch prev = Ok tr ->
    prepare_scales feature rescale alignment_affine (map fn_eq fs) ss tmp init prev' = Ok l ->
    length l = length tr /\
    forall j ims x, nth_error tr j = Some ims -> nth_error l j = Some x ->
      exists ti, nth_error ims k = Some ti /\ alike ti g' (fst (fst x)).
  Proof.
    intros (b & Hb & Hbt).
    induction fs as [|f fs IH]; intros ss Hobj Hcl prev prev' tr l Hprev Htr Hl.
    - destruct ss; cbn in Htr, Hl; [|discriminate]. injection Htr as <-. injection Hl as <-.
      split; [reflexivity|]. intros [|j] ims x H; discriminate.
    - destruct ss as [|s ss]; [discriminate|].
      cbn [scale_loop] in Htr. cbn [map prepare_scales] in Hl.
      (* training features *)
      match type of Htr with bind ?X _ = _ => destruct X as [fimgs|e] eqn:Hfi end; cbn [bind] in Htr; [|discriminate].
      match type of Htr with bind ?X _ = _ => destruct X as [scimgs|e] eqn:Hsc end; cbn [bind] in Htr; [|discriminate].
      match type of Htr with bind ?X _ = _ => destruct X as [rest|e] eqn:Hrest end; cbn [bind] in Htr; [|discriminate].
      injection Htr as <-.
      match type of Hl with bind ?X _ = _ => destruct X as [[[fim aff0] first]|e] eqn:Hfit end; cbn [bind] in Hl; [|discriminate].
      match type of Hl with bind ?X _ = _ => destruct X as [[scaled st]|e] eqn:Hst end; cbn [bind] in Hl; [|discriminate].
      match type of Hl with bind ?X _ = _ => destruct X as [restl|e] eqn:Hrl end; cbn [bind] in Hl; [|discriminate].
      injection Hl as <-.
      (* the fitting side's feature image is the feature of tmp *)
      assert (Hfeat : feature (fn_eq f) tmp = Ok fim).
      { destruct prev as [[pf pims]|]; destruct prev' as [[[pn pim] pa]|]; try contradiction.
        - destruct Hprev as (E1 & E2 & E3 & _). destruct (fn_eq f =? pn) eqn:Eq; cbn [negb] in Hfit.
          + apply Nat.eqb_eq in Eq. injection Hfit as <- _ _. congruence.
          + destruct (feature (fn_eq f) tmp) as [im'|e]; cbn [bind] in Hfit; [|discriminate].
            destruct (dict_at initial_group (lms im')); cbn [bind] in Hfit; [|discriminate].
            destruct (alignment_affine _ _); cbn [bind] in Hfit; [|discriminate]. congruence.
        - destruct (feature (fn_eq f) tmp) as [im'|e]; cbn [bind] in Hfit; [|discriminate].
          destruct (dict_at initial_group (lms im')); cbn [bind] in Hfit; [|discriminate].
          destruct (alignment_affine _ _); cbn [bind] in Hfit; [|discriminate]. congruence. }
      assert (Hcomp : forall ims, compute_features feature batch f = Ok ims ->
                exists ti, nth_error ims k = Some ti /\ alike ti g' fim).
      { intros ims Hc. destruct (mapM_nth _ _ _ _ _ Hc Hb) as (ti & Hti & Hn).
        exists ti. split; [exact Hn|]. exact (feature_alike _ _ _ _ _ Hbt Hti Hfeat). }
      assert (Hti : exists ti, nth_error fimgs k = Some ti /\ alike ti g' fim).
      { destruct prev as [[pf pims]|]; destruct prev' as [[[pn pim] pa]|]; try contradiction.
        - destruct Hprev as (E1 & E2 & E3 & ti & Hn & Ha).
          destruct (same_features v f pf) eqn:Es; [|now apply Hcomp].
          injection Hfi as <-. exists ti. split; [exact Hn|].
          assert (Ee : fn_eq f = pn).
          { unfold same_features in Es. destruct (by_identity v); apply Nat.eqb_eq in Es.
            - rewrite <- E1. apply E2; [now left|exact Es].
            - congruence. }
          rewrite Ee, E3 in Hfeat. injection Hfeat as <-. exact Ha.
        - destruct (skips_no_op v && (fn_eq f =? no_op_eq)) eqn:En; [|now apply Hcomp].
          injection Hfi as <-. apply andb_true_iff in En. destruct En as [_ En]. apply Nat.eqb_eq in En.
          rewrite En in Hfeat. exists b. split; [exact Hb|].
          destruct rides as (_ & Hf & _ & Hno). rewrite Hf, Hno in Hfeat. cbn [bind] in Hfeat.
          injection Hfeat as <-. destruct Hbt as [P1 P2]. split; [exact P1|]. cbn.
          rewrite dict_get_moved, P2. now destruct (dict_get g' (lms tmp)). }
      assert (Hsti : exists ti, nth_error scimgs k = Some ti /\ alike ti g' scaled).
      { destruct Hti as (ti & Hn & Ha).
        unfold scale_images in Hsc.
        destruct (Qc_eq_bool s 1) eqn:E1.
        - cbn [negb] in Hst. injection Hst as <- _. apply Qc_eq_bool_correct in E1. subst s.
          rewrite close_one in Hsc. cbn [negb] in Hsc.
          assert (fimgs = scimgs) by (destruct (guards_scale v && true); congruence). subst. eauto.
        - cbn [negb] in Hst. rewrite andb_false_r in Hsc.
          destruct (close_to_one s) eqn:Ec.
          { apply (Hcl s) in Ec; [|now left]. subst s. rewrite Qc_eq_bool_refl in E1. discriminate. }
          cbn [negb] in Hsc. destruct (mapM_nth _ _ _ _ _ Hsc Hn) as (y & Hy & Hny).
          destruct (rescale ti s) as [[y' a']|e] eqn:Hr; cbn [bind fst] in Hy; [|discriminate].
          injection Hy as <-. exists y'. split; [exact Hny|]. exact (rescale_alike _ _ _ _ _ _ _ Ha Hr Hst). }
      edestruct (IH ss) as [Hlen Hall]; [| | |exact Hrest|exact Hrl|].
      + intros f1 f2 H1 H2. apply Hobj; now right.
      + intros s' Hs'. apply Hcl. now right.
      + cbn. split; [reflexivity|]. split; [|split; [exact Hfeat|exact Hti]].
        intros f' Hf' Hid. apply Hobj; [now right|now left|exact Hid].
      + split; [cbn; now rewrite Hlen|].
        intros [|j] ims x Hims Hx; cbn [nth_error] in Hims, Hx.
        * injection Hims as <-. injection Hx as <-. exact Hsti.
        * eapply Hall; eauto.
  Qed.
End P.
