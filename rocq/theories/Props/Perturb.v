(** C13: generated bounding boxes.  C14: every perturbed shape is trained at every scale. *)
From Coq Require Import String List ZArith Bool Lia.
From Verif.Model Require Import Py Dict Result Perturb.
From Verif.Spec Require Import Perturb.
From Verif.Proofs Require Perturb Result.
Import ListNotations.
Local Open Scope nat_scope.

Section C13.
  Context {Sh Px : Type}.
  Variable bounding_box : Sh -> Sh.
  Variable constrain : Px -> Sh -> Sh.
  Variable perturb_func : nat -> Sh -> Sh -> res Sh.
  Variable matches : string -> bool.
  Notation generate := (generate_perturbations_from_gt bounding_box constrain perturb_func matches).
  Notation gen d := (filter is_generated d).
  Notation rest d := (filter (fun kv => negb (is_generated kv)) d).

  (** Every image without generated groups, whatever the number of images, of boxes and of perturbations:
      the pixels and the other groups are kept, the generated groups are the expected boxes numbered
      consecutively from 0, and the returned callable yields exactly them.  The provided boxes are the
      box of the ground truth when no glob is given and the boxes of the matching groups otherwise. *)
  Theorem c13_generated_boxes : forall images n gt_group glob images',
    generate images n gt_group glob = Ok images' ->
    length images' = length images /\
    forall i im im', nth_error images i = Some im -> nth_error images' i = Some im' ->
      ppx im' = ppx im /\ rest (plms im') = rest (plms im) /\
      exists gt c0, dict_get gt_group (plms im) = Some gt /\
        (gen (plms im) = [] ->
         exists fresh,
          expected_boxes bounding_box constrain perturb_func c0 n glob (ppx im) (bounding_box gt)
            (if glob then map bounding_box (map snd (filter (fun kv => matches (fst kv)) (plms im)))
             else [bounding_box gt]) fresh /\
          gen (plms im') = number bb_prefix fresh /\
          generated_bb_func im' = fresh).
  Proof.
    intros images n gt_group glob images' H. unfold generate_perturbations_from_gt in H.
    destruct (if glob then _ else _) as [m|]; [|discriminate]. cbn [bind] in H. destruct (m =? 0); [discriminate|].
    apply Proofs.Perturb.image_loop_spec in H. destruct H as [L H]. split; [exact L|].
    intros i im im' H1 H2. destruct (H i im im' H1 H2) as (P & R & gt & c0 & G & X). split; [exact P|]. split; [exact R|].
    exists gt, c0. split; [exact G|]. intros E. destruct (X [] E) as (fresh & Y & Z). exists fresh.
    split; [destruct glob; [rewrite map_map|]; exact Y|]. rewrite skipn_nil, app_nil_r in Z.
    split; [exact Z|]. unfold generated_bb_func. rewrite Z. apply Proofs.Perturb.map_snd_number.
  Qed.

  (** An image that already carries generated groups (numbered from 0, as every call leaves them): the
      callable yields the new boxes, and after them the earlier boxes that were not overwritten. *)
  Theorem c13_repeated_call_partial : forall images n gt_group glob images' i im im' old,
    generate images n gt_group glob = Ok images' ->
    nth_error images i = Some im -> nth_error images' i = Some im' ->
    gen (plms im) = number bb_prefix old ->
    exists gt c0 fresh, dict_get gt_group (plms im) = Some gt /\
      expected_boxes bounding_box constrain perturb_func c0 n glob (ppx im) (bounding_box gt)
        (if glob then map bounding_box (map snd (filter (fun kv => matches (fst kv)) (plms im)))
         else [bounding_box gt]) fresh /\
      gen (plms im') = number bb_prefix (fresh ++ skipn (length fresh) old) /\
      generated_bb_func im' = fresh ++ skipn (length fresh) old.
  Proof.
    intros images n gt_group glob images' i im im' old H H1 H2 E. unfold generate_perturbations_from_gt in H.
    destruct (if glob then _ else _) as [m|]; [|discriminate]. cbn [bind] in H. destruct (m =? 0); [discriminate|].
    apply Proofs.Perturb.image_loop_spec in H. destruct H as [L H].
    destruct (H i im im' H1 H2) as (P & R & gt & c0 & G & X). destruct (X old E) as (fresh & Y & Z).
    exists gt, c0, fresh. split; [exact G|]. split; [destruct glob; [rewrite map_map|]; exact Y|]. split; [exact Z|].
    unfold generated_bb_func. rewrite Z. apply Proofs.Perturb.map_snd_number.
  Qed.

  (** How many boxes that is: (n + 1) per provided box with a glob, n without. *)
  Theorem c13_box_count : forall c0 n glob p gt_s bbs fresh,
    expected_boxes bounding_box constrain perturb_func c0 n glob p gt_s bbs fresh ->
    length fresh = length bbs * (if glob then n + 1 else n).
  Proof.
    intros c0 n glob p gt_s bbs fresh (pss & L & O & ->). rewrite Nat.mul_comm.
    assert (X : forall bbs pss, length pss = length bbs ->
      (forall i bb ps, nth_error bbs i = Some bb -> nth_error pss i = Some ps -> length ps = n) ->
      length (concat (map (fun bp => boxes_of bounding_box constrain glob p (fst bp) (snd bp)) (combine bbs pss)))
      = (if glob then n + 1 else n) * length bbs).
    { clear. induction bbs as [|bb bbs IH]; intros [|ps pss]; try discriminate; intros L O; [cbn; lia|].
      cbn [combine map concat fst snd length]. rewrite app_length, IH; [|cbn in L; lia|intros i b q H1 H2; apply (O (S i) b q H1 H2)].
      unfold boxes_of. rewrite app_length, map_length, (O 0 bb ps eq_refl eq_refl). destruct glob; cbn; lia. }
    apply X; auto. intros i bb ps H1 H2. apply (O i bb ps H1 H2).
  Qed.

  (** The call fails exactly as documented when no box of the first image matches, before any change. *)
  Theorem c13_no_match : forall im0 images n gt_group,
    (forall k v, In (k, v) (plms im0) -> matches k = false) ->
    generate (im0 :: images) n gt_group true = Err ValueError.
  Proof.
    intros im0 images n gt_group H. unfold generate_perturbations_from_gt, bb_glob. cbn [nth_res nth_error bind].
    replace (filter (fun kv => matches (fst kv)) (plms im0)) with (@nil (string * Sh)); [reflexivity|].
    induction (plms im0) as [|[k v] d IH]; [reflexivity|]. cbn. rewrite (H k v) by (left; auto).
    apply IH. intros k' v' Hi. apply (H k' v'). right; auto.
  Qed.

  (** It succeeds whenever the user's function does, every image has the ground truth group and the glob,
      if given, matches a group of the first image. *)
  Theorem c13_succeeds : forall images n gt_group glob,
    (forall gt_s bb c, exists s, perturb_func c gt_s bb = Ok s) ->
    (forall im, In im images -> dict_get gt_group (plms im) <> None) ->
    (glob = true -> exists im0 r k v, images = im0 :: r /\ In (k, v) (plms im0) /\ matches k = true) ->
    exists images', generate images n gt_group glob = Ok images'.
  Proof.
    intros images n gt_group glob H G M. unfold generate_perturbations_from_gt.
    assert (X : exists m, (if glob then let? im0 := nth_res images 0 in Ok (length (bb_glob bounding_box matches (plms im0))) else Ok 1) = Ok (S m)).
    { destruct glob; [|exists 0; reflexivity]. destruct (M eq_refl) as (im0 & r & k & v & -> & I0 & K).
      cbn [nth_res nth_error bind]. unfold bb_glob. rewrite map_length.
      assert (Y : In (k, v) (filter (fun kv => matches (fst kv)) (plms im0))) by (apply filter_In; auto).
      destruct (filter _ (plms im0)) as [|a l]; [destruct Y|]. exists (length l). reflexivity. }
    destruct X as [m ->]. cbn [bind Nat.eqb]. apply Proofs.Perturb.iloop_total; auto.
  Qed.
End C13.

(** A world for the examples: a shape is a number, its own box; images are unit pixels. *)
Definition ex_images : list (pimage nat unit) :=
  [mkPImage tt [("PTS"%string, 7); ("box_a"%string, 5)]; mkPImage tt [("PTS"%string, 9)]].
Definition ex_matches (k : string) : bool := prefix "box" k.
Definition ex_generate := generate_perturbations_from_gt (Px := unit) (fun s : nat => s) (fun _ s => s)
                            (fun c g b => Ok (100 + c)) ex_matches.
Example c13_generated_boxes_example :
  exists images', ex_generate ex_images 2 "PTS" false = Ok images' /\
    map generated_bb_func images' = [[100; 101]; [102; 103]].
Proof. eexists. split; vm_compute; reflexivity. Qed.
Example c13_glob_example :
  exists images', ex_generate ex_images 2 "PTS" true = Ok images' /\
    map generated_bb_func images' = [[100; 101; 5]; []].
Proof. eexists. split; vm_compute; reflexivity. Qed.

(** With a glob only the first image is checked: an image without a matching group silently gets no box,
    so that it takes no part in the training. *)
Theorem c13_unmatched_image_refuted :
  exists (images images' : list (pimage nat unit)) im', ex_generate images 2 "PTS" true = Ok images' /\
    nth_error images' 1 = Some im' /\ generated_bb_func im' = [].
Proof. exists ex_images. eexists. eexists. repeat split; vm_compute; reflexivity. Qed.

(** A second call with fewer boxes: the callable also yields boxes of the first call. *)
Theorem c13_stale_boxes_refuted :
  exists images i1 i2 im', ex_generate images 3 "PTS" false = Ok i1 /\ ex_generate i1 1 "PTS" false = Ok i2 /\
    nth_error i2 0 = Some im' /\ generated_bb_func im' = [100; 101; 102] /\
    (* only the first of them was generated by this call *)
    length (generated_bb_func im') <> 1.
Proof. exists ex_images. eexists. eexists. eexists. repeat split; vm_compute; try reflexivity. discriminate. Qed.

Print Assumptions c13_generated_boxes.
Print Assumptions c13_repeated_call_partial.
Print Assumptions c13_box_count.
Print Assumptions c13_no_match.
Print Assumptions c13_succeeds.
Print Assumptions c13_unmatched_image_refuted.
Print Assumptions c13_stale_boxes_refuted.

Section C14.
  Context {Sh Px Tr Scene : Type}.
  Notation img := (pimage Sh Px).
  Variable feature : nat -> img -> res img.
  Variable scale_image : nat -> img -> res (img * Tr).
  Variable tapply : Tr -> Sh -> Sh.
  Variable align : Sh -> res Sh.
  Variable train : nat -> list img -> list Sh -> list (list Sh) -> res (list (list Sh)).
  Variable place : Px -> Sh -> Scene.
  Notation loop := (scale_loop feature scale_image tapply align train).
  Notation faithful := (faithful_training place feature scale_image tapply train).

  Lemma kept_of_changes fs : changes_keep_coordinates place feature fs ->
    Proofs.Perturb.left_frames_kept feature place fs.
  Proof.
    induction fs as [|f [|f' fs] IH]; intros H; [exact I|exact I|]. split.
    - intros N. apply (H 0 f f' eq_refl eq_refl N).
    - apply IH. intros i a b H1 H2 N. apply (H (S i) a b H1 H2 N).
  Qed.

  (** Without a box glob: the first scale starts from the reference shape aligned with every generated
      box, and every later scale starts, for every perturbation of every image, from the estimate of the
      scale before - for any number of images, perturbations and scales. *)
  Theorem c14_every_perturbation_trained_partial :
    forall bounding_box constrain perturb_func matches images n group batch fs tr final,
    faithful -> changes_keep_coordinates place feature fs ->
    (forall im, In im images -> generated_bb_func im = []) ->
    generate_perturbations_from_gt bounding_box constrain perturb_func matches images n group false = Ok batch ->
    loop n group 0 fs 0 batch None = Ok (tr, final) ->
    length tr = length fs /\ chain (continues place) tr /\
    Forall (fun t : scale_trace => Forall (fun es => length es = n) (snd t)) tr.
  Proof.
    intros bounding_box constrain perturb_func matches images n group batch fs tr final [F1 F2 F3] K G B L.
    assert (N : forall im, In im batch -> length (generated_bb_func im) = n)
      by (eapply Proofs.Perturb.no_glob_count; eauto).
    assert (LEN : forall fs j prev b g tr final, loop n group j fs prev b g = Ok (tr, final) -> length tr = length fs).
    { clear. induction fs as [|f fs IH]; intros j prev b g tr final H; [injection H as <- <-; reflexivity|].
      apply Proofs.Perturb.loop_inv in H. destruct H as (g' & sc & gts & cur & est & _ & _ & _ & _ & _ & H).
      destruct fs as [|f' fs]; [destruct H as [-> _]; reflexivity|]. destruct H as (rest & -> & H). cbn [length].
      f_equal. apply (IH _ _ _ _ _ _ H). }
    split; [eapply LEN; eauto|]. destruct fs as [|f fs]; [injection L as <- <-; split; constructor|].
    assert (C : Forall (fun t : scale_trace => Forall (fun es => length es = n) (snd t)) tr)
      by (eapply Proofs.Perturb.counts; eauto).
    split; [|exact C]. eapply Proofs.Perturb.first_to_all; eauto.
    eapply Proofs.Perturb.flow; eauto; [apply kept_of_changes; auto|]. intros im Hi. rewrite N; auto.
  Qed.

  (** Any number of boxes per image, at least n (so also with a glob): the later scales start from the
      first n estimates of the scale before. *)
  Theorem c14_first_n_trained_partial : forall n group batch fs tr final,
    faithful -> changes_keep_coordinates place feature fs ->
    (forall im, In im batch -> n <= length (generated_bb_func im)) ->
    loop n group 0 fs 0 batch None = Ok (tr, final) ->
    chain (continues_first place n) tr.
  Proof.
    intros n group batch fs tr final [F1 F2 F3] K N L. destruct fs as [|f fs]; [injection L as <- <-; exact I|].
    eapply Proofs.Perturb.flow; eauto. apply kept_of_changes; auto.
  Qed.

  (** The shapes of the first scale: one per generated box of the image. *)
  Theorem c14_first_scale : forall n group batch f fs tr final,
    loop n group 0 (f :: fs) 0 batch None = Ok (tr, final) ->
    exists imgs cur est rest, tr = (imgs, cur, est) :: rest /\ length cur = length imgs /\
      forall i im cs, nth_error imgs i = Some im -> nth_error cur i = Some cs ->
        length cs = length (generated_bb_func im) /\
        forall k bb, nth_error (generated_bb_func im) k = Some bb ->
          exists s, align bb = Ok s /\ nth_error cs k = Some s.
  Proof.
    intros n group batch f fs tr final H. apply Proofs.Perturb.loop_inv in H.
    destruct H as (g' & sc & gts & cur & est & _ & _ & _ & E4 & _ & H). cbn [Nat.eqb] in E4.
    apply Proofs.Result.mapM_inv in E4. destruct E4 as [L4 E4].
    exists (map fst sc), cur, est. destruct fs as [|f' fs]; [destruct H as [-> _]; exists []|destruct H as (rest & -> & _); exists rest].
    all: split; [reflexivity|]; split; [exact L4|]; intros i im cs H1 H2; destruct (E4 i im H1) as (cs' & R & N);
      assert (cs' = cs) by congruence; subst cs'; apply Proofs.Result.mapM_inv in R; exact R.
  Qed.

  (** Without a glob the temporary groups are gone at the end: the images are as the boxes left them. *)
  Theorem c14_temporary_groups_removed : forall bounding_box constrain perturb_func matches images n group batch fs tr final,
    faithful -> fs <> [] ->
    (forall im, In im images -> generated_bb_func im = [] /\ no_temporary im) ->
    generate_perturbations_from_gt bounding_box constrain perturb_func matches images n group false = Ok batch ->
    loop n group 0 fs 0 batch None = Ok (tr, final) -> final = batch.
  Proof.
    intros bounding_box constrain perturb_func matches images n group batch fs tr final [F1 F2 F3] FN G B L.
    assert (N : forall im, In im batch -> length (generated_bb_func im) = n)
      by (eapply Proofs.Perturb.no_glob_count; eauto; intros im Hi; apply G; auto).
    destruct fs as [|f fs]; [congruence|].
    assert (ND : Forall (fun im => Proofs.Perturb.no_sdm (plms im)) batch).
    { apply Forall_forall. intros im' Hi k. apply In_nth_error in Hi. destruct Hi as [i Hi].
      unfold generate_perturbations_from_gt in B. cbn [bind Nat.eqb] in B. apply Proofs.Perturb.image_loop_spec in B.
      destruct B as [LB B]. destruct (Proofs.Perturb.nth_ex images i) as [im Him].
      { rewrite <- LB. apply nth_error_Some. congruence. }
      destruct (B i im im' Him Hi) as (_ & R & _). destruct (G im (nth_error_In _ _ Him)) as [_ NT].
      specialize (NT k). clear - R NT.
      assert (X : forall d : dict Sh, dict_get (sdm_key k) d =
                    dict_get (sdm_key k) (filter (fun kv => negb (prefix bb_prefix (fst kv))) d)).
      { induction d as [|[k' v'] d IH]; [reflexivity|]. cbn -[sdm_key bb_prefix prefix].
        destruct (String.eqb (sdm_key k) k') eqn:E.
        - apply String.eqb_eq in E. subst k'. cbn. rewrite String.eqb_refl. reflexivity.
        - destruct (prefix bb_prefix k'); cbn -[sdm_key bb_prefix prefix]; rewrite ?E; exact IH. }
      rewrite X, R, <- X. exact NT. }
    eapply Proofs.Perturb.clean_flow with (m := 0) (batch0 := batch); eauto; [lia|].
    clear. induction batch; constructor; auto. split; auto. exists []. cbn. rewrite app_nil_r. auto.
  Qed.
End C14.

(** *** A concrete world: coordinates are rationals, an image is known by its pixel size.  Feature 0 is
    no_op, feature 1 keeps the coordinates, feature 2 halves the resolution.  Scale 0 works at half
    resolution. *)
From Coq Require Import QArith Qcanon.
Local Open Scope nat_scope.
Definition qpx := Qc.
Definition rescale_by (f : Qc) (im : pimage Qc qpx) : pimage Qc qpx :=
  mkPImage (ppx im / f)%Qc (map (fun kv => (fst kv, snd kv * f)%Qc) (plms im)).
Definition qc (z : Z) : Qc := Q2Qc (inject_Z z).
Definition half : Qc := Q2Qc (1 # 2).
Definition w_feature (f : nat) (im : pimage Qc qpx) : res (pimage Qc qpx) :=
  Ok (if f =? 2 then rescale_by half im else im).
Definition w_scale (j : nat) (im : pimage Qc qpx) : res (pimage Qc qpx * Qc) :=
  Ok (if j =? 0 then (rescale_by half im, half) else (rescale_by 1 im, 1%Qc)).
Definition w_apply (t s : Qc) : Qc := (s / t)%Qc.
Definition w_train (j : nat) (imgs : list (pimage Qc qpx)) (gts : list Qc) (cur : list (list Qc)) : res (list (list Qc)) :=
  Ok (map (map (fun s => (s + 1)%Qc)) cur).
Definition w_place (p s : Qc) : Qc := (p * s)%Qc.

Lemma half_nz : half <> 0%Qc. Proof. discriminate. Qed.
Lemma one_nz : 1%Qc <> 0%Qc. Proof. discriminate. Qed.
Lemma rescale_carried f im : f <> 0%Qc -> carried w_place im (rescale_by f im).
Proof.
  intros Hf. unfold carried. destruct im as [p d]. cbn. induction d as [|[k v] d IH]; constructor; auto.
  split; [reflexivity|]. cbn. unfold w_place. field. exact Hf.
Qed.
Lemma rescale_place f im s : f <> 0%Qc -> w_place (ppx (rescale_by f im)) s = w_place (ppx im) (w_apply f s).
Proof. intros H. unfold w_place, w_apply, rescale_by. cbn [ppx]. field. exact H. Qed.
Lemma same_carried im : carried w_place im im.
Proof. unfold carried. induction (plms im); constructor; auto. Qed.
Lemma w_faithful : faithful_training w_place w_feature w_scale w_apply w_train.
Proof.
  constructor.
  - intros j im im' t. unfold w_scale. destruct (j =? 0); intros [= <- <-]; (split; [apply rescale_carried; discriminate|]);
      intros s; apply rescale_place; discriminate.
  - intros f im im'. unfold w_feature. intros [= <-]. destruct (f =? 2); [apply rescale_carried; discriminate|apply same_carried].
  - intros j imgs gts cur est [= <-]. rewrite map_map. apply map_ext. intros a. apply map_length.
Qed.
Lemma w_keeps fs : ~ In 2 fs -> changes_keep_coordinates w_place w_feature fs.
Proof.
  intros H i f f' H1 _ _ im im' [= <-] s. destruct (Nat.eqb_spec f 2) as [->|]; [|reflexivity].
  exfalso. apply H. eapply nth_error_In; eauto.
Qed.

Definition w_images : list (pimage Qc qpx) :=
  [mkPImage 1%Qc [("PTS"%string, qc 4); ("box_a"%string, qc 6)]; mkPImage 1%Qc [("PTS"%string, qc 8); ("box_a"%string, qc 6)]].
Definition w_generate := generate_perturbations_from_gt (Px := qpx) (fun s : Qc => s) (fun _ s => s)
                            (fun c g b => Ok (g + Q2Qc (inject_Z (Z.of_nat c)))%Qc) ex_matches w_images 2 "PTS".
Definition qnum (q : Qc) : Z * positive := (Qnum (this q), Qden (this q)).
(** number of shapes per scale and image *)
Definition shape_counts (tr : list (@scale_trace Qc qpx)) : list (list nat) := map (fun t => map (@length Qc) (snd (fst t))) tr.

Example c14_every_perturbation_trained_example :
  exists batch tr final, w_generate false = Ok batch /\
    scale_loop w_feature w_scale w_apply (fun b => Ok b) w_train 2 "PTS" 0 [1; 0; 0] 0 batch None = Ok (tr, final) /\
    shape_counts tr = [[2; 2]; [2; 2]; [2; 2]] /\ chain (continues w_place) tr /\ final = batch.
Proof.
  destruct (w_generate false) as [batch|] eqn:B; [|vm_compute in B; discriminate].
  destruct (scale_loop w_feature w_scale w_apply (fun b => Ok b) w_train 2 "PTS" 0 [1; 0; 0] 0 batch None) as [[tr final]|] eqn:L.
  2: { vm_compute in B. injection B as <-. vm_compute in L. discriminate. }
  exists batch, tr, final. split; auto. split; auto.
  assert (G : forall im, In im w_images -> generated_bb_func im = [] /\ no_temporary im).
  { intros im [<-|[<-|[]]]; (split; [reflexivity|]); intros k; unfold sdm_key, numbered_key, sdm_prefix; cbn; reflexivity. }
  split; [|split].
  - vm_compute in B. injection B as <-. vm_compute in L. injection L as <- _. vm_compute. reflexivity.
  - eapply c14_every_perturbation_trained_partial with (images := w_images); eauto using w_faithful.
    + apply w_keeps. intros [H|[H|[H|[]]]]; discriminate.
    + intros im Hi. apply G; auto.
  - eapply c14_temporary_groups_removed with (images := w_images); eauto using w_faithful. discriminate.
Qed.

(** With a glob (one provided box, two perturbations: three shapes per image) the later scales train from
    two shapes per image only: the provided box, and every box after the first two, takes no part. *)
Theorem c14_provided_boxes_dropped_refuted :
  exists batch tr final, w_generate true = Ok batch /\
    scale_loop w_feature w_scale w_apply (fun b => Ok b) w_train 2 "PTS" 0 [0; 0] 0 batch None = Ok (tr, final) /\
    shape_counts tr = [[3; 3]; [2; 2]] /\ ~ chain (continues w_place) tr.
Proof.
  destruct (w_generate true) as [batch|] eqn:B; [|vm_compute in B; discriminate].
  destruct (scale_loop w_feature w_scale w_apply (fun b => Ok b) w_train 2 "PTS" 0 [0; 0] 0 batch None) as [[tr final]|] eqn:L.
  2: { vm_compute in B. injection B as <-. vm_compute in L. discriminate. }
  exists batch, tr, final. split; auto. split; auto.
  assert (S : shape_counts tr = [[3; 3]; [2; 2]])
    by (vm_compute in B; injection B as <-; vm_compute in L; injection L as <- _; vm_compute; reflexivity).
  split; [exact S|]. intros C. clear - S C L.
  pose proof (ft_train _ _ _ _ _ w_faithful) as FT.
  destruct tr as [|[[i0 c0] e0] [|[[i1 c1] e1] [|? ?]]]; try discriminate. destruct C as [(L1 & L2 & L3 & C) _].
  injection S as S0 S1. destruct c1 as [|c [|? [|? ?]]]; try discriminate. injection S1 as S1 _.
  apply Proofs.Perturb.loop_inv in L. destruct L as (g' & sc & gts & cur & est & _ & _ & _ & _ & TR & rest & TE & _).
  injection TE as -> -> -> _. apply FT in TR. rewrite S0 in TR.
  destruct est as [|e [|? [|? ?]]]; try discriminate. injection TR as TR _.
  destruct (map fst sc) as [|m0 ?]; [discriminate|]. destruct i1 as [|m1 ?]; [discriminate|].
  specialize (C 0 m0 m1 e c eq_refl eq_refl eq_refl eq_refl). apply (f_equal (@length Qc)) in C. rewrite !map_length in C. lia.
Qed.

(** When the features change after a scale whose features changed the coordinates, the estimates are
    attached to the training images in the coordinates of the feature images: the next scale starts from
    other places (here 13/2 against 13). *)
Theorem c14_feature_change_refuted :
  exists im1 im2 s2 tr final,
    scale_loop w_feature w_scale w_apply (fun b => Ok b) w_train 1 "PTS" 0 [2; 0] 0
      [mkPImage 1%Qc [("PTS"%string, qc 10); (numbered_key bb_prefix 0, qc 9)]] None = Ok (tr, final) /\
    tr = [im1; im2] /\ snd (fst im2) = [[s2]] /\
    ~ chain (continues w_place) tr.
Proof.
  destruct (scale_loop w_feature w_scale w_apply (fun b => Ok b) w_train 1 "PTS" 0 [2; 0] 0
      [mkPImage 1%Qc [("PTS"%string, qc 10); (numbered_key bb_prefix 0, qc 9)]] None) as [[tr final]|] eqn:L;
    [|vm_compute in L; discriminate].
  vm_compute in L. injection L as <- <-. eexists _, _, _, _, _. split; [reflexivity|]. split; [reflexivity|]. split; [reflexivity|].
  intros [(_ & _ & _ & C) _]. specialize (C 0 _ _ _ _ eq_refl eq_refl eq_refl eq_refl). vm_compute in C. discriminate C.
Qed.

Print Assumptions c14_every_perturbation_trained_partial.
Print Assumptions c14_first_n_trained_partial.
Print Assumptions c14_first_scale.
Print Assumptions c14_temporary_groups_removed.
Print Assumptions c14_provided_boxes_dropped_refuted.
Print Assumptions c14_feature_change_refuted.
