(** C43: dlib conversions.  C14: the boxes DlibERT trains from. *)
From Coq Require Import String List ZArith QArith Qcanon Bool Lia.
From Verif.Model Require Import Py Dict Result Perturb Dlib.
From Verif.Spec Require Import Perturb Dlib.
From Verif.Proofs Require Result Perturb Dlib.
From Verif.Props Require Perturb.
Import ListNotations.
Local Open Scope nat_scope.

(** Any non-empty point cloud: converting it to a dlib rectangle and back gives the box whose corners are the least and the
    greatest row and column without their fractional parts, rows and columns not exchanged. *)
Theorem c43_rect_round_trip : forall pts, pts <> [] ->
  exists r t l b rt, to_rect pts = Ok r /\
    least fst pts t /\ least snd pts l /\ greatest fst pts b /\ greatest snd pts rt /\
    (exists zt zl zb zr, truncates t zt /\ truncates l zl /\ truncates b zb /\ truncates rt zr /\
       from_rect r = box (int zt) (int zl) (int zb) (int zr)).
Proof.
  intros pts N. destruct (Proofs.Dlib.bounds_spec pts N) as (a & b & E & L1 & L2 & G1 & G2).
  unfold to_rect. rewrite E. cbn [bind]. eexists. exists (fst a), (snd a), (fst b), (snd b). split; [reflexivity|].
  do 4 (split; [assumption|]). exists (py_int (fst a)), (py_int (snd a)), (py_int (fst b)), (py_int (snd b)).
  do 4 (split; [apply Proofs.Dlib.py_int_truncates|]). reflexivity.
Qed.
(** These truncated corners are determined: the extreme values and the truncation are unique. *)
Theorem c43_truncation_unique : forall (pts : list (Qc * Qc)) f q q' z z', least f pts q -> least f pts q' -> truncates q z -> truncates q' z' -> z = z'.
Proof. intros pts f q q' z z' L L' T T'. rewrite (Proofs.Dlib.least_unique _ _ _ _ L' L) in T'. eapply Proofs.Dlib.truncates_unique; eauto. Qed.
(** Boxes with integral corners round trip exactly, also when the detection of a training example is made. *)
Theorem c43_integral_boxes : forall t l b r : Z, (t <= b)%Z -> (l <= r)%Z ->
  let bb := box (int t) (int l) (int b) (int r) in
  to_rect bb = Ok (Rect l t r b) /\ from_rect (Rect l t r b) = bb /\
  forall pts, exists parts, to_detection bb pts = Ok (Rect l t r b, parts).
Proof.
  intros t l b r H1 H2 bb.
  assert (X : bounds bb = Ok ((int t, int l), (int b, int r))).
  { destruct (Proofs.Dlib.bounds_spec bb ltac:(discriminate)) as ([a1 a2] & [b1 b2] & E & L1 & L2 & G1 & G2). cbn [fst snd] in *. rewrite E.
    assert (T : (int t <= int b)%Qc) by (apply Proofs.Dlib.of_int_le; exact H1). assert (L : (int l <= int r)%Qc) by (apply Proofs.Dlib.of_int_le; exact H2).
    repeat f_equal.
    - eapply Proofs.Dlib.least_unique; [exact L1|]. split; [eexists; split; [now left|reflexivity]|]. intros p P. cbn in P. intuition subst; cbn; auto using Qcle_refl.
    - eapply Proofs.Dlib.least_unique; [exact L2|]. split; [eexists; split; [now left|reflexivity]|]. intros p P. cbn in P. intuition subst; cbn; auto using Qcle_refl.
    - eapply Proofs.Dlib.greatest_unique; [exact G1|]. split; [eexists; split; [right; now left|reflexivity]|]. intros p P. cbn in P. intuition subst; cbn; auto using Qcle_refl.
    - eapply Proofs.Dlib.greatest_unique; [exact G2|]. split; [eexists; split; [right; right; now left|reflexivity]|]. intros p P. cbn in P. intuition subst; cbn; auto using Qcle_refl. }
  assert (Y : to_rect bb = Ok (Rect l t r b)).
  { unfold to_rect. rewrite X. cbn [bind fst snd]. change int with of_int. rewrite !Proofs.Dlib.py_int_of_int. reflexivity. }
  split; [exact Y|]. split; [reflexivity|]. intros pts. unfold to_detection, box_of. rewrite X. cbn [bind].
  change (bounding_box (int t, int l) (int b, int r)) with bb. rewrite Y. cbn [bind]. eexists. reflexivity.
Qed.
(** The parts of a detection give the points back in order, truncated; x and y are exchanged on the way out and on the way
    in. *)
Theorem c43_points : forall pts, pts <> [] ->
  exists pts', from_parts (to_parts pts) = Ok pts' /\
    Forall2 (fun p p' => exists zr zc, truncates (fst p) zr /\ truncates (snd p) zc /\ p' = (int zr, int zc)) pts pts'.
Proof.
  intros [|p pts] N; [congruence|]. eexists. split; [reflexivity|].
  assert (X : forall l : list (Qc * Qc), Forall2 (fun p p' => exists zr zc, truncates (fst p) zr /\ truncates (snd p) zc /\ p' = (int zr, int zc)) l
    (map (fun p => (of_int (snd p), of_int (fst p))) (to_parts l))).
  { induction l as [|q l IH]; cbn; constructor; auto. exists (py_int (fst q)), (py_int (snd q)). split; [apply Proofs.Dlib.py_int_truncates|].
    split; [apply Proofs.Dlib.py_int_truncates|]. reflexivity. }
  apply (X (p :: pts)).
Qed.
Theorem c43_integral_points : forall zs : list (Z * Z), zs <> [] ->
  from_parts (to_parts (map (fun z => (int (fst z), int (snd z))) zs)) = Ok (map (fun z => (int (fst z), int (snd z))) zs).
Proof.
  intros zs N. replace (to_parts (map (fun z => (int (fst z), int (snd z))) zs)) with (map (fun z : Z * Z => (snd z, fst z)) zs).
  - destruct zs as [|z zs]; [congruence|]. transitivity (Ok (map (fun p : Z * Z => (of_int (snd p), of_int (fst p))) (map (fun z : Z * Z => (snd z, fst z)) (z :: zs)))); [reflexivity|]. rewrite map_map. reflexivity.
  - unfold to_parts. rewrite map_map. apply map_ext. intros [a b]. cbn -[of_int]. change int with of_int. rewrite !Proofs.Dlib.py_int_of_int. reflexivity.
Qed.
(** The other way round nothing is lost at all. *)
Theorem c43_parts_kept : forall parts, parts <> [] -> exists pts, from_parts parts = Ok pts /\ to_parts pts = parts.
Proof.
  intros [|p parts] N; [congruence|]. eexists. split; [reflexivity|]. unfold to_parts. rewrite map_map. rewrite <- (map_id (p :: parts)) at 2.
  apply map_ext. intros [a b]. cbn [fst snd]. rewrite !Proofs.Dlib.py_int_of_int. reflexivity.
Qed.
(** No points: every conversion of a box raises. *)
Theorem c43_empty : to_rect [] = Err ValueError /\ box_of [] = Err ValueError /\ from_parts [] = Err ValueError.
Proof. auto. Qed.

Section Algorithm.
  Context {Px Mod : Type}.
  Variable tsp : list Px -> list (list (rect * list (Z * Z))) -> Mod.
  Variable predict : Mod -> Px -> rect -> list (Z * Z).
  (** Fitting: the final shape has the points of the model's prediction, in order and as (row, column); two starts whose boxes
      truncate to the same rectangle give the same result. *)
  Theorem c43_run : forall m px bb s, dlib_run predict m px bb = Ok s ->
    exists r, to_rect bb = Ok r /\ s = map (fun p => (int (snd p), int (fst p))) (predict m px r).
  Proof.
    intros m px bb s. unfold dlib_run. destruct (to_rect bb) as [r|]; [|discriminate]. cbn [bind]. intros H. exists r. split; [reflexivity|].
    destruct (predict m px r) as [|p ps]; [discriminate|]. injection H as <-. reflexivity.
  Qed.
  (** Training: what dlib is trained on.  For every box of every image one example, with the rectangle of that box and the
      landmarks of that image as (column, row) pairs. *)
  Theorem c43_train_examples : forall pixels gts boxes m boxes', dlib_train tsp predict pixels gts boxes = Ok (m, boxes') ->
    length gts = length boxes ->
    exists dets, m = tsp pixels dets /\ length dets = length boxes /\
    forall i bs gt ds, nth_error boxes i = Some bs -> nth_error gts i = Some gt -> nth_error dets i = Some ds ->
      length ds = length bs /\
      forall k bb d, nth_error bs k = Some bb -> nth_error ds k = Some d ->
        (exists sq, box_of bb = Ok sq /\ to_rect sq = Ok (fst d)) /\
        Forall2 (fun p xy => truncates (snd p) (fst xy) /\ truncates (fst p) (snd xy)) gt (snd d).
  Proof.
    intros pixels gts boxes m boxes' H G. unfold dlib_train in H.
    destruct (detections_of boxes gts) as [dets|] eqn:D; [|discriminate]. cbn [bind] in H.
    destruct (mapM _ (combine pixels dets)) as [bx|] eqn:B; [|discriminate]. cbn [bind] in H. injection H as <- _.
    exists dets. split; [reflexivity|]. unfold detections_of in D. apply Proofs.Result.mapM_inv in D. destruct D as [D1 D2].
    rewrite combine_length in D1. split; [lia|]. intros i bs gt ds Hb Hg Hd.
    assert (Hc : nth_error (combine boxes gts) i = Some (bs, gt)).
    { clear - Hb Hg. revert gts i Hb Hg. induction boxes as [|b l IH]; intros [|g gts] [|i]; cbn; try discriminate; try congruence. apply IH. }
    destruct (D2 i (bs, gt) Hc) as (ds' & E & Hd'). rewrite Hd in Hd'. injection Hd' as <-. cbn [fst snd] in E.
    apply Proofs.Result.mapM_inv in E. destruct E as [E1 E2]. split; [lia|]. intros k bb d Kb Kd.
    destruct (E2 k bb Kb) as (d' & T & Kd'). rewrite Kd in Kd'. injection Kd' as <-. unfold to_detection in T.
    destruct (box_of bb) as [sq|]; [|discriminate]. cbn [bind] in T. destruct (to_rect sq) as [r|] eqn:Er; [|discriminate]. cbn [bind] in T. injection T as <-.
    cbn [fst snd]. split; [exists sq; split; [reflexivity|exact Er]|].
    clear. induction gt as [|p gt IH]; cbn; constructor; auto. cbn [fst snd]. split; apply Proofs.Dlib.py_int_truncates.
  Qed.
  (** Training: the new box of every perturbation of every image is the box of the prediction made from its old one, on the
      pixels of its own image. *)
  Theorem c43_train_boxes : forall pixels gts boxes m boxes', dlib_train tsp predict pixels gts boxes = Ok (m, boxes') ->
    length pixels = length boxes -> length gts = length boxes ->
    length boxes' = length boxes /\
    forall i bs bs' px, nth_error boxes i = Some bs -> nth_error boxes' i = Some bs' -> nth_error pixels i = Some px ->
      length bs' = length bs /\
      forall k bb bb', nth_error bs k = Some bb -> nth_error bs' k = Some bb' ->
        exists sq r s, box_of bb = Ok sq /\ to_rect sq = Ok r /\ from_parts (predict m px r) = Ok s /\ box_of s = Ok bb'.
  Proof.
    intros pixels gts boxes m boxes' H P G. unfold dlib_train in H.
    destruct (detections_of boxes gts) as [dets|] eqn:D; [|discriminate]. cbn [bind] in H.
    destruct (mapM _ (combine pixels dets)) as [bx|] eqn:B; [|discriminate]. cbn [bind] in H. injection H as <- <-.
    unfold detections_of in D. apply Proofs.Result.mapM_inv in D. destruct D as [D1 D2]. apply Proofs.Result.mapM_inv in B. destruct B as [B1 B2].
    rewrite combine_length in D1, B1. split; [lia|]. intros i bs bs' px Hb Hb' Hp.
    destruct (Proofs.Perturb.nth_ex gts i) as [g Hg]; [apply Proofs.Perturb.nth_lt in Hb; lia|].
    destruct (D2 i (bs, g)) as (ds & DD & Hd); [apply Proofs.Perturb.nth_combine; auto|].
    destruct (B2 i (px, ds)) as (bs2 & BB & Hb2); [apply Proofs.Perturb.nth_combine; auto|]. cbn [fst snd] in *.
    assert (bs2 = bs') by congruence. subst bs2. apply Proofs.Result.mapM_inv in DD. destruct DD as [DL DD].
    apply Proofs.Result.mapM_inv in BB. destruct BB as [BL BB]. split; [lia|]. intros k bb bb' K K'.
    destruct (DD k bb K) as ([r parts] & T & KD). destruct (BB k (r, parts) KD) as (bb2 & NB & KB). assert (bb2 = bb') by congruence. subst bb2.
    unfold to_detection in T. destruct (box_of bb) as [sq|]; [|discriminate]. cbn [bind] in T. destruct (to_rect sq) as [r'|] eqn:R; [|discriminate].
    cbn [bind] in T. injection T as -> _. unfold next_box in NB. cbn [fst] in NB. destruct (from_parts (predict _ px r)) as [s|] eqn:FP; [|discriminate].
    cbn [bind] in NB. exists sq, r, s. auto.
  Qed.
End Algorithm.

Example c43_example : to_rect (box (Q2Qc (-7 # 2)) (Q2Qc (1 # 3)) (Q2Qc (9 # 2)) (Q2Qc (5 # 1))) = Ok (Rect 0 (-3) 5 4) /\
  to_parts [(Q2Qc (-7 # 2), Q2Qc (9 # 2))] = [(4, -3)%Z].
Proof. split; vm_compute; reflexivity. Qed.
Example c43_train_example : exists m b, dlib_train (Px := unit) (fun _ d => List.length d) (fun _ _ r => [(left r, top r); (5%Z, 7%Z)]) [tt] [[(0, 0)%Qc]] [[box 0 0 1 1]]
  = Ok (m, [[b]]) /\ List.length b = 4.
Proof. eexists. eexists. split; vm_compute; reflexivity. Qed.

Print Assumptions c43_rect_round_trip.
Print Assumptions c43_truncation_unique.
Print Assumptions c43_integral_boxes.
Print Assumptions c43_points.
Print Assumptions c43_integral_points.
Print Assumptions c43_parts_kept.
Print Assumptions c43_empty.
Print Assumptions c43_run.
Print Assumptions c43_train_examples.
Print Assumptions c43_train_boxes.

Section C14.
  Context {Sh Px Tr Scene : Type}.
  Notation img := (pimage Sh Px).
  Variable scale_image : nat -> img -> res (img * Tr).
  Variable tapply : Tr -> Sh -> Sh.
  Variable train : nat -> list img -> list Sh -> list (list Sh) -> res (list (list Sh)).
  Variable place : Px -> Sh -> Scene.
  Notation loop := (ert_loop scale_image tapply train).
  (** DlibERT without a box glob: every later scale starts, for every perturbation of every image, from the box that the scale
      before estimated. *)
  Theorem c14_dlib_every_perturbation : forall bounding_box constrain perturb_func matches images n group batch n_scales tr final,
    faithful_training place (fun _ im => Ok im) scale_image tapply train ->
    (forall im, In im images -> generated_bb_func im = []) ->
    generate_perturbations_from_gt bounding_box constrain perturb_func matches images n group false = Ok batch ->
    loop n group 0 n_scales batch = Ok (tr, final) ->
    length tr = n_scales /\ chain (continues place) tr /\
    Forall (fun t : scale_trace => Forall (fun cs => length cs = n) (snd (fst t)) /\ Forall (fun es => length es = n) (snd t)) tr.
  Proof.
    intros bounding_box constrain perturb_func matches images n group batch n_scales tr final F G B L.
    assert (N : forall im, In im batch -> length (generated_bb_func im) = n) by (eapply Proofs.Perturb.no_glob_count; eauto).
    split; [eapply Proofs.Dlib.loop_length; eauto|].
    destruct (Proofs.Dlib.flow scale_image tapply train place F n group n_scales batch tr final) as (C1 & C2 & C3); [intros im Hi; rewrite N; auto|exact L|].
    assert (C4 : Forall (fun t : scale_trace => Forall (fun cs => length cs = n) (snd (fst t))) tr).
    { destruct n_scales as [|k]; [injection L as <- <-; constructor|]. apply Proofs.Dlib.loop_inv in L.
      destruct L as (scaled & gts & cur & est & rest & E1 & E2 & _ & -> & _). constructor; [|exact C3]. cbn [Nat.eqb] in E2. injection E2 as <-.
      cbn [fst snd]. apply Forall_forall. intros cs Hc. apply in_map_iff in Hc. destruct Hc as [im [<- Hc]]. apply In_nth_error in Hc. destruct Hc as [i Hc].
      apply Proofs.Result.mapM_inv in E1. destruct E1 as [L1 N1]. rewrite nth_error_map in Hc. destruct (nth_error scaled i) as [[im1 t]|] eqn:S1; [|discriminate].
      injection Hc as <-. destruct (Proofs.Perturb.nth_ex batch i) as [b Hb]; [apply Proofs.Perturb.nth_lt in S1; lia|].
      destruct (N1 i b Hb) as ([im2 t2] & Q & S2). assert (E : (im2, t2) = (im1, t)) by congruence. injection E as -> ->.
      cbn [fst]. rewrite <- (Proofs.Perturb.carried_generated place _ _ (proj1 (ft_scale _ _ _ _ _ F _ _ _ _ Q))). apply N. eapply nth_error_In; eauto. }
    assert (C5 : Forall (fun t : scale_trace => Forall (fun es => length es = n) (snd t)) tr).
    { apply Forall_forall. intros t Ht. rewrite Forall_forall in C2, C4. specialize (C2 t Ht). specialize (C4 t Ht). eapply Proofs.Perturb.counts_eq; eauto. }
    split; [eapply Proofs.Perturb.first_to_all; eauto|]. apply Forall_forall. intros t Ht. rewrite Forall_forall in C4, C5. split; auto.
  Qed.
  (** Any number of boxes, at least n (so also with a glob): the later scales start from the first n of them only. *)
  Theorem c14_dlib_first_n_partial : forall images n group n_scales tr final,
    faithful_training place (fun _ im => Ok im) scale_image tapply train ->
    (forall im, In im images -> n <= length (generated_bb_func im)) ->
    loop n group 0 n_scales images = Ok (tr, final) ->
    chain (continues_first place n) tr /\ Forall (fun t : scale_trace => Forall (fun cs => length cs = n) (snd (fst t))) (tl tr).
  Proof.
    intros images n group n_scales tr final F N L. destruct (Proofs.Dlib.flow scale_image tapply train place F n group n_scales images tr final N L) as (C1 & _ & C3). auto.
  Qed.
End C14.
(** With a glob (one provided box, two perturbations) the provided box takes part in the first scale only. *)
Theorem c14_dlib_provided_boxes_dropped_refuted :
  exists batch tr final, Props.Perturb.w_generate true = Ok batch /\
    ert_loop Props.Perturb.w_scale Props.Perturb.w_apply Props.Perturb.w_train 2 "PTS" 0 2 batch = Ok (tr, final) /\
    Props.Perturb.shape_counts tr = [[3; 3]; [2; 2]].
Proof.
  destruct (Props.Perturb.w_generate true) as [batch|] eqn:B; [|vm_compute in B; discriminate].
  destruct (ert_loop Props.Perturb.w_scale Props.Perturb.w_apply Props.Perturb.w_train 2 "PTS" 0 2 batch) as [[tr final]|] eqn:L.
  2: { vm_compute in B. injection B as <-. vm_compute in L. discriminate. }
  exists batch, tr, final. split; auto. split; auto. vm_compute in B. injection B as <-. vm_compute in L. injection L as <- _. vm_compute. reflexivity.
Qed.
Example c14_dlib_example : exists batch tr final, Props.Perturb.w_generate false = Ok batch /\
    ert_loop Props.Perturb.w_scale Props.Perturb.w_apply Props.Perturb.w_train 2 "PTS" 0 3 batch = Ok (tr, final) /\
    faithful_training Props.Perturb.w_place (fun _ im => Ok im) Props.Perturb.w_scale Props.Perturb.w_apply Props.Perturb.w_train /\
    Props.Perturb.shape_counts tr = [[2; 2]; [2; 2]; [2; 2]].
Proof.
  destruct (Props.Perturb.w_generate false) as [batch|] eqn:B; [|vm_compute in B; discriminate].
  destruct (ert_loop Props.Perturb.w_scale Props.Perturb.w_apply Props.Perturb.w_train 2 "PTS" 0 3 batch) as [[tr final]|] eqn:L.
  2: { vm_compute in B. injection B as <-. vm_compute in L. discriminate. }
  exists batch, tr, final. split; auto. split; auto. split.
  - destruct Props.Perturb.w_faithful as [F1 F2 F3]. constructor; auto. intros f im im' [= <-]. apply Props.Perturb.same_carried.
  - vm_compute in B. injection B as <-. vm_compute in L. injection L as <- _. vm_compute. reflexivity.
Qed.
Print Assumptions c14_dlib_every_perturbation.
Print Assumptions c14_dlib_first_n_partial.
Print Assumptions c14_dlib_provided_boxes_dropped_refuted.
