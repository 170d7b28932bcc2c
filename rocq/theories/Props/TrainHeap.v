(** C97: training leaves the image objects it is given as they were. *)
From Coq Require Import String List Arith Bool Lia.
From Verif.Model Require Import Py Dict Result Perturb TrainHeap.
From Verif.Spec Require Import TrainHeap.
From Verif.Proofs Require Dict Perturb TrainHeap.
Import ListNotations.
Local Open Scope nat_scope.

Section C97.
  Context {Sh Px Tr : Type}.
  Notation img := (pimage Sh Px).
  Variable bounding_box : Sh -> Sh.
  Variable constrain : Px -> Sh -> Sh.
  Variable perturb_func : nat -> Sh -> Sh -> res Sh.
  Variable matches : string -> bool.
  Variable mean_ref : list Sh -> res Sh.
  Variable rescale_to : option string -> Sh -> img -> res img.
  Variable feature : nat -> img -> res (option img).
  Variable is_one : nat -> bool.
  Variable rescale : nat -> img -> res (img * Tr).
  Variable identity : Tr.
  Variable tapply : Tr -> Sh -> Sh.
  Variable align : Sh -> Sh -> res Sh.
  Variable train : nat -> list img -> list Sh -> list (list Sh) -> res (list (list Sh)).
  Variable learn : nat -> list img -> list Sh -> res unit.

  (** Supervised descent: whether it returns or raises, and wherever. *)
  Theorem c97_sdm n_pert reference glob group fs images (h : list img) :
    untouched h (fst (sdm_train bounding_box constrain perturb_func matches mean_ref rescale_to feature is_one rescale identity
                        tapply align train n_pert reference glob group fs images h)).
  Proof. eapply Proofs.TrainHeap.keeps_untouched. apply Proofs.TrainHeap.keeps_sdm. Qed.

  (** AAM, CLM, APS and the unified model, all batches, and [increment]. *)
  Theorem c97_models group reference fs batches (h : list img) :
    untouched h (fst (model_train mean_ref rescale_to feature is_one rescale identity learn group reference fs batches h)).
  Proof. eapply Proofs.TrainHeap.keeps_untouched. apply Proofs.TrainHeap.keeps_model. Qed.

  (** The ATM and its template. *)
  Theorem c97_atm group reference fs template batches (h : list img) :
    untouched h (fst (atm_train mean_ref rescale_to feature is_one rescale identity learn group reference fs template batches h)).
  Proof. eapply Proofs.TrainHeap.keeps_untouched. apply Proofs.TrainHeap.keeps_atm. Qed.

  (** *** DlibERT writes a group on the caller's own images and deletes it again. *)
  Notation dlib_run := (dlib_train bounding_box constrain perturb_func matches mean_ref rescale_to is_one rescale identity tapply train).

  (** When training returns. *)
  Theorem c97_dlib_partial n_pert reference glob group n_scales images (h h' : list img) :
    NoDup images -> (forall a, In a images -> a < length h) ->
    (forall a im, In a images -> nth_error h a = Some im -> dict_get "__gt_bb" (plms im) = None) ->
    dlib_run n_pert reference glob group n_scales images h = (h', Ok tt) -> untouched h h'.
  Proof.
    intros ND HL HN E. unfold dlib_train in E. unfold bindM at 1 in E.
    match type of E with (let (_, _) := ?m h in _) = _ => set (c := m h) in E end.
    assert (Hc : fst c = h).
    { unfold c. destruct group; [reflexivity|]. unfold bindM, lift, read. destruct (nth_res images 0) as [a|]; [|reflexivity].
      destruct (nth_error h a) as [im|]; [|reflexivity]. now destruct (nth_res (plms im) 0). }
    destruct c as [h0 [g|e]]; [|discriminate E]. cbn in Hc. subst h0.
    unfold bindM at 1 in E. destruct (dlib_mark bounding_box g images h) as [h1 [[]|e]] eqn:E1; [|discriminate E].
    unfold bindM at 1 in E. destruct (dlib_prepare mean_ref rescale_to reference images h1) as [h2 [batch|e]] eqn:E2; [|discriminate E].
    unfold bindM at 1 in E. destruct (dlib_unmark (combine images batch) h2) as [h3 [[]|e]] eqn:E3; [|discriminate E].
    destruct (Proofs.TrainHeap.restored bounding_box mean_ref rescale_to g reference images h h1 h2 h3 batch) as (L & F & R); auto.
    { apply Forall_forall. exact HL. }
    match type of E with ?m h3 = _ => assert (K : Proofs.TrainHeap.keeps (length h) m (fun _ => True)) end.
    { eapply Proofs.TrainHeap.keeps_bind; [now apply Proofs.TrainHeap.keeps_generate|]. intros. now apply Proofs.TrainHeap.keeps_dlib_scales. }
    specialize (K h3 L). rewrite E in K. destruct K as (_ & K & _). intros a Ha. rewrite K by exact Ha. now apply R.
  Qed.

  (** When training raises later than the preparation of the images: in the perturbations or at any scale. *)
  Theorem c97_dlib_late_partial n_pert reference glob g n_scales images (h : list img) :
    NoDup images ->
    (forall a, In a images -> exists im s, nth_error h a = Some im /\ dict_get g (plms im) = Some s /\ dict_get "__gt_bb" (plms im) = None) ->
    (forall l, exists s, mean_ref l = Ok s) ->
    (forall ref im, dict_get "__gt_bb" (plms im) <> None ->
       exists im', rescale_to (Some "__gt_bb"%string) ref im = Ok im' /\ dict_get "__gt_bb" (plms im') <> None) ->
    untouched h (fst (dlib_run n_pert reference glob (Some g) n_scales images h)).
  Proof.
    intros ND H HM HR.
    destruct (Proofs.TrainHeap.prephase_ok bounding_box mean_ref rescale_to HM HR g reference images h ND) as (h1 & h2 & h3 & batch & E1 & E2 & E3).
    { intros a Ha. destruct (H a Ha) as (im & s & Ea & Eg & _). exists im, s. split; [exact Ea|]. unfold dict_at. now rewrite Eg. }
    destruct (Proofs.TrainHeap.restored bounding_box mean_ref rescale_to g reference images h h1 h2 h3 batch) as (L & F & R); auto.
    { apply Forall_forall. intros a Ha. destruct (H a Ha) as (im & s & Ea & _). apply nth_error_Some. congruence. }
    { intros a im Ha Ea. destruct (H a Ha) as (im' & s & Ea' & _ & N). rewrite Ea in Ea'. injection Ea' as ->. exact N. }
    unfold dlib_train. unfold bindM at 1. cbn [ret]. unfold bindM at 1. rewrite E1. unfold bindM at 1. rewrite E2. unfold bindM at 1. rewrite E3.
    match goal with |- untouched h (fst (?m h3)) => assert (K : Proofs.TrainHeap.keeps (length h) m (fun _ => True)) end.
    { eapply Proofs.TrainHeap.keeps_bind; [now apply Proofs.TrainHeap.keeps_generate|]. intros. now apply Proofs.TrainHeap.keeps_dlib_scales. }
    specialize (K h3 L). match goal with |- context [fst ?p] => destruct p as [h' r] end. destruct K as (_ & K & _).
    intros a Ha. cbn. rewrite K by exact Ha. now apply R.
  Qed.

  (** An image that cannot be rescaled: training raises, and every image keeps the temporary group. *)
  Theorem c97_dlib_rescale_refuted n_pert reference glob g n_scales images (h : list img) :
    NoDup images ->
    (forall a, In a images -> exists im s, nth_error h a = Some im /\ dict_get g (plms im) = Some s) ->
    (exists a im s, In a images /\ nth_error h a = Some im /\ dict_get g (plms im) = Some s /\
       forall ref, exists e, rescale_to (Some "__gt_bb"%string) ref (mkPImage (ppx im) (dict_set "__gt_bb" (bounding_box s) (plms im))) = Err e) ->
    exists h' e, dlib_run n_pert reference glob (Some g) n_scales images h = (h', Err e) /\
      forall a, In a images -> exists im' s', nth_error h' a = Some im' /\ dict_get "__gt_bb" (plms im') = Some s'.
  Proof.
    intros ND H (a & im & s & Hin & Ea & Eg & Hf).
    destruct (Proofs.TrainHeap.mark_ok bounding_box g images h ND) as (h1 & E1).
    { intros b Hb. destruct (H b Hb) as (imb & sb & Eb & Gb). exists imb, sb. split; [exact Eb|]. unfold dict_at. now rewrite Gb. }
    assert (FL : Forall (fun a => a < length h) images).
    { apply Forall_forall. intros b Hb. destruct (H b Hb) as (imb & sb & Eb & _). apply nth_error_Some. congruence. }
    destruct (Proofs.TrainHeap.mark_run bounding_box g images h ND FL h1 E1) as (L1 & _ & Hi).
    destruct (Hi a Hin) as (im0 & im1 & X0 & X1 & s0 & Xs & ->). rewrite Ea in X0. injection X0 as <-.
    unfold dict_at in Xs. rewrite Eg in Xs. injection Xs as <-.
    destruct (Proofs.TrainHeap.prepare_fails mean_ref rescale_to reference a _ images h1 Hf Hin X1) as (h2 & e & E2).
    exists h2, e. split.
    - unfold dlib_train. unfold bindM at 1. cbn [ret]. unfold bindM at 1. rewrite E1. unfold bindM at 1. now rewrite E2.
    - intros b Hb. destruct (Hi b Hb) as (imb & imb' & Y0 & Y1 & sb & Ys & ->).
      pose proof (Proofs.TrainHeap.keeps_prepare mean_ref rescale_to (length h1) reference images h1 (le_n _)) as K. rewrite E2 in K.
      destruct K as (_ & K & _). eexists. exists (bounding_box sb). split.
      + rewrite K; [exact Y1|]. apply nth_error_Some. congruence.
      + cbn. apply Proofs.Dict.get_set_same.
  Qed.

  (** An image without the ground truth group: training raises, and the images before it keep the temporary group. *)
  Theorem c97_dlib_group_refuted n_pert reference glob g n_scales before a after (h : list img) im :
    NoDup before ->
    (forall b, In b before -> b <> a /\ exists im s, nth_error h b = Some im /\ dict_get g (plms im) = Some s) ->
    nth_error h a = Some im -> dict_get g (plms im) = None ->
    exists h', dlib_run n_pert reference glob (Some g) n_scales (before ++ a :: after) h = (h', Err KeyError) /\
      forall b, In b before -> exists im' s', nth_error h' b = Some im' /\ dict_get "__gt_bb" (plms im') = Some s'.
  Proof.
    intros ND H Ea Eg.
    destruct (Proofs.TrainHeap.mark_ok bounding_box g before h ND) as (h1 & E1).
    { intros b Hb. destruct (H b Hb) as (_ & imb & sb & Eb & Gb). exists imb, sb. split; [exact Eb|]. unfold dict_at. now rewrite Gb. }
    assert (FL : Forall (fun a => a < length h) before).
    { apply Forall_forall. intros b Hb. destruct (H b Hb) as (_ & imb & sb & Eb & _). apply nth_error_Some. congruence. }
    destruct (Proofs.TrainHeap.mark_run bounding_box g before h ND FL h1 E1) as (L1 & Ho & Hi).
    exists h1. split.
    - unfold dlib_train. unfold bindM at 1. cbn [ret]. unfold bindM at 1.
      rewrite (Proofs.TrainHeap.mark_app bounding_box g before (a :: after) h h1 E1).
      rewrite (Proofs.TrainHeap.mark_missing bounding_box g a after h1 im); [reflexivity| |exact Eg].
      rewrite Ho; [exact Ea|]. intros X. now destruct (H a X).
    - intros b Hb. destruct (Hi b Hb) as (imb & imb' & Y0 & Y1 & sb & Ys & ->). eexists. exists (bounding_box sb). split; [exact Y1|].
      cbn. apply Proofs.Dict.get_set_same.
  Qed.

  (** A list that holds the same image object twice: training never returns. *)
  Theorem c97_dlib_twice_refuted n_pert reference glob group n_scales images (h h' : list img) :
    ~ NoDup images -> (forall a im, nth_error h a = Some im -> NoDup (map fst (plms im))) ->
    (forall g ref im im', rescale_to g ref im = Ok im' -> NoDup (map fst (plms im)) -> NoDup (map fst (plms im'))) ->
    dlib_run n_pert reference glob group n_scales images h <> (h', Ok tt).
  Proof.
    intros ND HK HR E. unfold dlib_train in E. unfold bindM at 1 in E.
    match type of E with (let (_, _) := ?m h in _) = _ => set (c := m h) in E end.
    assert (Hc : fst c = h).
    { unfold c. destruct group; [reflexivity|]. unfold bindM, lift, read. destruct (nth_res images 0) as [a|]; [|reflexivity].
      destruct (nth_error h a) as [im|]; [|reflexivity]. now destruct (nth_res (plms im) 0). }
    destruct c as [h0 [g|e]]; [|discriminate E]. cbn in Hc. subst h0.
    unfold bindM at 1 in E. destruct (dlib_mark bounding_box g images h) as [h1 [[]|e]] eqn:E1; [|discriminate E].
    unfold bindM at 1 in E. destruct (dlib_prepare mean_ref rescale_to reference images h1) as [h2 [batch|e]] eqn:E2; [|discriminate E].
    unfold bindM at 1 in E. destruct (dlib_unmark (combine images batch) h2) as [h3 [[]|e]] eqn:E3; [|discriminate E].
    eapply (Proofs.TrainHeap.unmark_twice (combine images batch) h2); [| |exact E3].
    - eapply Proofs.TrainHeap.prepare_keys; [exact HR| |exact E2]. eapply Proofs.TrainHeap.mark_keys; [exact HK|exact E1].
    - rewrite Proofs.TrainHeap.map_fst_combine; [exact ND|]. eapply Proofs.TrainHeap.prepare_length. exact E2.
  Qed.
End C97.

(** Attaching estimates to images and reading them again hands them over: every image gets its own estimates, in their order,
    carried to its frame by its own transform, whatever groups it had; its pixels, its other groups and the other images stay. *)
Section Handover.
  Context {Sh Px Tr : Type}.
  Notation img := (pimage Sh Px).
  Variable tapply : Tr -> Sh -> Sh.
  Lemma attach_shapes_run prefix a t ss : forall k (h : list img), a < length h ->
    exists h', attach_shapes tapply prefix a t k ss h = (h', Ok tt) /\ length h' = length h /\
      (forall b, b <> a -> nth_error h' b = nth_error h b) /\
      exists im im', nth_error h a = Some im /\ nth_error h' a = Some im' /\ ppx im' = ppx im /\
        (forall i s, nth_error ss i = Some s -> dict_get (numbered_key prefix (k + i)) (plms im') = Some (tapply t s)) /\
        (forall g, (forall i, k <= i < k + length ss -> g <> numbered_key prefix i) -> dict_get g (plms im') = dict_get g (plms im)).
  Proof.
    induction ss as [|s r IH]; intros k h L; destruct (Proofs.TrainHeap.alloc_some h a L) as [im E].
    - exists h. split; [reflexivity|]. split; [reflexivity|]. split; [reflexivity|]. exists im, im.
      repeat split; auto. intros [|i] s H; discriminate.
    - set (im1 := mkPImage (ppx im) (dict_set (numbered_key prefix k) (tapply t s) (plms im))).
      destruct (IH (S k) (replace a im1 h)) as (h' & R & L' & O & im0 & im' & E0 & E' & P & G & X).
      { now rewrite Proofs.TrainHeap.replace_length. }
      rewrite (Proofs.TrainHeap.replace_same a im1 h L) in E0. injection E0 as E0.
      exists h'. split.
      { cbn [attach_shapes]. unfold bindM. rewrite (Proofs.TrainHeap.run_set h a _ _ im E). exact R. }
      split. { now rewrite L', Proofs.TrainHeap.replace_length. }
      split. { intros b B. rewrite (O b B). apply Proofs.TrainHeap.replace_other. auto. }
      exists im, im'. split; [exact E|]. split; [exact E'|]. split; [now rewrite P, <- E0|]. split.
      + intros [|i] s' H; cbn in H.
        * injection H as <-. rewrite Nat.add_0_r, X, <- E0; [apply Proofs.Dict.get_set_same|].
          intros i Hi K. apply Proofs.Perturb.key_inj in K. lia.
        * rewrite <- plus_n_Sm. exact (G i s' H).
      + intros g N. cbn [length] in N. rewrite X, <- E0.
        * apply Proofs.Dict.get_set_other. apply N. lia.
        * intros i Hi. apply N. lia.
  Qed.
  Lemma each_get l a im (f : nat -> string) (v : nat -> Sh) (h : list img) : nth_error h a = Some im ->
    (forall i, In i l -> dict_get (f i) (plms im) = Some (v i)) -> each (fun k => get_lm (Some (f k)) a) l h = (h, Ok (map v l)).
  Proof.
    intros E. induction l as [|i l IH]; intros H; [reflexivity|]. cbn [each]. unfold bindM at 1.
    rewrite (Proofs.TrainHeap.run_get h (f i) a im E). unfold dict_at. rewrite (H i (or_introl eq_refl)).
    unfold bindM. rewrite IH; [reflexivity|]. intros j J. apply H. now right.
  Qed.
  Lemma map_nth_seq A B (f : A -> B) d ss : map (fun i => f (nth i ss d)) (seq 0 (length ss)) = map f ss.
  Proof.
    induction ss as [|s r IH]; [reflexivity|]. cbn [length seq map nth]. f_equal. rewrite <- seq_shift, map_map. exact IH.
  Qed.
  Theorem c14_handover prefix images : forall ts shapes (h : list img),
    NoDup images -> Forall (fun a => a < length h) images -> length ts = length images -> length shapes = length images ->
    exists h', attach tapply prefix images ts shapes h = (h', Ok tt) /\ length h' = length h /\
      (forall b, ~ In b images -> nth_error h' b = nth_error h b) /\
      forall i a t ss, nth_error images i = Some a -> nth_error ts i = Some t -> nth_error shapes i = Some ss ->
        read_shapes prefix (length ss) a h' = (h', Ok (map (tapply t) ss)) /\
        exists im im', nth_error h a = Some im /\ nth_error h' a = Some im' /\ ppx im' = ppx im /\
          forall g, (forall j, j < length ss -> g <> numbered_key prefix j) -> dict_get g (plms im') = dict_get g (plms im).
  Proof.
    induction images as [|a images IH]; intros ts shapes h N L T S.
    - exists h. repeat split; auto; destruct i; discriminate.
    - destruct ts as [|t ts]; [discriminate|]. destruct shapes as [|ss shapes]; [discriminate|].
      inversion N as [|x y Na N']; subst x y. inversion L as [|x y La L']; subst x y.
      destruct (attach_shapes_run prefix a t ss 0 h La) as (h1 & R1 & L1 & O1 & im & im1 & E & E1 & P & G & X).
      destruct (IH ts shapes h1 N') as (h' & R' & L2 & O2 & All); [now rewrite L1|now injection T|now injection S|].
      exists h'. split. { cbn [attach]. unfold bindM at 1. rewrite R1. exact R'. }
      split; [now rewrite L2|]. split.
      { intros b B. rewrite O2, O1; auto; intros ?; apply B; [left|right]; auto. }
      intros [|i] a' t' ss' A T' S'; cbn in A, T', S'.
      + injection A as <-. injection T' as <-. injection S' as <-. rewrite <- (O2 a Na) in E1. split.
        * destruct ss as [|s0 r]; [reflexivity|]. unfold read_shapes.
          rewrite <- (map_nth_seq _ _ (tapply t) s0). apply (each_get _ _ _ _ _ h' E1).
          intros i Hi. apply in_seq in Hi. apply (G i). apply nth_error_nth'. lia.
        * exists im, im1. repeat split; auto. intros g H. apply X. intros j J. apply H. lia.
      + destruct (All i a' t' ss' A T' S') as (Rd & im0 & im' & E0 & E' & P' & X'). split; [exact Rd|].
        exists im0, im'. rewrite O1 in E0; auto. intros ->. apply Na. exact (nth_error_In _ _ A).
  Qed.
End Handover.

(** *** A small world: shapes are numbers, an image is its width. *)
Definition h_rescale_to (group : option string) (ref : nat) (im : pimage nat nat) : res (pimage nat nat) :=
  if ppx im =? 0 then Err ValueError else Ok (mkPImage ref (plms im)).
Definition h_dlib (images : list nat) (h : list (pimage nat nat)) :=
  dlib_train (Tr := unit) (fun s => s + 100) (fun _ s => s) (fun c s _ => Ok (s + c)) (fun _ => false) (fun l => Ok (length l)) h_rescale_to
    (fun _ => true) (fun _ im => Ok (im, tt)) tt (fun _ s => s) (fun _ _ shapes boxes => Ok (map (map S) boxes))
    2 None false (Some "PTS"%string) 2 images h.
Definition h_world : list (pimage nat nat) :=
  [mkPImage 5 [("PTS"%string, 1)]; mkPImage 6 [("PTS"%string, 2); ("x"%string, 3)]; mkPImage 0 [("PTS"%string, 4)]; mkPImage 7 [("y"%string, 3)]].
(** Two images: training returns, having built two new images; the first four objects are as they were. *)
Example h_returns : let (h', r) := h_dlib [1; 0] h_world in
  r = Ok tt /\ firstn 4 h' = h_world /\ length h' = 6.
Proof. repeat split; reflexivity. Qed.
(** The image of width 0 cannot be rescaled: all three keep the group. *)
Example h_raises : let (h', r) := h_dlib [1; 0; 2] h_world in
  r = Err ValueError /\ map (fun im => dict_get "__gt_bb" (plms im)) (firstn 4 h') = [Some 101; Some 102; Some 104; None].
Proof. split; reflexivity. Qed.
(** The last image has no such group. *)
Example h_missing : let (h', r) := h_dlib [1; 0; 3] h_world in
  r = Err KeyError /\ map (fun im => dict_get "__gt_bb" (plms im)) h' = [Some 101; Some 102; None; None].
Proof. split; reflexivity. Qed.
(** The same image twice. *)
Example h_twice : snd (h_dlib [1; 0; 1] h_world) = Err KeyError.
Proof. reflexivity. Qed.
(** Supervised descent on the same images, raising at the last one, and returning. *)
Definition h_sdm (images : list nat) (h : list (pimage nat nat)) :=
  sdm_train (Tr := unit) (fun s => s + 100) (fun _ s => s) (fun c s _ => Ok (s + c)) (fun _ => false) (fun l => Ok (length l)) h_rescale_to
    (fun f im => Ok (if f =? 0 then None else Some im)) (fun j => j =? 1) (fun _ im => Ok (im, tt)) tt (fun _ s => s) (fun _ s => Ok s)
    (fun _ _ shapes boxes => Ok (map (map S) boxes)) 2 None false (Some "PTS"%string) [0; 0; 1] images h.
Example h_sdm_returns : let (h', r) := h_sdm [1; 0; 1] h_world in
  r = Ok tt /\ firstn 4 h' = h_world /\ length h' = 16.
Proof. repeat split; reflexivity. Qed.
Example h_sdm_raises : let (h', r) := h_sdm [1; 0; 2] h_world in
  r = Err ValueError /\ firstn 4 h' = h_world /\ length h' = 6.
Proof. repeat split; reflexivity. Qed.
(** Two images, two estimates each, transforms that add 10 and 20; one image already has a group of that name. *)
Definition h_before : list (pimage nat nat) := [mkPImage 5 [("PTS"%string, 1)]; mkPImage 6 [("b1"%string, 2)]; mkPImage 7 []].
Example handover_ex : let (h', r) := attach Nat.add "b" [1; 0] [10; 20] [[1; 2]; [3; 4]] h_before in
  r = Ok tt /\ snd (read_shapes "b" 2 1 h') = Ok [11; 12] /\ snd (read_shapes "b" 2 0 h') = Ok [23; 24] /\
  nth_error h' 2 = Some (mkPImage 7 []).
Proof. repeat split; reflexivity. Qed.

Print Assumptions c14_handover.
Print Assumptions c97_sdm.
Print Assumptions c97_models.
Print Assumptions c97_atm.
Print Assumptions c97_dlib_partial.
Print Assumptions c97_dlib_late_partial.
Print Assumptions c97_dlib_rescale_refuted.
Print Assumptions c97_dlib_group_refuted.
Print Assumptions c97_dlib_twice_refuted.
