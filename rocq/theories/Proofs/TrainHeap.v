From Coq Require Import String List Arith Bool Lia.
From Verif.Model Require Import Py Dict Result Perturb TrainHeap.
From Verif.Spec Require Import TrainHeap.
From Verif.Proofs Require Dict.
Import ListNotations.
Local Open Scope nat_scope.

Section Keeps.
  Context {Sh Px : Type}.
  Notation img := (pimage Sh Px).
  Notation M := (M Sh Px).
  Notation heap := (heap Sh Px).

  (** [keeps n m Q]: run on a heap with at least [n] objects, [m] does not change the first [n]; a value it returns has [Q]. *)
  Definition keeps (n : nat) {A} (m : M A) (Q : A -> Prop) : Prop :=
    forall h, n <= length h ->
      let (h', r) := m h in
      n <= length h' /\ (forall a, a < n -> nth_error h' a = nth_error h a) /\
      match r with Ok x => Q x | Err _ => True end.

  Lemma keeps_ret n A (x : A) (Q : A -> Prop) : Q x -> keeps n (ret x) Q.
  Proof. intros H h L. cbn. auto. Qed.
  Lemma keeps_lift n A (r : res A) (Q : A -> Prop) : (forall x, r = Ok x -> Q x) -> keeps n (lift r) Q.
  Proof. intros H h L. cbn. split; [exact L|]. split; [reflexivity|]. destruct r; auto. Qed.
  Lemma keeps_bind n A B (m : M A) (f : A -> M B) P Q :
    keeps n m P -> (forall x, P x -> keeps n (f x) Q) -> keeps n (bindM m f) Q.
  Proof.
    intros Hm Hf h L. unfold bindM. specialize (Hm h L). destruct (m h) as [h1 [x|e]].
    - destruct Hm as (L1 & E1 & Px1). specialize (Hf x Px1 h1 L1). destruct (f x h1) as [h2 r].
      destruct Hf as (L2 & E2 & HQ). split; [exact L2|]. split; [|exact HQ]. intros a Ha. rewrite E2, E1; auto.
    - destruct Hm as (L1 & E1 & _). auto.
  Qed.
  Lemma keeps_weaken n A (m : M A) (P Q : A -> Prop) : keeps n m P -> (forall x, P x -> Q x) -> keeps n m Q.
  Proof.
    intros Hm HPQ h L. specialize (Hm h L). destruct (m h) as [h1 [x|e]]; destruct Hm as (L1 & E1 & H); auto.
  Qed.
  Lemma keeps_read n a : keeps n (read a) (fun _ => True).
  Proof. intros h L. cbn. split; [exact L|]. split; [reflexivity|]. now destruct (nth_error h a). Qed.
  Lemma replace_length a (im : img) h : length (replace a im h) = length h.
  Proof. revert a. induction h as [|x h IH]; intros [|a]; cbn; auto. Qed.
  Lemma replace_other a (im : img) h b : a <> b -> nth_error (replace a im h) b = nth_error h b.
  Proof. revert a b. induction h as [|x h IH]; intros [|a] [|b] N; cbn; auto; try lia. Qed.
  Lemma replace_same a (im : img) h : a < length h -> nth_error (replace a im h) a = Some im.
  Proof. revert a. induction h as [|x h IH]; intros [|a] L; cbn in *; auto; try lia. apply IH. lia. Qed.
  Lemma keeps_write n a (im : img) : n <= a -> keeps n (write a im) (fun _ => True).
  Proof.
    intros H h L. cbn. rewrite replace_length. split; [exact L|]. split; [|exact I]. intros b Hb. apply replace_other. lia.
  Qed.
  Lemma keeps_alloc n (im : img) : keeps n (alloc im) (fun a => n <= a).
  Proof.
    intros h L. cbn. rewrite app_length. cbn. split; [lia|]. split; [|exact L].
    intros a Ha. apply nth_error_app1. lia.
  Qed.
  Lemma keeps_each n A B (f : A -> M B) (P : A -> Prop) (Q : B -> Prop) l :
    (forall x, P x -> keeps n (f x) Q) -> Forall P l -> keeps n (each f l) (Forall Q).
  Proof.
    intros Hf. induction 1 as [|x l Hx Hl IH]; cbn [each].
    - apply keeps_ret. constructor.
    - eapply keeps_bind; [apply Hf; exact Hx|]. intros y Hy.
      eapply keeps_bind; [exact IH|]. intros ys Hys. apply keeps_ret. now constructor.
  Qed.
  Lemma keeps_each_any n A B (f : A -> M B) l :
    (forall x, keeps n (f x) (fun _ => True)) -> keeps n (each f l) (fun _ => True).
  Proof.
    intros Hf. eapply keeps_weaken; [apply (keeps_each n A B f (fun _ => True) (fun _ => True) l)|auto].
    - intros x _. apply Hf.
    - apply Forall_forall. auto.
  Qed.

  Lemma keeps_untouched A (m : M A) Q h : keeps (length h) m Q -> untouched h (fst (m h)).
  Proof. intros H. specialize (H h (le_n _)). destruct (m h) as [h' r]. intros a Ha. now apply H. Qed.
End Keeps.

Section Train.
  Context {Sh Px Tr : Type}.
  Notation img := (pimage Sh Px).
  Notation M := (M Sh Px).
  Variable bounding_box : Sh -> Sh.
  Variable constrain : Px -> Sh -> Sh.
  Variable perturb_func : nat -> Sh -> Sh -> res Sh.
  Variable matches : string -> bool.
  Variable mean_ref : list Sh -> res Sh.
  Variable rescale_to : option string -> Sh -> img -> res img.
  Variable feature : nat -> img -> res (option img).
  Variable is_one : nat -> bool.
  Variable rescale : nat -> img -> res (img * Tr).
  Variable identity : Tr.
  Variable tapply : Tr -> Sh -> Sh.
  Variable align : Sh -> Sh -> res Sh.
  Variable train : nat -> list img -> list Sh -> list (list Sh) -> res (list (list Sh)).
  Variable learn : nat -> list img -> list Sh -> res unit.
  Variable n : nat.

  Notation fresh := (fun a => n <= a).
  Notation any := (fun _ => True).

  Lemma keeps_get group a : keeps n (@get_lm Sh Px group a) any.
  Proof. eapply keeps_bind; [apply keeps_read|]. intros. apply keeps_lift. auto. Qed.
  Lemma keeps_set a k (s : Sh) : n <= a -> keeps n (@set_lm Sh Px a k s) any.
  Proof. intros H. eapply keeps_bind; [apply keeps_read|]. intros. now apply keeps_write. Qed.
  Lemma keeps_del a k : n <= a -> keeps n (@del_lm Sh Px a k) any.
  Proof.
    intros H. eapply keeps_bind; [apply keeps_read|]. intros. eapply keeps_bind; [apply keeps_lift with (Q := any); auto|].
    intros. now apply keeps_write.
  Qed.
  Lemma keeps_rescale group ref images :
    keeps n (rescale_images_to_reference_shape rescale_to group ref images) (Forall fresh).
  Proof.
    apply (keeps_each n nat nat _ any fresh); [|apply Forall_forall; auto]. intros a _.
    eapply keeps_bind; [apply keeps_read|]. intros im _. eapply keeps_bind; [apply keeps_lift with (Q := any); auto|].
    intros. apply keeps_alloc.
  Qed.
  Lemma keeps_features f images : Forall fresh images -> keeps n (compute_features feature f images) (Forall fresh).
  Proof.
    intros F. apply (keeps_each n nat nat _ fresh fresh); [|exact F]. intros a Ha.
    eapply keeps_bind; [apply keeps_read|]. intros im _. eapply keeps_bind; [apply keeps_lift with (Q := any); auto|].
    intros [im'|] _; [apply keeps_alloc|now apply keeps_ret].
  Qed.
  Lemma keeps_scale j images : Forall fresh images ->
    keeps n (scale_images is_one rescale identity j images) (fun l => Forall fresh (map fst l)).
  Proof.
    intros F. unfold scale_images. destruct (is_one j).
    - apply keeps_ret. rewrite map_map, map_id. exact F.
    - eapply keeps_weaken; [apply (keeps_each n nat (nat * Tr) _ fresh (fun x => n <= fst x)); [|exact F]|].
      + intros a _. eapply keeps_bind; [apply keeps_read|]. intros im _.
        eapply keeps_bind; [apply keeps_lift with (Q := any); auto|]. intros [im' t] _.
        eapply keeps_bind; [apply keeps_alloc|]. intros a' Ha'. now apply keeps_ret.
      + intros l H. rewrite Forall_map. exact H.
  Qed.
  Lemma keeps_perturb_loop k0 a gt bb : n <= a -> forall c k, keeps n (perturb_loop bounding_box constrain perturb_func k0 a gt bb c k) any.
  Proof.
    intros Ha. induction k0 as [|k0 IH]; intros c k; cbn [perturb_loop]; [now apply keeps_ret|].
    eapply keeps_bind; [apply keeps_lift with (Q := any); auto|]. intros s _.
    eapply keeps_bind; [apply keeps_read|]. intros im _.
    eapply keeps_bind; [now apply keeps_set|]. intros _ _. apply IH.
  Qed.
  Lemma keeps_box_loop k0 glob a gt bbs : n <= a -> forall c k, keeps n (box_loop bounding_box constrain perturb_func k0 glob a gt bbs c k) any.
  Proof.
    intros Ha. induction bbs as [|bb bbs IH]; intros c k; cbn [box_loop]; [now apply keeps_ret|].
    eapply keeps_bind; [now apply keeps_perturb_loop|]. intros [c' k'] _. destruct glob; [|apply IH].
    eapply keeps_bind; [apply keeps_read|]. intros im _.
    eapply keeps_bind; [now apply keeps_set|]. intros _ _. apply IH.
  Qed.
  Lemma keeps_image_loop k0 glob group images : Forall fresh images -> forall c,
    keeps n (image_loop bounding_box constrain perturb_func matches k0 glob group images c) any.
  Proof.
    induction 1 as [|a l Ha Hl IH]; intros c; cbn [image_loop]; [now apply keeps_ret|].
    eapply keeps_bind; [apply keeps_get|]. intros gt _.
    eapply keeps_bind; [apply keeps_read|]. intros im _.
    eapply keeps_bind; [now apply keeps_box_loop|]. intros c' _. apply IH.
  Qed.
  Lemma keeps_generate images k0 group glob : Forall fresh images ->
    keeps n (generate_perturbations bounding_box constrain perturb_func matches images k0 group glob) any.
  Proof.
    intros F. unfold generate_perturbations. eapply keeps_bind with (P := any).
    - destruct glob; [|now apply keeps_ret]. eapply keeps_bind; [apply keeps_lift with (Q := any); auto|]. intros a _.
      eapply keeps_bind; [apply keeps_read|]. intros im _. now apply keeps_ret.
    - intros m _. destruct (m =? 0); [apply keeps_lift; auto|now apply keeps_image_loop].
  Qed.
  Lemma keeps_attach prefix images : Forall fresh images -> forall ts shapes, keeps n (@attach Sh Px Tr tapply prefix images ts shapes) any.
  Proof.
    induction 1 as [|a l Ha Hl IH]; intros ts shapes; cbn [attach]; [now apply keeps_ret|].
    destruct ts as [|t ts]; [now apply keeps_ret|]. destruct shapes as [|ss shapes]; [now apply keeps_ret|].
    eapply keeps_bind with (P := any); [|intros _ _; apply IH].
    generalize 0. induction ss as [|s ss IHs]; intros k; cbn [attach_shapes]; [now apply keeps_ret|].
    eapply keeps_bind; [now apply keeps_set|]. intros _ _. apply IHs.
  Qed.
  Lemma keeps_read_shapes prefix k a : keeps n (@read_shapes Sh Px prefix k a) any.
  Proof. apply keeps_each_any. intros. apply keeps_get. Qed.
  Lemma keeps_clean k batch : Forall fresh batch -> keeps n (@clean Sh Px k batch) any.
  Proof.
    intros F. eapply keeps_bind; [apply keeps_lift with (Q := any); auto|]. intros a _.
    eapply keeps_bind; [apply keeps_read|]. intros im _. destruct (dict_get _ _); [|now apply keeps_ret].
    eapply keeps_bind; [apply (keeps_each n nat (list unit) _ fresh any); [|exact F]|].
    - intros b Hb. apply keeps_each_any. intros. now apply keeps_del.
    - intros. now apply keeps_ret.
  Qed.
  Lemma keeps_feature_images s j f prev batch fimgs : Forall fresh batch -> Forall fresh fimgs ->
    keeps n (feature_images feature s j f prev batch fimgs) (Forall fresh).
  Proof.
    intros F1 F2. unfold feature_images. destruct (s && (j =? 0) && (f =? 0)); [now apply keeps_ret|].
    destruct ((j =? 0) || negb (f =? prev)); [now apply keeps_features|now apply keeps_ret].
  Qed.
  Lemma keeps_reads l : keeps n (each (@read Sh Px) l) any.
  Proof. apply keeps_each_any. intros. apply keeps_read. Qed.
  Lemma keeps_gets group l : keeps n (each (@get_lm Sh Px group) l) any.
  Proof. apply keeps_each_any. intros. apply keeps_get. Qed.

  Lemma keeps_sdm_scales k group ref fs : forall j prev batch fimgs, Forall fresh batch -> Forall fresh fimgs ->
    keeps n (sdm_scales feature is_one rescale identity tapply align train k group ref j fs prev batch fimgs) any.
  Proof.
    induction fs as [|f fs IH]; intros j prev batch fimgs F1 F2; cbn [sdm_scales]; [now apply keeps_ret|].
    eapply keeps_bind; [now apply keeps_feature_images|]. intros fimgs' F3.
    eapply keeps_bind; [now apply keeps_scale|]. intros scaled F4.
    eapply keeps_bind; [apply keeps_gets|]. intros shapes _.
    eapply keeps_bind with (P := any).
    { destruct (j =? 0); apply keeps_each_any; intros a.
      - eapply keeps_bind; [apply keeps_read|]. intros im _. apply keeps_lift. auto.
      - apply keeps_read_shapes. }
    intros cur _. eapply keeps_bind; [apply keeps_reads|]. intros ims _.
    eapply keeps_bind; [apply keeps_lift with (Q := any); auto|]. intros est _.
    eapply keeps_bind with (P := any).
    { destruct fs as [|f' fs']; [now apply keeps_clean|]. apply keeps_attach. now destruct (f' =? f). }
    intros _ _. now apply IH.
  Qed.
  Lemma keeps_sdm k ref glob group fs images :
    keeps n (sdm_train bounding_box constrain perturb_func matches mean_ref rescale_to feature is_one rescale identity tapply align train
               k ref glob group fs images) any.
  Proof.
    unfold sdm_train. eapply keeps_bind with (P := any).
    { destruct ref; [now apply keeps_ret|]. eapply keeps_bind; [apply keeps_gets|]. intros. apply keeps_lift. auto. }
    intros r _. eapply keeps_bind with (P := any).
    { destruct group; [now apply keeps_ret|]. eapply keeps_bind; [apply keeps_lift with (Q := any); auto|]. intros a _.
      eapply keeps_bind; [apply keeps_read|]. intros im _. eapply keeps_bind; [apply keeps_lift with (Q := any); auto|].
      intros. now apply keeps_ret. }
    intros g _. eapply keeps_bind; [apply keeps_rescale|]. intros batch F.
    eapply keeps_bind; [now apply keeps_generate|]. intros _ _. now apply keeps_sdm_scales.
  Qed.

  Lemma keeps_model_scales group fs : forall j prev batch fimgs, Forall fresh batch -> Forall fresh fimgs ->
    keeps n (model_scales feature is_one rescale identity learn group j fs prev batch fimgs) any.
  Proof.
    induction fs as [|f fs IH]; intros j prev batch fimgs F1 F2; cbn [model_scales]; [now apply keeps_ret|].
    eapply keeps_bind; [now apply keeps_feature_images|]. intros fimgs' F3.
    eapply keeps_bind; [now apply keeps_scale|]. intros scaled F4.
    eapply keeps_bind; [apply keeps_gets|]. intros shapes _.
    eapply keeps_bind; [apply keeps_reads|]. intros ims _.
    eapply keeps_bind; [apply keeps_lift with (Q := any); auto|]. intros _ _. now apply IH.
  Qed.
  Lemma keeps_model group ref fs batches :
    keeps n (model_train mean_ref rescale_to feature is_one rescale identity learn group ref fs batches) any.
  Proof.
    unfold model_train. destruct batches as [|b0 bs]; [now apply keeps_ret|]. eapply keeps_bind with (P := any).
    { destruct ref; [now apply keeps_ret|]. eapply keeps_bind; [apply keeps_gets|]. intros. apply keeps_lift. auto. }
    intros r _. eapply keeps_bind; [apply keeps_each_any|intros; now apply keeps_ret].
    intros b. eapply keeps_bind; [apply keeps_rescale|]. intros batch F. now apply keeps_model_scales.
  Qed.

  Lemma keeps_atm_scales shapes fs : forall j prev t fimgs, n <= t -> Forall fresh fimgs ->
    keeps n (atm_scales feature is_one rescale identity learn shapes j fs prev t fimgs) any.
  Proof.
    induction fs as [|f fs IH]; intros j prev t fimgs F1 F2; cbn [atm_scales]; [now apply keeps_ret|].
    eapply keeps_bind; [apply keeps_feature_images; auto|]. intros fimgs' F3.
    eapply keeps_bind; [now apply keeps_scale|]. intros scaled F4.
    eapply keeps_bind; [apply keeps_reads|]. intros ims _.
    eapply keeps_bind; [apply keeps_lift with (Q := any); auto|]. intros _ _. now apply IH.
  Qed.
  Lemma keeps_atm group ref fs template batches :
    keeps n (atm_train mean_ref rescale_to feature is_one rescale identity learn group ref fs template batches) any.
  Proof.
    unfold atm_train. destruct batches as [|b0 bs]; [now apply keeps_ret|]. eapply keeps_bind with (P := any).
    { destruct ref; [now apply keeps_ret|]. apply keeps_lift. auto. }
    intros r _. eapply keeps_bind; [apply keeps_read|]. intros im _.
    eapply keeps_bind; [apply keeps_lift with (Q := any); auto|]. intros im' _.
    eapply keeps_bind; [apply keeps_alloc|]. intros t Ht.
    eapply keeps_bind; [apply keeps_each_any|intros; now apply keeps_ret].
    intros b. apply keeps_atm_scales; auto.
  Qed.

  Lemma keeps_dlib_scales k group ns : forall j batch, Forall fresh batch ->
    keeps n (dlib_scales is_one rescale identity tapply train k group ns j batch) any.
  Proof.
    induction ns as [|ns IH]; intros j batch F1; cbn [dlib_scales]; [now apply keeps_ret|].
    eapply keeps_bind; [now apply keeps_scale|]. intros scaled F4.
    eapply keeps_bind with (P := any).
    { destruct (j =? 0); apply keeps_each_any; intros a.
      - eapply keeps_bind; [apply keeps_read|]. intros im _. now apply keeps_ret.
      - apply keeps_read_shapes. }
    intros cur _. eapply keeps_bind; [apply keeps_gets|]. intros shapes _.
    eapply keeps_bind; [apply keeps_reads|]. intros ims _.
    eapply keeps_bind; [apply keeps_lift with (Q := any); auto|]. intros est _.
    eapply keeps_bind with (P := any).
    { destruct ns; [now apply keeps_ret|now apply keeps_attach]. }
    intros _ _. now apply IH.
  Qed.
  Lemma keeps_prepare ref images : keeps n (dlib_prepare mean_ref rescale_to ref images) (Forall fresh).
  Proof.
    unfold dlib_prepare. eapply keeps_bind with (P := any).
    { destruct ref; [now apply keeps_ret|]. eapply keeps_bind; [apply keeps_gets|]. intros. apply keeps_lift. auto. }
    intros r _. apply keeps_rescale.
  Qed.
End Train.

(** ** DlibERT *)
Section Dlib.
  Context {Sh Px Tr : Type}.
  Notation img := (pimage Sh Px).
  Variable bounding_box : Sh -> Sh.
  Variable mean_ref : list Sh -> res Sh.
  Variable rescale_to : option string -> Sh -> img -> res img.

  (** The image with its temporary group. *)
  Definition marked (g : string) (im im' : img) : Prop :=
    exists s, dict_at g (plms im) = Ok s /\ im' = mkPImage (ppx im) (dict_set gt_bb (bounding_box s) (plms im)).

  Lemma run_read (h : list img) a im : nth_error h a = Some im -> read a h = (h, Ok im).
  Proof. intros H. unfold read. now rewrite H. Qed.
  Lemma run_get (h : list img) k a im : nth_error h a = Some im -> get_lm (Some k) a h = (h, dict_at k (plms im)).
  Proof. intros H. unfold get_lm, bindM. rewrite (run_read h a im H). reflexivity. Qed.
  Lemma run_set (h : list img) a k s im : nth_error h a = Some im ->
    set_lm a k s h = (replace a (mkPImage (ppx im) (dict_set k s (plms im))) h, Ok tt).
  Proof. intros H. unfold set_lm, bindM. rewrite (run_read h a im H). reflexivity. Qed.
  Lemma run_del (h : list img) a k im : nth_error h a = Some im ->
    del_lm a k h = match dict_get k (plms im) with
                   | Some _ => (replace a (mkPImage (ppx im) (dict_remove k (plms im))) h, Ok tt)
                   | None => (h, Err KeyError)
                   end.
  Proof.
    intros H. unfold del_lm, bindM. rewrite (run_read h a im H). unfold lift, dict_del. now destruct (dict_get k (plms im)).
  Qed.
  Lemma alloc_some (h : list img) a : a < length h -> exists im, nth_error h a = Some im.
  Proof. intros L. destruct (nth_error h a) eqn:E; [now exists p|]. apply nth_error_None in E. lia. Qed.

  Lemma mark_step g a r (h : list img) im s : nth_error h a = Some im -> dict_at g (plms im) = Ok s ->
    dlib_mark bounding_box g (a :: r) h =
    dlib_mark bounding_box g r (replace a (mkPImage (ppx im) (dict_set gt_bb (bounding_box s) (plms im))) h).
  Proof.
    intros H E. cbn [dlib_mark]. unfold bindM at 1. rewrite (run_get h g a im H), E. unfold bindM.
    rewrite (run_set h a _ _ im H). reflexivity.
  Qed.

  Lemma mark_run g images : forall h : list img, NoDup images -> Forall (fun a => a < length h) images ->
    forall h', dlib_mark bounding_box g images h = (h', Ok tt) ->
    length h' = length h /\ (forall b, ~ In b images -> nth_error h' b = nth_error h b) /\
    (forall a, In a images -> exists im im', nth_error h a = Some im /\ nth_error h' a = Some im' /\ marked g im im').
  Proof.
    induction images as [|a r IH]; intros h ND F h' E.
    - cbn in E. injection E as <-. repeat split; auto. intros a [].
    - inversion ND; subst. inversion F; subst. destruct (alloc_some h a H3) as (im & Him).
      destruct (dict_at g (plms im)) as [s|e] eqn:Es.
      2:{ cbn [dlib_mark] in E. unfold bindM in E. rewrite (run_get h g a im Him), Es in E. discriminate E. }
      rewrite (mark_step g a r h im s Him Es) in E.
      apply IH in E; [|exact H2|]. 2:{ eapply Forall_impl; [|exact H4]. intros b. now rewrite replace_length. }
      destruct E as (L & Ho & Hi). rewrite replace_length in L. split; [exact L|]. split.
      + intros b Hb. rewrite Ho; [|intros X; apply Hb; now right]. apply replace_other. intros ->. apply Hb. now left.
      + intros b [<-|Hb].
        * exists im. eexists. split; [exact Him|]. split; [rewrite Ho by exact H1; apply replace_same; exact H3|]. now exists s.
        * destruct (Hi b Hb) as (im1 & im2 & E1 & E2 & Hm). exists im1, im2. split; [|auto].
          rewrite <- E1. symmetry. apply replace_other. intros ->. contradiction.
  Qed.

  Lemma mark_ok g images : forall h : list img, NoDup images -> (forall a, In a images -> exists im s, nth_error h a = Some im /\ dict_at g (plms im) = Ok s) ->
    exists h', dlib_mark bounding_box g images h = (h', Ok tt).
  Proof.
    induction images as [|a r IH]; intros h ND H; [now exists h|]. inversion ND; subst.
    destruct (H a (or_introl eq_refl)) as (im & s & Him & Es). rewrite (mark_step g a r h im s Him Es). apply IH; [exact H3|].
    intros b Hb. destruct (H b (or_intror Hb)) as (im' & s' & E1 & E2). exists im', s'. split; [|exact E2].
    rewrite <- E1. apply replace_other. intros ->. contradiction.
  Qed.

  Lemma unmark_run n pairs : forall h h' : list img, NoDup (map fst pairs) ->
    Forall (fun p => fst p < n /\ n <= snd p) pairs -> n <= length h ->
    dlib_unmark pairs h = (h', Ok tt) ->
    n <= length h' /\ (forall b, b < n -> ~ In b (map fst pairs) -> nth_error h' b = nth_error h b) /\
    (forall a, In a (map fst pairs) -> exists im, nth_error h a = Some im /\
       nth_error h' a = Some (mkPImage (ppx im) (dict_remove gt_bb (plms im)))).
  Proof.
    induction pairs as [|[i i2] r IH]; intros h h' ND F L E.
    - cbn in E. injection E as <-. repeat split; auto. intros a [].
    - cbn in ND. inversion ND; subst. inversion F; subst. cbn in H3. destruct H3 as (Hi & Hi2).
      destruct (alloc_some h i ltac:(lia)) as (im & Him).
      cbn [dlib_unmark] in E. unfold bindM at 1 in E. rewrite (run_del h i gt_bb im Him) in E.
      destruct (dict_get gt_bb (plms im)) eqn:Eg; [|discriminate E].
      set (h1 := replace i _ h) in E. unfold bindM at 1 in E.
      pose proof (keeps_del (Px := Px) (Sh := Sh) n i2 gt_bb Hi2 h1) as K. assert (L1 : n <= length h1) by (unfold h1; rewrite replace_length; exact L).
      specialize (K L1). destruct (del_lm i2 gt_bb h1) as [h2 [[]|e]]; [|discriminate E].
      destruct K as (L2 & K & _). apply IH in E; [|exact H2|exact H4|exact L2]. destruct E as (L3 & Ho & Hin).
      split; [exact L3|]. split.
      + intros b Hb Hnb. cbn in Hnb. rewrite Ho; [|exact Hb|tauto]. rewrite K by exact Hb. unfold h1. apply replace_other. tauto.
      + cbn. intros a [<-|Ha].
        * exists im. split; [exact Him|]. rewrite Ho; [|exact Hi|exact H1]. rewrite K by exact Hi. unfold h1. apply replace_same. lia.
        * destruct (Hin a Ha) as (im' & E1 & E2). exists im'. split; [|exact E2].
          rewrite <- E1. assert (a < n) by (apply in_map_iff in Ha; destruct Ha as (p & <- & Hp); rewrite Forall_forall in H4; now apply H4).
          rewrite K by assumption. unfold h1. symmetry. apply replace_other. intros ->. contradiction.
  Qed.

  Lemma each_length A B (f : A -> M Sh Px B) l : forall h h' ys, each f l h = (h', Ok ys) -> length ys = length l.
  Proof.
    induction l as [|x l IH]; intros h h' ys E; cbn in E; [injection E as _ <-; reflexivity|].
    unfold bindM at 1 in E. destruct (f x h) as [h1 [y|e]]; [|discriminate E]. unfold bindM in E.
    destruct (each f l h1) as [h2 [zs|e]] eqn:E2; [|discriminate E]. injection E as _ <-. cbn. f_equal. eapply IH. exact E2.
  Qed.
  Lemma prepare_length ref images h h' batch : dlib_prepare mean_ref rescale_to ref images h = (h', Ok batch) -> length batch = length images.
  Proof.
    unfold dlib_prepare, bindM. destruct ref as [s|].
    - cbn. apply each_length.
    - destruct (each (get_lm (Some gt_bb)) images h) as [h1 [l|e]]; [|discriminate]. unfold lift.
      destruct (mean_ref l) as [s|e]; [|discriminate]. apply each_length.
  Qed.
  Lemma nodup_app A (l l' : list A) : NoDup l -> NoDup l' -> (forall a, In a l -> In a l' -> False) -> NoDup (l ++ l').
  Proof.
    induction 1 as [|x l N ND IH]; intros ND' D; cbn; [exact ND'|]. constructor.
    - intros X. apply in_app_or in X. destruct X as [X|X]; [contradiction|]. apply (D x); [now left|exact X].
    - apply IH; [exact ND'|]. intros a Ha. apply D. now right.
  Qed.
  Lemma map_fst_combine A B (l : list A) (l' : list B) : length l' = length l -> map fst (combine l l') = l.
  Proof. revert l'. induction l as [|x l IH]; intros [|y l'] H; cbn in *; try discriminate; auto. f_equal. apply IH. lia. Qed.

  (** Once the temporary groups were removed, the images are as they were. *)
  Lemma restored g ref images (h h1 h2 h3 : list img) batch : NoDup images ->
    Forall (fun a => a < length h) images ->
    (forall a im, In a images -> nth_error h a = Some im -> dict_get gt_bb (plms im) = None) ->
    dlib_mark bounding_box g images h = (h1, Ok tt) ->
    dlib_prepare mean_ref rescale_to ref images h1 = (h2, Ok batch) ->
    dlib_unmark (combine images batch) h2 = (h3, Ok tt) ->
    length h <= length h3 /\ Forall (fun a => length h <= a) batch /\ (forall b, b < length h -> nth_error h3 b = nth_error h b).
  Proof.
    intros ND F HN E1 E2 E3. destruct (mark_run g images h ND F h1 E1) as (L1 & Ho1 & Hi1).
    pose proof (keeps_prepare mean_ref rescale_to (length h) ref images h1 ltac:(lia)) as K. rewrite E2 in K.
    destruct K as (L2 & K2 & FB). pose proof (prepare_length ref images h1 h2 batch E2) as LB.
    apply (unmark_run (length h)) in E3.
    - rewrite map_fst_combine in E3 by exact LB. destruct E3 as (L3 & Ho3 & Hi3). split; [exact L3|]. split; [exact FB|].
      intros b Hb. destruct (in_dec Nat.eq_dec b images) as [Hin|Hn].
      + destruct (Hi3 b Hin) as (im2 & X & ->). rewrite K2 in X by exact Hb.
        destruct (Hi1 b Hin) as (im & im' & X0 & X1 & s & Es & ->). rewrite X1 in X. injection X as <-. rewrite X0. cbn.
        rewrite Proofs.Dict.set_new by exact (HN b im Hin X0). rewrite Proofs.Dict.remove_app_new by exact (HN b im Hin X0).
        now destruct im.
      + rewrite Ho3 by auto. rewrite K2 by exact Hb. apply Ho1. exact Hn.
    - rewrite map_fst_combine; auto.
    - apply Forall_forall. intros [i i2] Hp. cbn. rewrite Forall_forall in F, FB. split; [apply F; eapply in_combine_l; exact Hp|].
      apply FB. eapply in_combine_r. exact Hp.
    - exact L2.
  Qed.

  (** *** Successful preparation *)
  Hypothesis mean_total : forall l, exists s, mean_ref l = Ok s.
  Hypothesis rescale_total : forall ref im, dict_get gt_bb (plms im) <> None ->
    exists im', rescale_to (Some gt_bb) ref im = Ok im' /\ dict_get gt_bb (plms im') <> None.
  Definition has_box (h : list img) (a : nat) : Prop := exists im, nth_error h a = Some im /\ dict_get gt_bb (plms im) <> None.

  Lemma has_box_app h l a : has_box h a -> has_box (h ++ l) a.
  Proof.
    intros (im & H & G). exists im. split; [|exact G]. rewrite nth_error_app1; [exact H|].
    apply nth_error_Some. now rewrite H.
  Qed.

  Lemma rescale_run ref images : forall h, Forall (has_box h) images ->
    exists new, rescale_images_to_reference_shape rescale_to (Some gt_bb) ref images h = (h ++ new, Ok (seq (length h) (length images))) /\
      length new = length images /\ Forall (fun im => dict_get gt_bb (plms im) <> None) new.
  Proof.
    unfold rescale_images_to_reference_shape.
    induction images as [|a r IH]; intros h F; cbn [each].
    - exists []. rewrite app_nil_r. repeat split; auto.
    - inversion F; subst. destruct H1 as (im & Him & G). destruct (rescale_total ref im G) as (im' & Er & G').
      unfold bindM at 1. cbn beta. unfold bindM at 1. rewrite (run_read h a im Him). unfold bindM at 1. unfold lift at 1. rewrite Er.
      unfold alloc at 1. unfold bindM at 1.
      destruct (IH (h ++ [im'])) as (new & E & Ln & Fn).
      { eapply Forall_impl; [|exact H2]. intros b. apply has_box_app. }
      rewrite E. exists (im' :: new). unfold ret. rewrite <- app_assoc. cbn. rewrite app_length. cbn. rewrite Nat.add_1_r.
      repeat split; auto.
  Qed.

  Lemma gets_run images : forall h, Forall (has_box h) images -> exists l, each (get_lm (Some gt_bb)) images h = (h, Ok l).
  Proof.
    induction images as [|a r IH]; intros h F; cbn [each]; [now exists []|]. inversion F; subst.
    destruct H1 as (im & Him & G). unfold bindM at 1. rewrite (run_get h gt_bb a im Him). unfold dict_at.
    destruct (dict_get gt_bb (plms im)) as [s|]; [|congruence]. destruct (IH h H2) as (l & E). unfold bindM. rewrite E. now exists (s :: l).
  Qed.

  Lemma prepare_run ref images h : Forall (has_box h) images ->
    exists new, dlib_prepare mean_ref rescale_to ref images h = (h ++ new, Ok (seq (length h) (length images))) /\
      length new = length images /\ Forall (fun im => dict_get gt_bb (plms im) <> None) new.
  Proof.
    intros F. unfold dlib_prepare. destruct ref as [s|].
    - unfold bindM at 1. cbn. now apply rescale_run.
    - destruct (gets_run images h F) as (l & E). destruct (mean_total l) as (s & Es). unfold bindM. rewrite E. unfold lift. rewrite Es.
      now apply rescale_run.
  Qed.

  Lemma unmark_ok pairs : forall h : list img, NoDup (map fst pairs ++ map snd pairs) -> Forall (fun p => has_box h (fst p) /\ has_box h (snd p)) pairs ->
    exists h', dlib_unmark pairs h = (h', Ok tt).
  Proof.
    induction pairs as [|[i i2] r IH]; intros h ND F; [now exists h|]. inversion F; subst. cbn in H1. destruct H1 as ((im & Him & G) & (im2 & Him2 & G2)).
    cbn in ND. inversion ND; subst. assert (NE : i <> i2) by (intros ->; apply H1; apply in_or_app; right; now left).
    cbn [dlib_unmark]. unfold bindM at 1. rewrite (run_del h i gt_bb im Him). destruct (dict_get gt_bb (plms im)); [|congruence].
    unfold bindM at 1. rewrite (run_del _ i2 gt_bb im2) by (rewrite replace_other; auto). destruct (dict_get gt_bb (plms im2)); [|congruence].
    apply NoDup_remove in H3. destruct H3 as (H3 & H5). apply IH; [exact H3|].
    apply Forall_forall. intros [b b2] Hb. rewrite Forall_forall in H2. specialize (H2 _ Hb). cbn in H2 |- *.
    assert (Hb1 : In b (map fst r)) by (apply in_map_iff; now exists (b, b2)).
    assert (Hb2 : In b2 (map snd r)) by (apply in_map_iff; now exists (b, b2)).
    assert (X : forall c, In c (map fst r ++ map snd r) -> has_box h c -> has_box
       (replace i2 (mkPImage (ppx im2) (dict_remove gt_bb (plms im2))) (replace i (mkPImage (ppx im) (dict_remove gt_bb (plms im))) h)) c).
    { intros c Hc (imc & Ec & Gc). exists imc. split; [|exact Gc]. rewrite !replace_other; [exact Ec| |].
      - intros ->. apply H1. apply in_app_or in Hc. apply in_or_app. cbn. tauto.
      - intros ->. contradiction. }
    destruct H2 as (B1 & B2). split; apply X; auto; apply in_or_app; auto.
  Qed.

  Lemma prephase_ok g ref images (h : list img) : NoDup images ->
    (forall a, In a images -> exists im s, nth_error h a = Some im /\ dict_at g (plms im) = Ok s) ->
    exists h1 h2 h3 batch, dlib_mark bounding_box g images h = (h1, Ok tt) /\
      dlib_prepare mean_ref rescale_to ref images h1 = (h2, Ok batch) /\ dlib_unmark (combine images batch) h2 = (h3, Ok tt).
  Proof.
    intros ND H. destruct (mark_ok g images h ND H) as (h1 & E1).
    assert (F : Forall (fun a => a < length h) images).
    { apply Forall_forall. intros a Ha. destruct (H a Ha) as (im & s & E & _). apply nth_error_Some. now rewrite E. }
    destruct (mark_run g images h ND F h1 E1) as (L1 & Ho1 & Hi1).
    assert (FB : Forall (has_box h1) images).
    { apply Forall_forall. intros a Ha. destruct (Hi1 a Ha) as (im & im' & _ & X & s & _ & ->). exists (mkPImage (ppx im) (dict_set gt_bb (bounding_box s) (plms im))). split; [exact X|].
      cbn. rewrite Proofs.Dict.get_set_same. discriminate. }
    destruct (prepare_run ref images h1 FB) as (new & E2 & Ln & Fn).
    destruct (unmark_ok (combine images (seq (length h1) (length images))) (h1 ++ new)) as (h3 & E3).
    - rewrite map_fst_combine by apply seq_length.
      assert (X : map snd (combine images (seq (length h1) (length images))) = seq (length h1) (length images)).
      { generalize (length h1). clear. induction images as [|a r IH]; intros k; cbn; auto. f_equal. apply IH. }
      rewrite X. apply nodup_app; [exact ND|apply seq_NoDup|]. intros a Ha Hs. apply in_seq in Hs. rewrite Forall_forall in F. specialize (F a Ha). lia.
    - apply Forall_forall. intros [a b] Hp. cbn. split.
      + apply has_box_app. rewrite Forall_forall in FB. apply FB. eapply in_combine_l. exact Hp.
      + apply in_combine_r in Hp. apply in_seq in Hp. destruct (alloc_some new (b - length h1) ltac:(lia)) as (im & E).
        exists im. split; [rewrite nth_error_app2 by lia; exact E|]. rewrite Forall_forall in Fn. apply Fn. eapply nth_error_In. exact E.
    - now exists h1, (h1 ++ new), h3, (seq (length h1) (length images)).
  Qed.
End Dlib.

(** ** DlibERT on a list with a repeated image *)
Section Twice.
  Context {Sh Px : Type}.
  Notation img := (pimage Sh Px).
  Definition lacks (h : list img) (a : nat) : Prop := exists im, nth_error h a = Some im /\ dict_get gt_bb (plms im) = None.
  Definition keys_once (h : list img) : Prop := forall a im, nth_error h a = Some im -> NoDup (map fst (plms im)).

  Lemma in_remove_keys k (d : dict Sh) x : In x (map fst (dict_remove k d)) -> In x (map fst d).
  Proof.
    induction d as [|[k' v] d IH]; cbn; auto. destruct (String.eqb k k'); cbn; [now right|]. intros [H|H]; auto.
  Qed.
  Lemma keys_remove k (d : dict Sh) : NoDup (map fst d) -> NoDup (map fst (dict_remove k d)).
  Proof.
    induction d as [|[k' v] d IH]; cbn; auto. intros H. inversion H; subst. destruct (String.eqb k k'); cbn; [exact H3|].
    constructor; [|now apply IH]. intros X. apply H2. eapply in_remove_keys. exact X.
  Qed.
  Lemma replace_nth a (im : img) h b im' : nth_error (replace a im h) b = Some im' ->
    (b = a /\ im' = im) \/ (b <> a /\ nth_error h b = Some im').
  Proof.
    intros H. destruct (Nat.eq_dec b a) as [->|N].
    - left. split; [reflexivity|]. assert (L : a < length h) by (rewrite <- (replace_length a im h); apply nth_error_Some; now rewrite H).
      rewrite replace_same in H by exact L. congruence.
    - right. split; [exact N|]. rewrite replace_other in H; auto.
  Qed.
  Lemma keys_once_replace h a (im : img) : keys_once h -> NoDup (map fst (plms im)) -> keys_once (replace a im h).
  Proof. intros K N b im' H. apply replace_nth in H. destruct H as [(_ & ->)|(_ & H)]; [exact N|]. eapply K. exact H. Qed.

  (** Deleting the group at one address. *)
  Lemma del_cases (h : list img) i : (exists e, del_lm i gt_bb h = (h, Err e)) \/
    (exists im, nth_error h i = Some im /\ dict_get gt_bb (plms im) <> None /\
       del_lm i gt_bb h = (replace i (mkPImage (ppx im) (dict_remove gt_bb (plms im))) h, Ok tt)).
  Proof.
    destruct (nth_error h i) as [im|] eqn:E.
    - rewrite (run_del h i gt_bb im E). destruct (dict_get gt_bb (plms im)) eqn:G; [right|left; now exists KeyError].
      exists im. repeat split; auto. congruence.
    - left. exists IndexError. unfold del_lm, bindM, read. now rewrite E.
  Qed.
  Lemma lacks_del (h : list img) i a h' : lacks h a -> del_lm i gt_bb h = (h', Ok tt) -> i <> a /\ lacks h' a.
  Proof.
    intros (im & E & G) D. destruct (del_cases h i) as [(e & X)|(im1 & E1 & G1 & X)]; rewrite X in D; [discriminate D|].
    injection D as <-. assert (N : i <> a) by (intros ->; rewrite E in E1; injection E1 as ->; contradiction).
    split; [exact N|]. exists im. split; [|exact G]. rewrite replace_other; auto.
  Qed.
  Lemma keys_del (h : list img) i h' : keys_once h -> del_lm i gt_bb h = (h', Ok tt) -> keys_once h' /\ lacks h' i.
  Proof.
    intros K D. destruct (del_cases h i) as [(e & X)|(im1 & E1 & G1 & X)]; rewrite X in D; [discriminate D|].
    injection D as <-. split.
    - apply keys_once_replace; [exact K|]. cbn. apply keys_remove. eapply K. exact E1.
    - eexists. split; [apply replace_same; apply nth_error_Some; now rewrite E1|]. cbn. apply Proofs.Dict.get_remove_same. eapply K. exact E1.
  Qed.

  Lemma unmark_lacks pairs : forall (h : list img) a, lacks h a -> In a (map fst pairs) -> forall h', dlib_unmark pairs h <> (h', Ok tt).
  Proof.
    induction pairs as [|[i i2] r IH]; intros h a La Ha h' E; [destruct Ha|]. cbn [dlib_unmark] in E. unfold bindM at 1 in E.
    destruct (del_lm i gt_bb h) as [h1 [[]|e]] eqn:D1; [|discriminate E]. destruct (lacks_del h i a h1 La D1) as (N & L1).
    unfold bindM at 1 in E. destruct (del_lm i2 gt_bb h1) as [h2 [[]|e]] eqn:D2; [|discriminate E].
    destruct (lacks_del h1 i2 a h2 L1 D2) as (_ & L2). cbn in Ha. destruct Ha as [Ha|Ha]; [contradiction|]. eapply IH; eassumption.
  Qed.
  Lemma unmark_twice pairs : forall (h : list img), keys_once h -> ~ NoDup (map fst pairs) -> forall h', dlib_unmark pairs h <> (h', Ok tt).
  Proof.
    induction pairs as [|[i i2] r IH]; intros h K ND h' E; [apply ND; constructor|]. cbn [dlib_unmark] in E. unfold bindM at 1 in E.
    destruct (del_lm i gt_bb h) as [h1 [[]|e]] eqn:D1; [|discriminate E]. destruct (keys_del h i h1 K D1) as (K1 & L1).
    unfold bindM at 1 in E. destruct (del_lm i2 gt_bb h1) as [h2 [[]|e]] eqn:D2; [|discriminate E].
    destruct (keys_del h1 i2 h2 K1 D2) as (K2 & _). destruct (lacks_del h1 i2 i h2 L1 D2) as (_ & L2).
    destruct (in_dec Nat.eq_dec i (map fst r)) as [Hin|Hn].
    - eapply unmark_lacks; eassumption.
    - eapply IH; [exact K2| |exact E]. intros X. apply ND. cbn. now constructor.
  Qed.

  Variable bounding_box : Sh -> Sh.
  Variable mean_ref : list Sh -> res Sh.
  Variable rescale_to : option string -> Sh -> img -> res img.
  Hypothesis rescale_keys : forall g ref im im', rescale_to g ref im = Ok im' -> NoDup (map fst (plms im)) -> NoDup (map fst (plms im')).

  Lemma mark_keys g images : forall (h h' : list img), keys_once h -> dlib_mark bounding_box g images h = (h', Ok tt) -> keys_once h'.
  Proof.
    induction images as [|a r IH]; intros h h' K E; [cbn in E; injection E as <-; exact K|].
    destruct (nth_error h a) as [im|] eqn:Ea.
    - destruct (dict_at g (plms im)) as [s|e] eqn:Es.
      + rewrite (mark_step bounding_box g a r h im s Ea Es) in E. eapply IH; [|exact E]. apply keys_once_replace; [exact K|].
        cbn. apply Proofs.Dict.keys_set. eapply K. exact Ea.
      + cbn [dlib_mark] in E. unfold bindM in E. rewrite (run_get h g a im Ea), Es in E. discriminate E.
    - cbn [dlib_mark] in E. unfold bindM, get_lm, bindM, read in E. rewrite Ea in E. discriminate E.
  Qed.
  Lemma rescale_keys_once g ref images : forall (h h' : list img) batch, keys_once h ->
    rescale_images_to_reference_shape rescale_to g ref images h = (h', Ok batch) -> keys_once h'.
  Proof.
    unfold rescale_images_to_reference_shape. induction images as [|a r IH]; intros h h' batch K E; cbn [each] in E.
    - injection E as <- _. exact K.
    - unfold bindM at 1 in E. cbn beta in E. unfold bindM at 1 in E. unfold read at 1 in E.
      destruct (nth_error h a) as [im|] eqn:Ea; [|discriminate E]. unfold bindM at 1 in E. unfold lift at 1 in E.
      destruct (rescale_to g ref im) as [im'|e] eqn:Er; [|discriminate E]. unfold alloc at 1 in E. unfold bindM at 1 in E.
      set (m := each _ r (h ++ [im'])) in E. destruct m as [h2 [ys|e]] eqn:Em; [|discriminate E]. unfold ret in E. injection E as <- _.
      eapply IH; [|exact Em]. intros b imb Hb.
      destruct (Nat.lt_ge_cases b (length h)) as [L|L].
      + rewrite nth_error_app1 in Hb by exact L. eapply K. exact Hb.
      + rewrite nth_error_app2 in Hb by exact L. destruct (b - length h) as [|k]; cbn in Hb; [|now destruct k].
        injection Hb as <-. eapply rescale_keys; [exact Er|]. eapply K. exact Ea.
  Qed.
  Lemma prepare_keys ref images (h h' : list img) batch : keys_once h ->
    dlib_prepare mean_ref rescale_to ref images h = (h', Ok batch) -> keys_once h'.
  Proof.
    intros K E. unfold dlib_prepare, bindM in E. destruct ref as [s|].
    - cbn in E. eapply rescale_keys_once; eassumption.
    - destruct (each (get_lm (Some gt_bb)) images h) as [h1 [l|e]] eqn:E1; [|discriminate E]. unfold lift in E.
      destruct (mean_ref l) as [s|e]; [|discriminate E]. eapply rescale_keys_once; [|exact E].
      assert (X : forall l (h h1 : list img) r, each (get_lm (Some gt_bb)) l h = (h1, r) -> h1 = h).
      { clear. induction l as [|x l IH]; intros h h1 r E; cbn in E; [now injection E|]. unfold bindM, get_lm, bindM, read, lift in E.
        destruct (nth_error h x) as [im|]; [|now injection E]. cbn in E. destruct (dict_at gt_bb (plms im)); [|now injection E].
        fold (@get_lm Sh Px (Some gt_bb)) in E.
        match type of E with context [each ?f l h] => destruct (each f l h) as [h2 [ys|e]] eqn:E2 end; injection E as <- _; eapply IH; exact E2. }
      apply X in E1. now subst.
  Qed.
End Twice.

(** ** DlibERT when preparation fails *)
Section Fails.
  Context {Sh Px : Type}.
  Notation img := (pimage Sh Px).
  Variable bounding_box : Sh -> Sh.
  Variable mean_ref : list Sh -> res Sh.
  Variable rescale_to : option string -> Sh -> img -> res img.

  Lemma rescale_fails ref a im : (exists e, rescale_to (Some gt_bb) ref im = Err e) ->
    forall images (h : list img), In a images -> nth_error h a = Some im ->
    exists h' e, rescale_images_to_reference_shape rescale_to (Some gt_bb) ref images h = (h', Err e).
  Proof.
    intros (e0 & Er). unfold rescale_images_to_reference_shape. induction images as [|b r IH]; intros h Hin Ha; [destruct Hin|]. cbn [each].
    unfold bindM at 1. cbn beta. unfold bindM at 1. unfold read at 1. destruct (nth_error h b) as [imb|] eqn:Eb; [|eauto].
    unfold bindM at 1. unfold lift at 1. destruct (rescale_to (Some gt_bb) ref imb) as [im'|e] eqn:Erb; [|eauto].
    unfold alloc at 1. unfold bindM at 1.
    destruct (IH (h ++ [im'])) as (h2 & e2 & E2).
    - destruct Hin as [->|Hin]; [|exact Hin]. rewrite Eb in Ha. injection Ha as ->. congruence.
    - rewrite nth_error_app1; [exact Ha|]. apply nth_error_Some. congruence.
    - rewrite E2. eauto.
  Qed.
  Lemma prepare_fails ref a im images (h : list img) : (forall r, exists e, rescale_to (Some gt_bb) r im = Err e) -> In a images -> nth_error h a = Some im ->
    exists h' e, dlib_prepare mean_ref rescale_to ref images h = (h', Err e).
  Proof.
    intros Hr Hin Ha. unfold dlib_prepare, bindM. destruct ref as [s|]; [cbn; now apply (rescale_fails s a im)|].
    pose proof (keeps_gets (Sh := Sh) (Px := Px) (length h) (Some gt_bb) images h (le_n _)) as K.
    destruct (each (get_lm (Some gt_bb)) images h) as [h1 [l|e]]; [|eauto]. unfold lift. destruct (mean_ref l) as [s|e]; [|eauto].
    apply (rescale_fails s a im); auto. destruct K as (_ & K & _). rewrite K; [exact Ha|]. apply nth_error_Some. congruence.
  Qed.

  Lemma mark_app g l1 l2 : forall (h h1 : list img), dlib_mark bounding_box g l1 h = (h1, Ok tt) ->
    dlib_mark bounding_box g (l1 ++ l2) h = dlib_mark bounding_box g l2 h1.
  Proof.
    induction l1 as [|a r IH]; intros h h1 E; cbn in E |- *; [injection E as <-; reflexivity|].
    unfold bindM in E |- *. destruct (get_lm (Some g) a h) as [h2 [s|e]]; [|discriminate E].
    destruct (set_lm a gt_bb (bounding_box s) h2) as [h3 [[]|e]]; [|discriminate E]. now apply IH.
  Qed.
  Lemma mark_missing g a l2 (h : list img) im : nth_error h a = Some im -> dict_get g (plms im) = None ->
    dlib_mark bounding_box g (a :: l2) h = (h, Err KeyError).
  Proof. intros Ea G. cbn. unfold bindM. rewrite (run_get h g a im Ea). unfold dict_at. now rewrite G. Qed.
End Fails.
