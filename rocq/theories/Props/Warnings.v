(** C113: what training warns about, and which models transforms accept. *)
From Coq Require Import List ZArith Bool Lia.
From Verif.Model Require Import Py Base Result Warnings.
From Verif.Spec Require Import Warnings.
From Verif.Proofs Require Base.
Import ListNotations.
Local Open Scope nat_scope.

(** The tests decide inheritance. *)
Fixpoint cls_size (c : cls) : nat :=
  match c with Other _ bs => S (fold_right (fun c n => cls_size c + n) 0 bs) | _ => 0 end.
Lemma size_in c bs : In c bs -> cls_size c <= fold_right (fun c n => cls_size c + n) 0 bs.
Proof. induction bs as [|x bs IH]; intros []; simpl; [subst|apply IH in H]; lia. Qed.
Ltac climb := first [apply inherits_refl | eapply inherits_base; [left; reflexivity|climb]].
Lemma issubclass_iff b : tag b < 10 -> forall c, issubclass c b = true <-> inherits c b.
Proof.
  intros Hb. assert (X : forall n c, cls_size c < n -> issubclass c b = true <-> inherits c b).
  { induction n as [|n IH]; intros c Hn; [lia|]. destruct c as [| | | | | | | | | |name bs].
    11: { change (issubclass (Other name bs) b) with ((10 =? tag b) || existsb (fun c' => issubclass c' b) bs).
      assert (E : (10 =? tag b) = false) by (apply Nat.eqb_neq; lia). rewrite E. cbn [orb]. rewrite existsb_exists. split.
      - intros (p & Hp & Hs). apply inherits_base with p; [exact Hp|]. apply IH; [|exact Hs].
        apply size_in in Hp. simpl in Hn. lia.
      - intros H. inversion H as [|? p ? Hp Hi]; subst; [simpl in Hb; lia|]. exists p. split; [exact Hp|]. apply IH; [|exact Hi].
        simpl in Hp. apply size_in in Hp. simpl in Hn. lia. }
    all: clear IH Hn; destruct b; simpl in Hb; try lia; clear Hb; (split; [try discriminate; intros _; climb|]); simpl; intros H;
      repeat (try reflexivity; match goal with
        | H : False |- _ => destruct H
        | H : In _ _ |- _ => simpl in H; destruct H; subst
        | H : inherits _ _ |- _ => inversion H; subst; clear H
        end). }
  intros c. apply (X (S (cls_size c))). lia.
Qed.

(** Whatever is trained, in however many batches: the absence of a reference shape is warned about exactly if batches were asked
    for and there is a first one. *)
Theorem c113_reference_shape : forall reference_shape batch_size shapes transform ws,
  train_warnings reference_shape batch_size shapes transform = Ok ws ->
  (In NoReferenceShape ws <-> reference_shape = None /\ exists n, batch_size = Some n /\ (1 <= n)%Z /\ shapes <> []) /\
  ~ In DelaunayFrame ws /\ NoDup ws.
Proof.
  intros r bs shapes t ws H. unfold train_warnings, check_landmark_trilist, check_trilist in H.
  destruct bs as [n|].
  - destruct (Z.lt_trichotomy n 0) as [N|[N|N]].
    + rewrite Proofs.Base.batch_negative in H by assumption. discriminate.
    + subst n. rewrite Proofs.Base.batch_zero in H. cbn [bind] in H. destruct r; injection H as <-;
        (split; [split; [intros []|intros (_ & n & [= <-] & Hn & _); lia]|split; [intros []|constructor]]).
    + destruct (batch shapes n) as [batches|] eqn:B; [|discriminate]. cbn [bind] in H.
      apply Proofs.Base.batch_iff in B; [|lia]. destruct B as (C & F & _). destruct batches as [|b batches].
      * destruct r; injection H as <-; simpl in C; subst shapes;
          (split; [split; [intros []|intros (_ & m & _ & _ & Hs); now contradiction Hs]|split; [intros []|constructor]]).
      * assert (Hs : shapes <> []).
        { inversion F as [|? ? [L _] _]. subst. destruct b; [simpl in L; lia|discriminate]. }
        destruct r as [r|].
        -- injection H as <-. split; [split; [intros []|intros (E & _); discriminate]|split; [intros []|constructor]].
        -- destruct (nth_res b 0) as [first|]; [|discriminate]. cbn [bind] in H.
           destruct (negb (isinstance first TriMesh) && isinstance t PiecewiseAffine); injection H as <-; simpl.
           ++ split; [split; [intros _; split; [reflexivity|exists n; repeat split; auto; lia]|now left]|].
              split; [intros [|[|[]]]; discriminate|]. repeat constructor; simpl; intuition discriminate.
           ++ split; [split; [intros _; split; [reflexivity|exists n; repeat split; auto; lia]|now left]|].
              split; [intros [|[]]; discriminate|]. repeat constructor; simpl; intuition discriminate.
  - cbn [bind] in H. destruct r as [r|].
    + injection H as <-. split; [split; [intros []|intros (E & _); discriminate]|split; [intros []|constructor]].
    + destruct (nth_res shapes 0) as [first|]; [|discriminate]. cbn [bind] in H.
      destruct (negb (isinstance first TriMesh) && isinstance t PiecewiseAffine); injection H as <-; simpl;
        (split; [split; [intuition discriminate|intros (_ & n & E & _); discriminate]|split; [intuition discriminate|repeat constructor; simpl; tauto]]).
Qed.
Print Assumptions c113_reference_shape.

(** The warning about missing triangulations is documented for shapes that are no TriMesh, to be warped with PiecewiseAffine.
    check_trilist gives it exactly for transforms that are objects of PiecewiseAffine or of a class that inherits from it... *)
Theorem c113_triangulation_partial : forall shape transform,
  In NoTriangulation (check_trilist shape transform) <->
  ~ inherits (type_of shape) TriMesh /\ inherits (type_of transform) PiecewiseAffine.
Proof.
  intros s t. unfold check_trilist, isinstance.
  rewrite <- (issubclass_iff TriMesh), <- (issubclass_iff PiecewiseAffine) by (simpl; lia).
  destruct (issubclass (type_of s) TriMesh), (issubclass (type_of t) PiecewiseAffine); simpl; intuition (discriminate || congruence).
Qed.
Print Assumptions c113_triangulation_partial.
(** ... but the models pass the class itself, as their constructors take it: no training ever gives the warning, whatever the
    transform class and the shapes. *)
Theorem c113_triangulation_refuted : forall c shapes,
  (forall reference_shape batch_size ws, train_warnings reference_shape batch_size shapes (Cls c) = Ok ws -> ~ In NoTriangulation ws) /\
  (forall ws, unified_train_warnings shapes (Cls c) = Ok ws -> ws = []).
Proof.
  assert (N : forall s c, check_landmark_trilist s (Cls c) = []).
  { intros s c. unfold check_landmark_trilist, check_trilist. cbn. now rewrite andb_false_r. }
  intros c shapes. split.
  - intros r bs ws H. unfold train_warnings in H.
    destruct (match bs with Some n => batch shapes n | None => Ok [shapes] end) as [[|b l]|]; try discriminate; cbn [bind] in H;
      destruct r; try (injection H as <-; intros []).
    destruct (nth_res b 0) as [f|]; [|discriminate]. cbn [bind] in H. rewrite N in H. injection H as <-.
    destruct bs; simpl; intuition discriminate.
  - intros ws H. unfold unified_train_warnings in H. destruct (nth_res shapes 0) as [f|]; [|discriminate]. cbn [bind] in H.
    rewrite N in H. now injection H.
Qed.
Print Assumptions c113_triangulation_refuted.
(** Building the frame of the reference shape warns exactly if that shape is no TriMesh. *)
Theorem c113_frame : forall landmarks, In DelaunayFrame (build_reference_frame landmarks) <-> ~ inherits (type_of landmarks) TriMesh.
Proof.
  intros v. unfold build_reference_frame, isinstance. rewrite <- (issubclass_iff TriMesh) by (simpl; lia).
  destruct (issubclass (type_of v) TriMesh); simpl; intuition (discriminate || congruence).
Qed.
Print Assumptions c113_frame.

(** Transforms and algorithms are built exactly from the models they are documented for, and refuse all others, classes among
    them, with ValueError; what a special transform accepts, the more general ones accept too. *)
Theorem c113_models : forall model,
  (model_driven_transform model = Ok tt <-> inherits (type_of model) PDM) /\
  (global_md_transform model = Ok tt <-> inherits (type_of model) GlobalPDM) /\
  (ortho_md_transform model = Ok tt <-> inherits (type_of model) OrthoPDM) /\
  (unified_algorithm model = Ok tt <-> inherits (type_of model) OrthoPDM) /\
  (forall f, In f [model_driven_transform; global_md_transform; ortho_md_transform; unified_algorithm] ->
     f model = Ok tt \/ f model = Err ValueError).
Proof.
  assert (Up : forall c p b, inherits c p -> In b (bases p) -> inherits c b).
  { intros c p b H. induction H; intros I; [apply inherits_base with b; [exact I|constructor]|]. eapply inherits_base; eauto. }
  assert (K : forall v b, tag b < 10 -> check_model v b = Ok tt <-> inherits (type_of v) b).
  { intros v b Hb. unfold check_model, isinstance. rewrite <- (issubclass_iff b Hb). destruct (issubclass _ _); split; congruence. }
  assert (D : forall v b, check_model v b = Ok tt \/ check_model v b = Err ValueError)
    by (intros v b; unfold check_model; destruct (isinstance v b); auto).
  assert (G : forall m, global_md_transform m = Ok tt <-> inherits (type_of m) GlobalPDM).
  { intros m. unfold global_md_transform. rewrite <- K by (simpl; lia). destruct (D m GlobalPDM) as [E|E]; rewrite E; cbn [bind]; [|split; discriminate].
    split; [reflexivity|]. intros _. unfold model_driven_transform. apply K; [simpl; lia|]. apply (Up _ GlobalPDM); [apply K; [simpl; lia|exact E]|now left]. }
  assert (O : forall m, ortho_md_transform m = Ok tt <-> inherits (type_of m) OrthoPDM).
  { intros m. unfold ortho_md_transform. rewrite <- K by (simpl; lia). destruct (D m OrthoPDM) as [E|E]; rewrite E; cbn [bind]; [|split; discriminate].
    split; [reflexivity|]. intros _. apply G. apply (Up _ OrthoPDM); [apply K; [simpl; lia|exact E]|now left]. }
  intros m. split; [apply K; simpl; lia|]. split; [apply G|]. split; [apply O|]. split; [apply K; simpl; lia|].
  intros f [<-|[<-|[<-|[<-|[]]]]]; unfold unified_algorithm, ortho_md_transform, global_md_transform, model_driven_transform.
  - apply D.
  - destruct (D m GlobalPDM) as [E|E]; rewrite E; cbn [bind]; auto.
  - destruct (D m OrthoPDM) as [E|E]; rewrite E; cbn [bind]; auto. destruct (D m GlobalPDM) as [E'|E']; rewrite E'; cbn [bind]; auto.
  - apply D.
Qed.
Print Assumptions c113_models.

(** Five point clouds in twos with piecewise affine warping: one warning; an object instead of the class would give two. *)
Example c113_ex :
  train_warnings None (Some 2%Z) (repeat (Obj PointCloud) 5) (Cls DifferentiablePiecewiseAffine) = Ok [NoReferenceShape] /\
  train_warnings None (Some 2%Z) (repeat (Obj PointCloud) 5) (Obj DifferentiablePiecewiseAffine) = Ok [NoReferenceShape; NoTriangulation] /\
  unified_train_warnings [Obj PointCloud] (Cls DifferentiablePiecewiseAffine) = Ok [] /\
  ortho_md_transform (Obj (Other 0 [OrthoPDM])) = Ok tt /\ ortho_md_transform (Obj GlobalPDM) = Err ValueError /\
  model_driven_transform (Cls PDM) = Err ValueError.
Proof. repeat split. Qed.
