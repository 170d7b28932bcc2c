(** C93: training does not depend on the order in which the training images are given, unless they are cut into
    batches. *)
From Coq Require Import List Arith ZArith Reals Lra Lia Permutation.
From Verif.Model Require Import Py Result.
From Verif.Model Require ErrorR CorrFilter ApsGraph SdmTrain Train.
From Verif.Spec Require Import TrainOrder.
From Verif.Proofs Require TrainOrder TrainOrderR.
Import ListNotations.
Local Open Scope nat_scope.

(** ** The reference shape *)
Theorem c93_reference_shape : forall diagonal, order_free (fun shapes => ErrorR.compute_reference_shape shapes diagonal).
Proof. exact TrainOrderR.reference_perm. Qed.
Print Assumptions c93_reference_shape.

(** ** The default deformation tree of pictorial structures: the weights it is computed from *)
Theorem c93_tree_weights : forall n shapes shapes', Permutation shapes shapes' -> (forall s, In s shapes -> length s = n) ->
  ApsGraph.complete_graph shapes = ApsGraph.complete_graph shapes'.
Proof. exact TrainOrderR.graph_perm. Qed.
Print Assumptions c93_tree_weights.

(** ** Correlation filters, trained and incremented: the same filter and the same sums at every frequency *)
Definition same_filters {B} (same : B -> B -> Prop) (o o' : res ((nat -> nat -> R * R) * (nat -> nat -> R * R) * B)) : Prop :=
  match o, o' with
  | Ok (g, a, b), Ok (g', a', b') => (forall c w, g c w = g' c w) /\ (forall c w, a c w = a' c w) /\ same b b'
  | Err e, Err e' => e = e'
  | _, _ => False
  end.
Notation same2 := (fun b b' : nat -> nat -> R * R => forall c w, b c w = b' c w).
Notation same3 := (fun b b' : nat -> nat -> nat -> R * R => forall c d w, b c d w = b' c d w).
(** A solver whose result depends on the entries of the system only. *)
Definition extensional (solve : (nat -> nat -> nat -> R * R) -> (nat -> nat -> R * R) -> nat -> nat -> R * R) : Prop :=
  forall B B' a a', same3 B B' -> same2 a a' -> same2 (solve B a) (solve B' a').

Section Cf.
  Import CorrFilter.
  Context {I : Type} (fft : I -> nat -> nat -> R * R) (y : nat -> R * R) (l : R).
  Lemma auto_perm X X' : Permutation X X' -> same2 (auto_energy fft X) (auto_energy fft X').
  Proof. intros P c w. apply (TrainOrderR.sum_perm (fun x => cmul (conj (fft x c w)) (fft x c w)) _ _ P). Qed.
  Lemma cross_perm X X' : Permutation X X' -> same2 (cross_energy fft y X) (cross_energy fft y X').
  Proof. intros P c w. apply (TrainOrderR.sum_perm (fun x => cmul (conj (fft x c w)) (y w)) _ _ P). Qed.
  Lemma blocks_perm X X' : Permutation X X' -> same3 (auto_blocks fft X) (auto_blocks fft X').
  Proof. intros P c d w. apply (TrainOrderR.sum_perm (fun x => cmul (conj (fft x c w)) (fft x d w)) _ _ P). Qed.
  Lemma regularised_ext B B' : same3 B B' -> same3 (regularised l B) (regularised l B').
  Proof. intros H c d w. unfold regularised. rewrite H. reflexivity. Qed.
End Cf.

Theorem c93_filters : forall (I : Type) (fft : I -> nat -> nat -> R * R) (y : nat -> R * R) (l : R) solve (X X' : list I),
  extensional solve -> Permutation X X' ->
  same_filters same2 (CorrFilter.mosse fft y l X) (CorrFilter.mosse fft y l X') /\
  same_filters same3 (CorrFilter.mccf fft y l solve X) (CorrFilter.mccf fft y l solve X') /\
  (forall A B n f, same_filters same2 (CorrFilter.imosse fft y l A B n X f) (CorrFilter.imosse fft y l A B n X' f)) /\
  (forall A B n f, same_filters same3 (CorrFilter.imccf fft y l solve A B n X f) (CorrFilter.imccf fft y l solve A B n X' f)).
Proof.
  intros I fft y l solve X X' HS P.
  pose proof (auto_perm fft X X' P) as E1. pose proof (cross_perm fft y X X' P) as E2. pose proof (blocks_perm fft X X' P) as E3.
  split; [|split; [|split]].
  - unfold CorrFilter.mosse. destruct X as [|x X]; [apply Permutation_nil in P; subst; reflexivity|].
    destruct X' as [|x' X']; [apply Permutation_sym, Permutation_nil in P; discriminate|]. cbn [same_filters].
    split; [|split; assumption]. intros c w. unfold CorrFilter.mosse_filter. rewrite E1, E2. reflexivity.
  - unfold CorrFilter.mccf. destruct X as [|x X]; [apply Permutation_nil in P; subst; reflexivity|].
    destruct X' as [|x' X']; [apply Permutation_sym, Permutation_nil in P; discriminate|]. cbn [same_filters].
    split; [|split; assumption]. apply HS; [apply regularised_ext; assumption|assumption].
  - intros A B n f. unfold CorrFilter.imosse. rewrite (Permutation_length P). destruct (Req_EM_T _ 0); [reflexivity|]. cbn [same_filters].
    split; [|split]; intros c w; unfold CorrFilter.mosse_filter; rewrite ?E1, ?E2; reflexivity.
  - intros A B n f. unfold CorrFilter.imccf. rewrite (Permutation_length P). destruct (Req_EM_T _ 0); [reflexivity|]. cbn [same_filters].
    assert (E3' : forall nu mu, same3 (fun a b w => CorrFilter.cadd (CorrFilter.cscale nu (B a b w)) (CorrFilter.cscale mu (CorrFilter.auto_blocks fft X a b w)))
        (fun a b w => CorrFilter.cadd (CorrFilter.cscale nu (B a b w)) (CorrFilter.cscale mu (CorrFilter.auto_blocks fft X' a b w)))).
    { intros nu mu c d w. rewrite E3. reflexivity. }
    split; [|split].
    + apply HS; [apply regularised_ext, E3'|]. intros c w. rewrite E2. reflexivity.
    + intros c w. rewrite E2. reflexivity.
    + apply E3'.
Qed.
Print Assumptions c93_filters.

(** ** The cascade of supervised descent, trained or incremented: features and predictions row by row, regressors that
    see the set of their samples (the regressors of menpofit do, Props/RegOrder.v) *)
Theorem c93_cascade : forall (I S V R X : Type) (proj : S -> V) (inst : V -> S) (vadd vsub : V -> V -> V)
    (x : I -> S -> X) (features : list I -> list (list S) -> res (list X))
    (reg_train : list X -> list (option V) -> res R) (reg_increment : R -> list X -> list (option V) -> res R)
    (reg_predict : R -> list X -> res (list V)) (pred : R -> X -> V),
  (forall ims cur, length cur = length ims ->
     features ims cur = Ok (flat_map (fun p => map (x (fst p)) (snd p)) (combine ims cur))) ->
  (forall r f, reg_predict r f = Ok (map (pred r) f)) ->
  sample_order_free reg_train -> (forall r, sample_order_free (reg_increment r)) ->
  forall (increment : bool) (m n : nat) (old : option (list R)) (T T' : list (I * S * list S)),
  Permutation T T' -> (forall t, In t T -> length (snd t) = m) ->
  let run T := SdmTrain.train proj inst vadd vsub (features (map (fun t => fst (fst t)) T)) reg_train reg_increment reg_predict
                 increment n old (map (fun t => snd (fst t)) T) (map snd T) in
  same_cascade T T' (run T) (run T').
Proof.
  intros I S V R X proj inst vadd vsub x features rt ri rp pred HF HP HT HI inc m n old T T' P M.
  apply (TrainOrder.train_order proj inst vadd vsub x features rt ri rp pred HF HP HT HI inc m n old T T' P M).
Qed.
Print Assumptions c93_cascade.

(** A cascade that moves by the mean target. *)
Definition mean_of (d : list (option Z)) : Z := (fold_right Z.add 0 (map (fun o => match o with Some v => v | None => 0 end) d) / Z.of_nat (length d))%Z.
Definition o_features (ims : list Z) (cur : list (list Z)) : res (list Z) :=
  Ok (flat_map (fun p => map (fun s => (fst p + s)%Z) (snd p)) (combine ims cur)).
Definition o_train (f : list Z) (d : list (option Z)) : res Z := Ok (mean_of d).
Definition o_run T := SdmTrain.train (fun s : Z => s) (fun v => v) Z.add Z.sub
  (o_features (map (fun t => fst (fst t)) T)) o_train (fun r f d => Ok (r + mean_of d)%Z) (fun r f => Ok (map (fun _ => r) f))
  false 2 None (map (fun t => snd (fst t)) T) (map snd T).
Lemma o_mean : forall f d f' d' : list (option Z), length f = length d -> length f' = length d' -> Permutation (combine f d) (combine f' d') -> mean_of d = mean_of d'.
Proof.
  intros f d f' d' L L' P. apply (Permutation_map snd) in P.
  assert (C : forall A (a b : list A), length a = length b -> map snd (combine a b) = b).
  { induction a as [|u a IH]; intros [|v b] H; try discriminate; auto. cbn. f_equal. apply IH. cbn in H. lia. }
  rewrite !C in P by assumption. unfold mean_of. rewrite (Permutation_length P). f_equal.
  clear L L' C f f'. induction P; cbn; lia.
Qed.
Lemma o_free : sample_order_free o_train.
Proof.
  intros f d f' d' L L' P. unfold o_train. f_equal.
  apply (o_mean (map Some f) d (map Some f') d'); [rewrite map_length; assumption|rewrite map_length; assumption|].
  assert (E : forall (a : list Z) (b : list (option Z)), combine (map Some a) b = map (fun q => (Some (fst q), snd q)) (combine a b)).
  { induction a as [|u a IH]; intros [|v b]; try reflexivity. cbn. rewrite IH. reflexivity. }
  rewrite !E. apply Permutation_map. exact P.
Qed.
Example c93_cascade_example :
  sample_order_free o_train /\
  let T := [(1, 10, [7; 8]); (2, 20, [17; 23])]%Z in let T' := [(2, 20, [17; 23]); (1, 10, [7; 8])]%Z in
  Permutation T T' /\
  (exists steps, o_run T = Ok (steps, [1; 0], [[8; 9]; [18; 24]])%Z) /\ (exists steps, o_run T' = Ok (steps, [1; 0], [[18; 24]; [8; 9]])%Z).
Proof.
  split; [exact o_free|]. cbn zeta. split; [apply perm_swap|]. split; eexists; reflexivity.
Qed.

(** Uneven numbers of perturbations are not covered, rightly: with more of them in the first image rows are missing,
    with fewer training fails (C39). *)
Theorem c93_uneven_matter : exists (T T' : list (Z * Z * list Z)), Permutation T T' /\
  (exists o, o_run T = Ok o) /\ o_run T' = Err IndexError.
Proof.
  exists [(1, 10, [7; 8]); (2, 20, [17])]%Z, [(2, 20, [17]); (1, 10, [7; 8])]%Z.
  split; [apply perm_swap|]. split; [eexists; reflexivity|reflexivity].
Qed.
Print Assumptions c93_uneven_matter.

(** ** Trained models.  Without batches: the same reference shape, and every statistical model is built from the same
    samples, in another order. *)
Theorem c93_models : forall (Img D Ref : Type) n_scales n_kinds (data : nat -> nat -> Ref -> list Img -> res (list D)) reference_of
    (sample : nat -> nat -> Ref -> Img -> D) (reference_shape : option Ref) items items',
  (forall k j ref b, data k j ref b = Ok (map (sample k j ref) b)) -> order_free reference_of -> Permutation items items' ->
  let run items := Train.construct n_scales n_kinds data reference_of reference_shape items None in
  snd (run items) = snd (run items') /\ Train.t_ref (fst (run items)) = Train.t_ref (fst (run items')) /\
  forall kind j : nat, Forall2 (Forall2 (@Permutation D))
    (Train.t_models (fst (run items)) kind) (Train.t_models (fst (run items')) kind).
Proof.
  intros Img D Ref ns nk data rof sample rs items items' HD HR P. cbn zeta.
  unfold Train.construct, Train.train. cbn [Train.batches_of Train.train_batches].
  set (st0 := Train.mkT rs (fun _ : nat => [])).
  assert (Q : forall a a', Forall2 (Forall2 (@Permutation D)) a a' -> forall d d', Permutation d d' -> Forall2 (Forall2 (@Permutation D)) (a ++ [[d]]) (a' ++ [[d']])).
  { intros a a' H d d' Hd. apply Forall2_app; [exact H|]. constructor; [|constructor]. constructor; [exact Hd|constructor]. }
  set (rel := fun o o' : Train.outcome (Train.tstate D Ref) => snd o = snd o' /\ Train.t_ref (fst o) = Train.t_ref (fst o') /\
       forall kind, Forall2 (Forall2 (@Permutation D)) (Train.t_models (fst o) kind) (Train.t_models (fst o') kind)).
  assert (RelA : forall o o' f f', rel o o' -> (forall s s', rel (s, None) (s', None) -> rel (f s) (f' s')) -> rel (Train.andthen o f) (Train.andthen o' f')).
  { intros [s e] [s' e'] f f' (H1 & H2) Hf. unfold Train.andthen. cbn [fst snd] in *. subst e'. destruct e; [split; auto|].
    apply Hf. split; [reflexivity|exact H2]. }
  assert (K : forall ref j k s s', rel (s, None) (s', None) -> rel (Train.train_kind data false ref items j k s) (Train.train_kind data false ref items' j k s')).
  { intros ref j k s s' (_ & R1 & R2). unfold Train.train_kind. rewrite !HD. split; [reflexivity|]. split; [exact R1|].
    intros kind. cbn. destruct (kind =? k); [|apply R2]. apply Q; [apply R2|]. apply Permutation_map. exact P. }
  assert (Ks : forall ref j ks s s', rel (s, None) (s', None) -> rel (Train.train_kinds data false ref items j ks s) (Train.train_kinds data false ref items' j ks s')).
  { intros ref j ks. induction ks as [|k ks IH]; intros s s' H; [exact H|]. cbn [Train.train_kinds]. apply RelA; [apply K; exact H|]. intros; apply IH; assumption. }
  assert (Sc : forall ref js s s', rel (s, None) (s', None) -> rel (Train.train_scales nk data false ref items js s) (Train.train_scales nk data false ref items' js s')).
  { intros ref js. induction js as [|j js IH]; intros s s' H; [exact H|]. cbn [Train.train_scales]. apply RelA; [apply Ks; exact H|]. intros; apply IH; assumption. }
  match goal with |- snd ?a = snd ?b /\ _ => enough (Z : rel a b) by (destruct Z as (Z1 & Z2 & Z3); split; [exact Z1|]; split; [exact Z2|]; intros; apply Z3) end.
  change (0 =? 0) with true. cbv iota.
  assert (R0 : rel (st0, None) (st0, None)) by (split; [reflexivity|]; split; [reflexivity|]; intros kind; constructor).
  apply RelA.
  - cbn [Train.t_ref st0]. destruct rs as [r|]; [exact R0|]. rewrite (HR items items' P). destruct (rof items'); [|split; [reflexivity|]; split; [reflexivity|]; intros kind; constructor].
    split; [reflexivity|]. split; [reflexivity|]. intros kind; constructor.
  - intros s s' H. change (0 <? 0) with false. apply RelA; [|intros; assumption].
    unfold Train.train_batch. pose proof (proj1 (proj2 H)) as H1. cbn [fst] in H1. rewrite <- H1. case (Train.t_ref s); [intros ref; apply Sc; exact H|].
    destruct H as (_ & H2). split; [reflexivity|exact H2].
Qed.
Print Assumptions c93_models.

(** With batches the reference shape is that of the first batch, so the order of the images decides. *)
Definition one_shape (x : R) : list (R * R) := [(0, 0); (x, x)]%R.
Definition shape_reference (b : list (list (R * R))) : res (list (R * R)) := ErrorR.compute_reference_shape b None.
Theorem c93_batches_matter : exists items items' : list (list (R * R)), Permutation items items' /\
  order_free shape_reference /\
  let run items := Train.construct 1 1 (fun _ _ (ref : list (R * R)) b => Ok b) shape_reference None items (Some 1%Z) in
  Train.t_ref (fst (run items)) <> Train.t_ref (fst (run items')) /\ snd (run items) = None /\ snd (run items') = None.
Proof.
  exists [one_shape 1; one_shape 2], [one_shape 2; one_shape 1]. split; [apply perm_swap|].
  split; [apply c93_reference_shape|]. cbn zeta. split; [|split; reflexivity].
  cbn. intros H. injection H as H. lra.
Qed.
Print Assumptions c93_batches_matter.

(** *** Instances *)
(** A solver of single-channel systems; filters of two images in both orders. *)
Definition one_channel (B : nat -> nat -> nat -> R * R) (a : nat -> nat -> R * R) : nat -> nat -> R * R := fun c w => CorrFilter.cdiv (a c w) (B c c w).
Example c93_filters_example : extensional one_channel /\
  let fft := fun (x : R) (_ _ : nat) => (x, 0%R) in
  same_filters same3 (CorrFilter.mccf fft (fun _ => (1, 0)%R) 1 one_channel [1; 2]%R) (CorrFilter.mccf fft (fun _ => (1, 0)%R) 1 one_channel [2; 1]%R).
Proof.
  assert (X : extensional one_channel) by (intros B B' a a' H K c w; unfold one_channel; rewrite H, K; reflexivity).
  split; [exact X|]. cbn zeta. apply (c93_filters R _ _ 1 one_channel [1; 2]%R [2; 1]%R X). apply perm_swap.
Qed.
(** Two images at one scale, one kind of model: the samples are the images themselves, moved by the reference. *)
Example c93_models_example :
  let run items := Train.construct 1 1 (fun _ _ (ref : Z) b => Ok (map (fun i => (i + ref)%Z) b)) (fun b => Ok (fold_right Z.add 0%Z b)) None items None in
  snd (run [1; 5]%Z) = None /\ Train.t_ref (fst (run [1; 5]%Z)) = Some 6%Z /\ Train.t_ref (fst (run [5; 1]%Z)) = Some 6%Z /\
  Train.t_models (fst (run [1; 5]%Z)) 0 = [[[7; 11]%Z]] /\ Train.t_models (fst (run [5; 1]%Z)) 0 = [[[11; 7]%Z]].
Proof. split; [reflexivity|]. split; [reflexivity|]. split; [reflexivity|]. split; reflexivity. Qed.
(** The mean of two shapes. *)
Example c93_reference_example : ErrorR.compute_reference_shape [one_shape 1; one_shape 3] None = Ok (one_shape 2) /\
  ErrorR.compute_reference_shape [one_shape 3; one_shape 1] None = Ok (one_shape 2).
Proof.
  assert (E : ErrorR.compute_reference_shape [one_shape 1; one_shape 3] None = Ok (one_shape 2)).
  { unfold ErrorR.compute_reference_shape, one_shape. cbn. do 2 f_equal; [f_equal; field|]. f_equal. f_equal; field. }
  split; [exact E|]. rewrite <- E. apply (c93_reference_shape None). apply perm_swap.
Qed.
