(** C76: training an algorithm again.  C77: fitting a training image from a training perturbation.  C78: verbose training. *)
From Coq Require Import List Arith ZArith Lia.
From Verif.Model Require Import Py Result SdmTrain SdmAlgorithm.
From Verif.Spec Require Import SdmAlgorithm.
From Verif.Proofs Require SdmAlgorithm.
Import ListNotations.
Local Open Scope nat_scope.

Section C76_78.
  Context {S V I X R M A E : Type}.
  Variables vadd vsub : V -> V -> V.
  Variable set_target : M -> S -> res M.
  Variable from_vector : M -> V -> res M.
  Variable vec : M -> V.
  Variable tgt : M -> S.
  Variable patches : I -> S -> res X.
  Variable build_appearance : nat -> list X -> res A.
  Variable appearance_feature : A -> X -> res X.
  Variable build_shape : list S -> res M.
  Variable reg_train : list X -> list (option V) -> res R.
  Variable reg_increment : R -> list X -> list (option V) -> res R.
  Variable reg_predict : R -> list X -> res (list V).
  Variable reg_predict1 : R -> X -> res V.
  Variable compute_error : S -> S -> S -> res E.
  Variable garbage : V.
  Notation train := (train vadd vsub set_target from_vector vec tgt patches build_appearance appearance_feature build_shape
                       reg_train reg_increment reg_predict compute_error garbage).
  Notation calls := (calls vadd vsub set_target from_vector vec tgt patches build_appearance appearance_feature build_shape
                       reg_train reg_increment reg_predict compute_error garbage).
  Notation fit := (fit vadd set_target from_vector vec tgt patches appearance_feature reg_predict1).
  Notation appearance_of := (appearance_of patches build_appearance).

  (** C76.  Algorithms without models of their own: whatever trainings and incremental trainings came before, training
      gives the regressors and the estimates a new algorithm would get from the same data, and fails whenever that
      would fail. *)
  Theorem c76_retrain_non_parametric : forall n a vb images gts cur,
    let kd := mkKind false false in
    match train kd vb false n a images gts cur, train kd vb false n fresh images gts cur with
    | Ok (a', o), Ok (b', o') => o = o' /\ a_regressors a' = a_regressors b'
    | Err e, Err e' => e = e'
    | _, _ => False
    end.
  Proof.
    intros n a vb images gts cur kd. unfold SdmAlgorithm.train. cbn [k_shape k_appearance kd bind fresh a_appearance a_shape].
    destruct (nth_res cur 0) as [c0|]; [|reflexivity]. cbn [bind]. destruct (nth_res gts 0); [|reflexivity]. cbn [bind].
    destruct (build_shape gts) as [m|]; [|reflexivity]. cbn [bind]. destruct (deltas _ _ _ m gts cur) as [[[m1 delta] gt]|]; [|reflexivity]. cbn [bind].
    unfold training_features. cbn [k_appearance kd].  destruct (loop _ _ _ _ _ _ _ _ _ _ _ _ _ _ _ _ _ _ _ _ _ _) as [o|]; [|reflexivity]. cbn. auto.
  Qed.

  Section Models.
  Variable same : M -> M -> Prop.
  Hypothesis ST : stateless set_target from_vector same.

  (** With shape or appearance models: the result is that of a new algorithm when the models kept from before are the
      ones the new data would give. *)
  Theorem c76_retrain_partial : forall kd n a images gts cur a' o,
    train kd false false n a images gts cur = Ok (a', o) ->
    (forall m, k_shape kd = true -> a_shape a = Some m -> exists m', build_shape gts = Ok m' /\ same m m') ->
    (forall ap, k_appearance kd = true -> a_appearance a = Some ap -> n <> 0 /\ appearance_of images gts = Ok ap) ->
    exists b' o', train kd false false n fresh images gts cur = Ok (b', o') /\
      o_regs o = o_regs o' /\ o_currents o = o_currents o' /\ o_final o = o_final o'.
  Proof.
    intros kd n a images gts cur a' o H HS HA. pose proof H as H0. apply Proofs.SdmAlgorithm.train_parts in H0.
    destruct H0 as (regs & c0 & m & m1 & delta & gt & app & _ & _ & _ & H4 & _ & H6 & _).
    assert (exists m', Proofs.SdmAlgorithm.shape_used build_shape kd (@fresh R M A) gts = Ok m' /\ same m m') as (m' & SB & SM).
    { unfold Proofs.SdmAlgorithm.shape_used in *. destruct (k_shape kd); cbn [fresh a_shape] in *.
      - destruct (a_shape a) as [ms|]; [injection H4 as ->; apply HS; auto|]. exists m. split; auto. apply (same_refl ST).
      - exists m. split; auto. apply (same_refl ST). }
    destruct (Proofs.SdmAlgorithm.train_same_models vadd vsub set_target from_vector vec tgt patches build_appearance appearance_feature build_shape
                reg_train reg_increment reg_predict compute_error garbage same ST kd n a fresh images gts cur a' o m m' app H4 SB SM H6) as (b' & o' & T & (A1 & A2 & A3 & A4)); auto.
    - unfold Proofs.SdmAlgorithm.app_used in *. destruct (k_appearance kd); [left|right; reflexivity]. cbn [fresh a_appearance].
      destruct (a_appearance a) as [ap|].
      + injection H6 as <-. destruct (HA ap eq_refl eq_refl) as [N Q]. destruct n; [congruence|]. rewrite Q. reflexivity.
      + exact H6.
    - exists b', o'. auto.
  Qed.

  (** The models are those of the first data an algorithm ever saw, for every later history. *)
  Theorem c76_first_models_kept : forall kd n inc vb images gts cur h a, n <> 0 ->
    calls kd n fresh (Call inc vb images gts cur :: h) = Ok a ->
    (k_shape kd = true -> exists m m', build_shape gts = Ok m /\ a_shape a = Some m' /\ same m m') /\
    (k_appearance kd = true -> exists ap, appearance_of images gts = Ok ap /\ a_appearance a = Some ap).
  Proof.
    intros kd n inc vb images gts cur h a N H. cbn [SdmAlgorithm.calls] in H.
    destruct (train kd vb inc n fresh images gts cur) as [[a1 o]|] eqn:T; [|discriminate]. cbn [bind] in H.
    destruct (Proofs.SdmAlgorithm.train_keeps _ _ _ _ _ _ _ _ _ _ _ _ _ _ _ _ ST _ _ _ _ _ _ _ _ _ _ T) as [K1 K2].
    assert (P : (k_shape kd = true -> exists m m', build_shape gts = Ok m /\ a_shape a1 = Some m' /\ same m m') /\
      (k_appearance kd = true -> exists ap, appearance_of images gts = Ok ap /\ a_appearance a1 = Some ap)).
    { split.
      - intros K. destruct (K1 K) as (m & m' & S1 & S2 & S3). unfold Proofs.SdmAlgorithm.shape_used in S1. rewrite K in S1. eauto.
      - intros K. unfold Proofs.SdmAlgorithm.app_used in K2. rewrite K in K2. cbn [fresh a_appearance] in K2. destruct n; [congruence|].
        destruct (appearance_of images gts) as [ap|]; [|discriminate]. cbn [bind] in K2. injection K2 as K2. eauto. }
    clear K1 K2 T. revert a1 P H. induction h as [|[inc' vb' im' g' c'] h IH]; intros a1 P H; [injection H as <-; exact P|].
    cbn [SdmAlgorithm.calls] in H. destruct (train kd vb' inc' n a1 im' g' c') as [[a2 o2]|] eqn:T; [|discriminate]. cbn [bind] in H.
    apply (IH a2); auto. destruct (Proofs.SdmAlgorithm.train_keeps _ _ _ _ _ _ _ _ _ _ _ _ _ _ _ _ ST _ _ _ _ _ _ _ _ _ _ T) as [K1 K2].
    destruct P as [P1 P2]. split.
    - intros K. destruct (P1 K) as (m & m' & Q1 & Q2 & Q3). destruct (K1 K) as (n1 & n2 & S1 & S2 & S3). unfold Proofs.SdmAlgorithm.shape_used in S1.
      rewrite K, Q2 in S1. injection S1 as <-. exists m, n2. split; auto. split; auto. eapply (same_trans ST); eauto.
    - intros K. destruct (P2 K) as (ap & Q1 & Q2). exists ap. split; auto. unfold Proofs.SdmAlgorithm.app_used in K2. rewrite K, Q2 in K2. injection K2 as <-. reflexivity.
  Qed.

  (** C77.  Fitting image i from its l-th training perturbation, in whatever state earlier fits left the shape model,
      gives exactly the estimates training had of that sample after each iteration, if the model can represent the
      perturbation and finds back the parameters of the estimates. *)
  Theorem c77_retraces_partial : forall kd vb inc n a images gts cur a' o i l im s m,
    rowwise reg_predict reg_predict1 ->
    train kd vb inc n a images gts cur = Ok (a', o) -> n <> 0 -> (inc = true -> length (a_regressors a) = n) ->
    nth_error images i = Some im -> sample cur i l = Some s -> same m (o_model o) ->
    in_model set_target tgt same (o_model o) s ->
    (forall c x, In c (tl (o_currents o)) -> sample c i l = Some x -> recovered set_target from_vector tgt same (o_model o) x) ->
    exists shapes m', fit kd a' m im s = Ok (shapes, m') /\ retraces (o_currents o) (o_final o) i l shapes /\ length shapes = n.
  Proof.
    intros kd vb inc n a images gts cur a' o i l im s m RW T N LI Hi Hs SM IM RC.
    apply Proofs.SdmAlgorithm.train_parts in T. destruct T as (regs & c0 & m0 & m1 & delta & gt & app & H1 & H2 & H3 & H4 & H5 & H6 & H7 & ->).
    assert (K : if inc then length regs = 0 + n else length regs = 0).
    { destruct inc; [|injection H1 as <-; reflexivity]. destruct (a_regressors a); [discriminate|]. injection H1 as <-. auto. }
    edestruct (Proofs.SdmAlgorithm.loop_regs _ _ _ _ _ _ _ _ _ _ _ _ ST _ _ _ _ _ _ _ _ _ _ _ _ _ H7) as (_ & LR & SO & LC); [destruct inc; lia|].
    assert (SE : exists mk, set_target m s = Ok mk).
    { destruct n as [|n]; [congruence|]. destruct (Proofs.SdmAlgorithm.loop_turn _ _ _ _ _ _ _ _ _ _ _ _ _ _ _ _ _ _ _ _ _ _ _ _ H7)
        as (f & regs' & r & est & pr & m2 & cur' & m3 & delta' & o' & _ & _ & _ & _ & Hv & Ho & Hl & _).
      destruct (Proofs.SdmAlgorithm.eouter_at _ _ _ _ _ _ _ ST _ _ _ _ _ _ _ _ _ Ho) as (_ & _ & _ & NX).
      destruct (NX i l s Hs) as (e & n1 & n2 & _ & Q & _). exists n1.
      rewrite (set_forgets ST m m2); auto. eapply (same_trans ST); [exact SM|]. eapply (same_trans ST); [apply (same_sym ST); exact SO|].
      eapply Proofs.SdmAlgorithm.print_turn_same; eauto. }
    destruct SE as [mk SE]. unfold SdmAlgorithm.fit. rewrite SE. cbn [bind a_appearance a_regressors].
    assert (S2 : same m mk) by (eapply (same_set ST); eauto).
    destruct (Proofs.SdmAlgorithm.loop_replay vadd vsub set_target from_vector vec tgt patches appearance_feature reg_train reg_increment reg_predict
                reg_predict1 compute_error garbage same ST RW kd app images i l im vb inc (length c0) gts Hi n 0 gt cur m1 delta regs o H7 K s mk) as (shapes & m' & F & RT); auto.
    - rewrite <- (set_forgets ST m mk s S2). exact SE.
    - eapply IM; [apply (same_sym ST); exact SM|exact SE].
    - eapply (same_trans ST); [apply (same_sym ST); exact S2|]. eapply (same_trans ST); [exact SM|]. apply (same_sym ST); exact SO.
    - intros c x Hin Hx p v p' Hp1. apply (RC c x Hin Hx p v p'). eapply (same_trans ST); [apply (same_sym ST); exact SO|exact Hp1].
    - cbn [skipn] in F. exists shapes, m'. split; auto. split; auto. destruct RT as [RT _]. lia.
  Qed.

  (** C78.  Training with verbose=True gives the same regressors, the same estimates after every iteration and the same
      models as without; *)
  Theorem c78_verbose_changes_nothing : forall kd inc n a images gts cur a' o,
    train kd true inc n a images gts cur = Ok (a', o) ->
    exists b' o', train kd false inc n a images gts cur = Ok (b', o') /\
      o_currents o = o_currents o' /\ o_final o = o_final o' /\ a_regressors a' = a_regressors b' /\ a_appearance a' = a_appearance b' /\
      match a_shape a', a_shape b' with Some m, Some m' => same m m' | None, None => True | _, _ => False end.
  Proof.
    intros kd inc n a images gts cur a' o H. destruct (Proofs.SdmAlgorithm.train_quiet _ _ _ _ _ _ _ _ _ _ _ _ _ _ _ _ ST _ _ _ _ _ _ _ _ _ H)
      as (b' & o' & T & (A1 & A2 & A3 & A4) & (B1 & B2 & B3)). exists b', o'. do 5 (split; auto).
  Qed.
  (** and it goes through whenever training without does, if the errors it prints can be computed; it prints once per
      iteration. *)
  Theorem c78_verbose_succeeds : forall kd inc n a images gts cur a' o,
    (forall m v, exists m', from_vector m v = Ok m') -> (forall x y z, exists e, compute_error x y z = Ok e) ->
    train kd false inc n a images gts cur = Ok (a', o) ->
    exists b' o', train kd true inc n a images gts cur = Ok (b', o') /\ o_final o = o_final o' /\ a_regressors a' = a_regressors b' /\
      length (o_printed o') = n.
  Proof.
    intros kd inc n a images gts cur a' o TF TE H. destruct (Proofs.SdmAlgorithm.train_loud _ _ _ _ _ _ _ _ _ _ _ _ _ _ _ _ ST _ _ _ _ _ _ _ _ _ TF TE H)
      as (b' & o' & T & (A1 & A2 & A3 & A4) & (B1 & B2 & B3) & PL). exists b', o'. do 3 (split; auto).
  Qed.
  End Models.

End C76_78.


(** ** The algorithms without shape model satisfy the hypotheses: their state is the shape itself *)
Section Free.
  Context {S V I X R A E : Type}.
  Variables vadd vsub : V -> V -> V.
  Variable as_vec : S -> V.
  Variable from_vec : S -> V -> S.
  Variable patches : I -> S -> res X.
  Variable build_appearance : nat -> list X -> res A.
  Variable appearance_feature : A -> X -> res X.
  Variable reg_train : list X -> list (option V) -> res R.
  Variable reg_increment : R -> list X -> list (option V) -> res R.
  Variable reg_predict : R -> list X -> res (list V).
  Variable reg_predict1 : R -> X -> res V.
  Variable compute_error : S -> S -> S -> res E.
  Variable garbage : V.
  Notation train := (train vadd vsub free_set_target (free_from_vector from_vec) as_vec (fun s : S => s) patches build_appearance
                       appearance_feature free_build reg_train reg_increment reg_predict compute_error garbage).
  Notation fit := (fit vadd free_set_target (free_from_vector from_vec) as_vec (fun s : S => s) patches appearance_feature reg_predict1).

  Lemma free_stateless : stateless (@free_set_target S) (free_from_vector from_vec) (fun _ _ => True).
  Proof. split; auto. Qed.

  (** C77 in full for the algorithms without shape model. *)
  Theorem c77_non_parametric : forall app vb inc n a images gts cur a' o i l im s m,
    let kd := mkKind false app in
    rowwise reg_predict reg_predict1 ->
    train kd vb inc n a images gts cur = Ok (a', o) -> n <> 0 -> (inc = true -> length (a_regressors a) = n) ->
    nth_error images i = Some im -> sample cur i l = Some s ->
    exists shapes m', fit kd a' m im s = Ok (shapes, m') /\ retraces (o_currents o) (o_final o) i l shapes /\ length shapes = n.
  Proof.
    intros app vb inc n a images gts cur a' o i l im s m kd RW T N LI Hi Hs.
    eapply (c77_retraces_partial vadd vsub free_set_target (free_from_vector from_vec) as_vec (fun s => s) patches build_appearance
             appearance_feature free_build reg_train reg_increment reg_predict reg_predict1 compute_error garbage _ free_stateless); eauto.
    - intros x x' _ H. injection H as <-. reflexivity.
    - intros c x _ _ p v p' _ _ <-. reflexivity.
  Qed.

  (** C78 in full for them: printing happens once per iteration and changes nothing. *)
  Theorem c78_non_parametric : forall app inc n a images gts cur a' o,
    let kd := mkKind false app in
    (forall x y z, exists e, compute_error x y z = Ok e) ->
    train kd false inc n a images gts cur = Ok (a', o) ->
    exists b' o', train kd true inc n a images gts cur = Ok (b', o') /\ o_final o = o_final o' /\ a_regressors a' = a_regressors b' /\
      length (o_printed o') = n.
  Proof.
    intros app inc n a images gts cur a' o kd TE H.
    eapply (c78_verbose_succeeds vadd vsub free_set_target (free_from_vector from_vec) as_vec (fun s => s) patches build_appearance
             appearance_feature free_build reg_train reg_increment reg_predict compute_error garbage _ free_stateless); eauto.
    intros p v. eexists. reflexivity.
  Qed.
End Free.

(** ** Worlds for the examples *)
Local Open Scope Z_scope.
(** Shapes are pairs; a shape model keeps one coordinate, chosen by the ground truth shapes it was built from. *)
Definition w_model := (bool * (Z * Z))%type.
Definition w_set (m : w_model) (s : Z * Z) : res w_model := Ok (fst m, if fst m then (fst s, 0) else (0, snd s)).
Definition w_from (m : w_model) (v : Z) : res w_model := Ok (fst m, if fst m then (v, 0) else (0, v)).
Definition w_vec (m : w_model) : Z := if fst m then fst (snd m) else snd (snd m).
Definition w_tgt (m : w_model) : Z * Z := snd m.
Definition w_same (m n : w_model) : Prop := fst m = fst n.
Definition w_build (gts : list (Z * Z)) : res w_model := match gts with g :: _ => Ok (snd g =? 0, g) | [] => Err ValueError end.
Lemma w_stateless : stateless w_set w_from w_same.
Proof. unfold w_set, w_from, w_same. split; try congruence; try (intros m s m' [= <-]; reflexivity). Qed.
(** One feature: [feat]; an appearance model is the first row it was built from, and its features are differences. *)
Definition w_app (_ : nat) (rows : list Z) : res Z := match rows with x :: _ => Ok x | [] => Err ValueError end.
(** The regressor is the slope seen in the first row. *)
Definition w_regress (f : list Z) (d : list (option Z)) : res Z :=
  match f, d with x :: _, Some y :: _ => Ok (if x =? 0 then 0 else y / x) | _, _ => Err ValueError end.
Definition w_predict (r : Z) (f : list Z) : res (list Z) := Ok (map (fun x => r * x) f).
Definition w_predict1 (r x : Z) : res Z := Ok (r * x).
Lemma w_rowwise : rowwise w_predict w_predict1.
Proof.
  intros r f p [= <-]. split; [apply map_length|]. intros j x H. exists (r * x). split; [|reflexivity]. rewrite nth_error_map, H. reflexivity.
Qed.
Definition w_train (feat : Z -> Z * Z -> Z) := train (E := Z) Z.add Z.sub w_set w_from w_vec w_tgt (fun im s => Ok (feat im s)) w_app (fun a x => Ok (x - a)) w_build
  w_regress (fun r _ _ => Ok r) w_predict (fun _ _ _ => Ok 0) 0.
Definition w_fit (feat : Z -> Z * Z -> Z) := fit Z.add w_set w_from w_vec w_tgt (fun im s => Ok (feat im s)) (fun (a : Z) x => Ok (x - a)) w_predict1.

(** C76 fails for the algorithms with models: trained first on other data, an algorithm ends up with other estimates than a
    new one (here: at the ground truth (0, 10) when new, at (0, 0) when retrained), because the shape model is that of the
    first data; *)
Theorem c76_shape_model_refuted : let feat := fun (_ : Z) s => fst s + snd s in let kd := mkKind true false in
  exists a1 o1 a2 o2 a3 o3,
    w_train feat kd false false 1 fresh [0] [(10, 0)] [[(7, 0)]] = Ok (a1, o1) /\
    w_train feat kd false false 1 a1 [0] [(0, 10)] [[(0, 5)]] = Ok (a2, o2) /\
    w_train feat kd false false 1 fresh [0] [(0, 10)] [[(0, 5)]] = Ok (a3, o3) /\
    o_final o2 = [[(0, 0)]] /\ o_final o3 = [[(0, 10)]].
Proof.
  intros feat kd. eexists _, _, _, _, _, _. split; [vm_compute; reflexivity|]. split; [vm_compute; reflexivity|]. split; [vm_compute; reflexivity|].
  split; reflexivity.
Qed.
(** likewise with an appearance model: shapes are numbers, the same shapes are trained on a darker and on a brighter image. *)
Definition w_train_free := train (E := Z) Z.add Z.sub free_set_target (free_from_vector (fun _ v : Z => v)) (fun s => s) (fun s => s)
  (fun im s => Ok (im + s)) w_app (fun a x => Ok (x - a)) free_build w_regress (fun r _ _ => Ok r) w_predict (fun _ _ _ => Ok 0) 0.
Theorem c76_appearance_model_refuted : let kd := mkKind false true in
  exists a1 o1 a2 o2 a3 o3,
    w_train_free kd false false 1 fresh [0] [10] [[7]] = Ok (a1, o1) /\
    w_train_free kd false false 1 a1 [100] [10] [[7]] = Ok (a2, o2) /\
    w_train_free kd false false 1 fresh [100] [10] [[7]] = Ok (a3, o3) /\
    o_final o2 = [[7]] /\ o_final o3 = [[10]].
Proof.
  intros kd. eexists _, _, _, _, _, _. split; [vm_compute; reflexivity|]. split; [vm_compute; reflexivity|]. split; [vm_compute; reflexivity|].
  split; reflexivity.
Qed.

(** C77 fails with a shape model when the training perturbation is not a shape of the model: training looks at the image at
    the perturbation itself, fitting at its projection.  Here training moves the only sample onto the ground truth (10, 0)
    and fitting the same image from the same perturbation does not move at all, although predictions are row by row, the
    model is stateless and finds back every shape it generates. *)
Theorem c77_projected_start_refuted : let feat := fun (_ : Z) s => snd s in let kd := mkKind true false in
  stateless w_set w_from w_same /\ rowwise w_predict w_predict1 /\ (forall m0 s, recovered w_set w_from w_tgt w_same m0 s) /\
  exists a o, w_train feat kd false false 1 fresh [0] [(10, 0)] [[(7, 3)]] = Ok (a, o) /\ o_final o = [[(10, 0)]] /\
    forall m, fst m = true -> w_fit feat kd a m 0 (7, 3) = Ok ([(7, 0)], (true, (7, 0))).
Proof.
  intros feat kd. split; [exact w_stateless|]. split; [exact w_rowwise|]. split.
  - intros m0 s m v m' _ H T. unfold w_from, w_set, w_tgt in *. injection H as <-. cbn in *. destruct (fst m); subst s; reflexivity.
  - eexists _, _. split; [vm_compute; reflexivity|]. split; [reflexivity|]. intros [b t] H. cbn in H. subst b. vm_compute. reflexivity.
Qed.

(** The hypotheses of c77_retraces_partial are met by a run that moves twice. *)
Example c77_example : let feat := fun (_ : Z) s => fst s in let kd := mkKind true false in
  exists a o, w_train feat kd true false 2 fresh [0; 0] [(10, 0); (20, 0)] [[(5, 0); (2, 0)]; [(10, 0); (3, 0)]] = Ok (a, o) /\
    in_model w_set w_tgt w_same (o_model o) (2, 0) /\
    w_fit feat kd a (o_model o) 0 (2, 0) = Ok ([(4, 0); (4, 0)], (true, (4, 0))) /\
    nth_error (o_currents o) 1 = Some [[(10, 0); (4, 0)]; [(20, 0); (6, 0)]].
Proof.
  intros feat kd. eexists _, _. split; [vm_compute; reflexivity|]. split.
  - intros m m' S [= <-]. unfold w_same in S. cbn in *. rewrite <- S. reflexivity.
  - split; vm_compute; reflexivity.
Qed.
(** Verbose and quiet training of that world agree, and the verbose one left other numbers in the model. *)
Example c78_example : let feat := fun (_ : Z) s => fst s in let kd := mkKind true false in
  exists a o b o', w_train feat kd true false 2 fresh [0] [(10, 0)] [[(5, 0); (2, 0)]] = Ok (a, o) /\
    w_train feat kd false false 2 fresh [0] [(10, 0)] [[(5, 0); (2, 0)]] = Ok (b, o') /\ a_regressors a = a_regressors b /\
    o_final o = o_final o' /\ o_printed o = [[0; 0]; [0; 0]] /\ o_printed o' = [].
Proof.
  intros feat kd. eexists _, _, _, _. split; [vm_compute; reflexivity|]. split; [vm_compute; reflexivity|]. do 3 (split; [reflexivity|]). reflexivity.
Qed.
(** A history on one algorithm that meets c76_first_models_kept and c76_retrain_partial: trained twice on the same data. *)
Example c76_example : let feat := fun (_ : Z) s => fst s + snd s in let kd := mkKind true false in
  exists a1 o1 a2 o2, w_train feat kd false false 1 fresh [0] [(10, 0)] [[(5, 0)]] = Ok (a1, o1) /\
    w_train feat kd false false 1 a1 [0] [(10, 0)] [[(5, 0)]] = Ok (a2, o2) /\ o_final o1 = [[(10, 0)]] /\ o_final o2 = [[(10, 0)]] /\
    (exists m m', w_build [(10, 0)] = Ok m /\ a_shape a1 = Some m' /\ w_same m m').
Proof.
  intros feat kd. eexists _, _, _, _. split; [vm_compute; reflexivity|]. split; [vm_compute; reflexivity|]. split; [reflexivity|]. split; [reflexivity|].
  eexists _, _. split; [reflexivity|]. split; reflexivity.
Qed.

Print Assumptions c76_retrain_non_parametric.
Print Assumptions c76_retrain_partial.
Print Assumptions c76_first_models_kept.
Print Assumptions c76_shape_model_refuted.
Print Assumptions c76_appearance_model_refuted.
Print Assumptions c77_retraces_partial.
Print Assumptions c77_non_parametric.
Print Assumptions c77_projected_start_refuted.
Print Assumptions c78_verbose_changes_nothing.
Print Assumptions c78_verbose_succeeds.
Print Assumptions c78_non_parametric.
