(** C81: supervised descent on an active appearance model: fits from training perturbations, training again and verbose
    training. *)
From Coq Require Import List Arith ZArith Lia.
From Verif.Model Require Import Py Result SdmTrain SdmAlgorithm SdAam.
From Verif.Spec Require Import SdmAlgorithm SdAam.
From Verif.Proofs Require SdmAlgorithm SdAam.
From Verif.Props Require SdmAlgorithm.
Import ListNotations.
Local Open Scope nat_scope.

Section C81.
  Context {S V I X R M E : Type}.
  Variables vadd vsub : V -> V -> V.
  Variable set_target : M -> S -> res M.
  Variable from_vector : M -> V -> res M.
  Variable vec : M -> V.
  Variable tgt : M -> S.
  Variable feature : I -> M -> res X.
  Variable reg_train : list X -> list (option V) -> res R.
  Variable reg_increment : R -> list X -> list (option V) -> res R.
  Variable reg_predict : R -> list X -> res (list V).
  Variable reg_predict1 : R -> X -> res V.
  Variable compute_error : S -> S -> S -> res E.
  Variable garbage : V.
  Notation train := (sd_train vadd vsub set_target from_vector vec tgt feature reg_train reg_increment reg_predict compute_error garbage).
  Notation fit := (sd_fit vadd set_target from_vector vec tgt feature reg_predict1).
  Variable same : M -> M -> Prop.
  Hypothesis ST : stateless set_target from_vector same.

  (** A fit of training image i from its l-th perturbation, whatever shape that is: it starts from the shape the model settles on
      and its shapes are the estimates training had of that sample. *)
  Theorem c81_retraces : forall vb inc n a images gts cur a' o i l im s,
    rowwise reg_predict reg_predict1 -> (forall m v m', from_vector m v = Ok m' -> vec m' = v) ->
    train vb inc n a images gts cur = Ok (a', o) -> n <> 0 -> (inc = true -> length (sd_regressors a) = n) ->
    nth_error images i = Some im -> sample cur i l = Some s ->
    settles set_target tgt same (o_model o) s ->
    (forall c x, In c (tl (o_currents o)) -> sample c i l = Some x -> recovered set_target from_vector tgt same (o_model o) x) ->
    exists ps t shapes m', fit a' im s = Ok (ps, t :: shapes, m') /\ settled_on set_target tgt (o_model o) s t /\
      retraces (o_currents o) (o_final o) i l shapes /\ length shapes = n /\ length ps = n + 1.
  Proof.
    intros vb inc n a images gts cur a' o i l im s RW RB T N LI Hi Hs SE RC.
    apply Proofs.SdAam.train_parts' in T. destruct T as (regs & c0 & m1 & delta & gt & H1 & H2 & H3 & H4 & H5 & ->).
    assert (K : if inc then length regs = 0 + n else length regs = 0).
    { destruct inc; [|injection H1 as <-; reflexivity]. destruct (sd_regressors a); [discriminate|]. injection H1 as <-. auto. }
    destruct (Proofs.SdAam.sd_regs vadd vsub set_target from_vector vec tgt feature reg_train reg_increment reg_predict compute_error garbage
                same ST _ _ _ _ _ _ _ _ _ _ _ _ _ H5) as (_ & LR & SO & LC); [destruct inc; auto|].
    destruct n as [|n]; [congruence|].
    destruct (Proofs.SdAam.sd_turn _ _ _ _ _ _ _ _ _ _ _ _ _ _ _ _ _ _ _ _ _ _ _ _ _ H5) as (f & m0 & ? & ? & ? & ? & ? & ? & ? & ? & ? & Hf & _).
    destruct (Proofs.SdAam.trfeat_at set_target from_vector feature same ST _ _ _ _ _ Hf) as (_ & FA). destruct (FA i l im s Hi Hs) as (xf & mk & _ & Hk & _).
    assert (Ho : set_target (o_model o) s = Ok mk) by (rewrite <- (set_forgets ST m1 (o_model o) s SO); exact Hk).
    destruct (Proofs.SdAam.sd_replay vadd vsub set_target from_vector vec tgt feature reg_train reg_increment reg_predict reg_predict1 compute_error garbage
                same ST RW RB images i l im vb inc (length c0) gts Hi (Datatypes.S n) 0 gt cur m1 delta regs o H5 K s mk Hs Hk) as (ps & shapes & m' & HF & HP & HR).
    - apply (SE m1 mk); auto. apply (same_sym ST). exact SO.
    - intros c y Hc Hy p v p' P1 P2 P3. apply (RC c y Hc Hy p v p'); auto. eapply (same_trans ST); [apply (same_sym ST); exact SO|exact P1].
    - unfold sd_fit. cbn [sd_transform sd_regressors]. rewrite Ho. cbn [bind skipn] in *. rewrite HF. cbn [bind].
      eexists _, _, _, _. split; [reflexivity|]. split; [exists mk; auto|]. split; [exact HR|]. destruct HR as [HL _]. cbn. split; lia.
  Qed.

  (** Training from scratch does not depend on what the algorithm was trained on or fitted to before. *)
  Theorem c81_retrain : forall n a b images gts cur a' o, same (sd_transform a) (sd_transform b) ->
    train false false n a images gts cur = Ok (a', o) ->
    exists b' o', train false false n b images gts cur = Ok (b', o') /\ sd_regressors a' = sd_regressors b' /\
      o_currents o = o_currents o' /\ o_final o = o_final o' /\ same (sd_transform a') (sd_transform b').
  Proof.
    intros n a b images gts cur a' o SM T. apply Proofs.SdAam.train_parts' in T. destruct T as (regs & c0 & m1 & delta & gt & H1 & H2 & H3 & H4 & H5 & ->).
    destruct (Proofs.SdmAlgorithm.deltas_same vsub set_target from_vector vec same ST _ _ _ _ _ _ _ SM H4) as (n1 & H4' & S1 & _).
    destruct (Proofs.SdAam.sd_loop_same vadd vsub set_target from_vector vec tgt feature reg_train reg_increment reg_predict compute_error garbage
                same ST _ _ _ _ _ _ _ _ _ _ _ _ _ S1 H5) as (o2 & L2 & (A1 & A2 & A3 & A4)).
    exists (mkSd (o_regs o2) (o_model o2)), o2. split; [|auto].
    apply Proofs.SdAam.train_parts'. exists regs, c0, n1, delta, gt. auto 10.
  Qed.

  (** Training, from scratch or incrementally, with verbose=True gives the regressors and estimates of training without, *)
  Theorem c81_verbose : forall inc n a images gts cur a' o, train true inc n a images gts cur = Ok (a', o) ->
    exists b' o', train false inc n a images gts cur = Ok (b', o') /\ sd_regressors a' = sd_regressors b' /\
      o_currents o = o_currents o' /\ o_final o = o_final o' /\ same (sd_transform a') (sd_transform b').
  Proof.
    intros inc n a images gts cur a' o T. apply Proofs.SdAam.train_parts' in T. destruct T as (regs & c0 & m1 & delta & gt & H1 & H2 & H3 & H4 & H5 & ->).
    destruct (Proofs.SdAam.sd_quiet vadd vsub set_target from_vector vec tgt feature reg_train reg_increment reg_predict compute_error garbage
                same ST _ _ _ _ _ _ _ _ _ _ _ _ _ _ (same_refl ST m1) H5) as (o2 & L2 & (A1 & A2 & A3 & A4)).
    exists (mkSd (o_regs o2) (o_model o2)), o2. split; [|auto].
    apply Proofs.SdAam.train_parts'. exists regs, c0, m1, delta, gt. auto 10.
  Qed.
  (** and succeeds whenever that does, if errors can be computed for all shapes. *)
  Theorem c81_verbose_succeeds : forall inc n a images gts cur a' o,
    (forall m v, exists m', from_vector m v = Ok m') -> (forall x y z, exists e, compute_error x y z = Ok e) ->
    train false inc n a images gts cur = Ok (a', o) ->
    exists b' o', train true inc n a images gts cur = Ok (b', o') /\ sd_regressors a' = sd_regressors b' /\
      o_final o = o_final o' /\ length (o_printed o') = n.
  Proof.
    intros inc n a images gts cur a' o TF TE T. apply Proofs.SdAam.train_parts' in T. destruct T as (regs & c0 & m1 & delta & gt & H1 & H2 & H3 & H4 & H5 & ->).
    destruct (Proofs.SdAam.sd_loud vadd vsub set_target from_vector vec tgt feature reg_train reg_increment reg_predict compute_error garbage
                same ST images inc (length c0) gts TF TE n 0 gt cur m1 m1 delta regs o (same_refl ST m1)) as (o2 & L2 & (A1 & A2 & A3 & A4) & PL); auto.
    - rewrite (Proofs.SdmAlgorithm.deltas_len _ _ _ _ _ _ _ _ _ _ H2 H4). auto.
    - exists (mkSd (o_regs o2) (o_model o2)), o2. split; [|auto].
      apply Proofs.SdAam.train_parts'. exists regs, c0, m1, delta, gt. auto 10.
  Qed.
End C81.

(** Feature extraction by the model-driven transform keeps the hypotheses of the shape model it contains: the transform forgets
    earlier states, settles, and finds back what it generated, because the warp always follows the shape model. *)
Section ModelDriven.
  Context {S V P : Type}.
  Variable p_set_target : P -> S -> res P.
  Variable p_sync : P -> res P.
  Variable p_from_vector : P -> V -> res P.
  Variable p_tgt : P -> S.
  Variable same : P -> P -> Prop.
  Hypothesis ST : stateless p_set_target p_from_vector same.
  Notation same_md := (fun t t' : md S P => same (md_pdm t) (md_pdm t')).
  (** Synchronising the shape model with its target is setting that target. *)
  Hypothesis SY : forall p, p_sync p = p_set_target p (p_tgt p).
  Theorem c81_transform_stateless : stateless (md_set_target p_set_target p_sync p_tgt) (md_from_vector p_from_vector p_tgt) same_md.
  Proof.
    split.
    - intros m. apply (same_refl ST).
    - intros m n. apply (same_sym ST).
    - intros m n p. apply (same_trans ST).
    - intros m s m' H. unfold md_set_target in H. rewrite ?SY in H. destruct (p_set_target (md_pdm m) s) as [p1|] eqn:E1; [|discriminate]. cbn [bind] in H. rewrite SY in H.
      destruct (p_set_target p1 (p_tgt p1)) as [p2|] eqn:E2; [|discriminate]. injection H as <-. cbn.
      eapply (same_trans ST); eapply (same_set ST); eauto.
    - intros m v m' H. unfold md_from_vector in H. destruct (p_from_vector (md_pdm m) v) as [p1|] eqn:E1; [|discriminate]. injection H as <-. cbn.
      eapply (same_from ST); eauto.
    - intros m n s SM. unfold md_set_target. rewrite (set_forgets ST _ _ s SM). reflexivity.
  Qed.
  Theorem c81_transform_settles : forall (t0 : md S P) s, settles p_set_target p_tgt same (md_pdm t0) s ->
    settles (md_set_target p_set_target p_sync p_tgt) (md_tgt p_tgt) same_md t0 s.
  Proof.
    intros t0 s H m m' SM E. unfold md_set_target in *. destruct (p_set_target (md_pdm m) s) as [p1|] eqn:E1; [|discriminate]. cbn [bind] in E.
    rewrite SY, (H _ _ SM E1) in E. cbn [bind] in E. injection E as <-. unfold md_tgt. cbn [md_pdm]. rewrite (H _ _ SM E1). cbn [bind].
    rewrite SY, (H _ _ SM E1). reflexivity.
  Qed.
  Theorem c81_transform_recovers : forall (t0 : md S P) s, recovered p_set_target p_from_vector p_tgt same (md_pdm t0) s ->
    recovered (md_set_target p_set_target p_sync p_tgt) (md_from_vector p_from_vector p_tgt) (md_tgt p_tgt) same_md t0 s.
  Proof.
    intros t0 s H m v m' SM E T. unfold md_from_vector in E. destruct (p_from_vector (md_pdm m) v) as [p1|] eqn:E1; [|discriminate]. injection E as <-.
    unfold md_tgt in T. cbn [md_pdm] in T. pose proof (H _ _ _ SM E1 T) as Q. unfold md_set_target. cbn [md_pdm]. rewrite Q. cbn [bind]. rewrite SY, T, Q. cbn [bind]. rewrite T. reflexivity.
  Qed.
End ModelDriven.

(** Hypotheses met: the world of C77 with its perturbation outside of the model.  There fits did not retrace; here they do. *)
Import Verif.Props.SdmAlgorithm.
Local Open Scope Z_scope.
Definition x_train := sd_train (E := Z) Z.add Z.sub w_set w_from w_vec w_tgt (fun (im : Z) m => Ok (im + fst (snd m))) w_regress (fun r _ _ => Ok (r + 1)) w_predict (fun _ _ _ => Ok 0) 0.
Definition x_fit := sd_fit Z.add w_set w_from w_vec w_tgt (fun (im : Z) m => Ok (im + fst (snd m))) w_predict1.
Example c81_example : (forall m v m', w_from m v = Ok m' -> w_vec m' = v) /\
  (forall m0 s, settles w_set w_tgt w_same m0 s) /\ (forall m0 s, recovered w_set w_from w_tgt w_same m0 s) /\
  exists a o, x_train true false 2 (mkSd [] (true, (0, 0))) [1; 2] [(10, 0); (20, 0)] [[(4, 3); (2, 5)]; [(10, 0); (3, 0)]] = Ok (a, o) /\
    o_final o = [[(9, 0); (5, 0)]; [(22, 0); (8, 0)]] /\
    x_fit a 1 (2, 5) = Ok ([2; 5; 5], [(2, 0); (5, 0); (5, 0)], (true, (5, 0))).
Proof.
  split; [|split; [|split]].
  - intros m v m' [= <-]. unfold w_vec. cbn. destruct (fst m); reflexivity.
  - intros m0 s m m' _ [= <-]. unfold w_set, w_tgt. cbn. destruct (fst m); reflexivity.
  - intros m0 s m v m' _ H T. unfold w_from, w_set, w_tgt in *. injection H as <-. cbn in *. destruct (fst m); subst s; reflexivity.
  - eexists _, _. split; [vm_compute; reflexivity|]. split; vm_compute; reflexivity.
Qed.
Print Assumptions c81_retraces.
Print Assumptions c81_retrain.
Print Assumptions c81_verbose.
Print Assumptions c81_verbose_succeeds.
Print Assumptions c81_transform_stateless.
Print Assumptions c81_transform_settles.
Print Assumptions c81_transform_recovers.
