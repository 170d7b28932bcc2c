(** C39: the regression targets of cascade training. *)
From Coq Require Import List Arith ZArith Lia.
From Verif.Model Require Import Py Result SdmTrain.
From Verif.Spec Require Import SdmTrain.
From Verif.Proofs Require SdmTrain.
Import ListNotations.
Local Open Scope nat_scope.

Section C39.
  Context {S V R F : Type}.
  Variable proj : S -> V.
  Variable inst : V -> S.
  Variables vadd vsub : V -> V -> V.
  Variable features : list (list S) -> res F.
  Variable reg_train : F -> list (option V) -> res R.
  Variable reg_increment : R -> F -> list (option V) -> res R.
  Variable reg_predict : R -> F -> res (list V).
  Notation train := (train proj inst vadd vsub features reg_train reg_increment reg_predict).

  (** Training and incrementing, parametric or not (a parametric model must find the parameters a shape
      was generated from): with m perturbations per image, every iteration sees as target of perturbation
      l of image i the ground truth of image i minus the current estimate (row i*m+l), with the features
      of the same estimates; the estimates move by the row predicted for them; there is one iteration and
      one new regressor per n_iterations. *)
  Theorem c39_targets : forall inc n old m gts cur steps regs final,
    (forall v, proj (inst v) = v) ->
    rectangular m gts cur -> gts <> [] ->
    train inc n old gts cur = Ok (steps, regs, final) ->
    length steps = n /\
    Forall (fun s => rectangular m gts (st_current s) /\ targets_ok proj vsub m gts (st_current s) (st_delta s) /\
                     features (st_current s) = Ok (st_features s)) steps /\
    match steps with s :: _ => st_current s = cur | [] => final = cur end /\
    linked proj inst vadd m steps final /\ rectangular m gts final /\
    length regs = (if inc then match old with Some l => length l | None => 0 end else n).
  Proof.
    intros inc n old m gts cur steps regs final PI RC NE H. unfold SdmTrain.train in H.
    destruct (if inc then _ else _) as [rs|] eqn:E; [|discriminate]. cbn [bind] in H.
    rewrite (Proofs.SdmTrain.compute_spec proj vsub m) in H by auto. cbn [bind] in H.
    apply (Proofs.SdmTrain.cascade_spec proj inst vadd vsub features reg_train reg_increment reg_predict PI inc m) in H; auto.
    destruct H as (H1 & H2 & H3 & H4 & H5 & H6). do 4 (split; auto). split; auto. rewrite H6. destruct inc.
    - destruct old as [[|r l]|]; try discriminate. injection E as <-. reflexivity.
    - injection E as <-. reflexivity.
  Qed.

  (** Training anew forgets the regressors of an earlier training; incrementing an untrained algorithm is
      refused. *)
  Theorem c39_train_resets : forall n old gts cur, train false n old gts cur = train false n None gts cur.
  Proof. reflexivity. Qed.
  Theorem c39_increment_untrained : forall n gts cur old, (old = None \/ old = Some []) ->
    train true n old gts cur = Err ValueError.
  Proof. intros n gts cur old [-> | ->]; reflexivity. Qed.

  (** Training goes through whenever features, regressors and predictions do and a prediction has one row
      per sample. *)
  Theorem c39_training_succeeds : forall n old m gts cur,
    (forall v, proj (inst v) = v) -> rectangular m gts cur -> gts <> [] ->
    (forall c, exists f, features c = Ok f) ->
    (forall f d, exists r, reg_train f d = Ok r) ->
    (forall r f, exists p, reg_predict r f = Ok p /\ length p = length gts * m) ->
    exists out, train false n old gts cur = Ok out.
  Proof.
    intros n old m gts cur PI RC NE HF HT HP. unfold SdmTrain.train. cbn [bind].
    rewrite (Proofs.SdmTrain.compute_spec proj vsub m) by auto. cbn [bind]. clear NE.
    assert (X : forall n k cur regs, rectangular m gts cur -> length regs = k -> exists out,
      cascade proj inst vadd vsub features reg_train reg_increment reg_predict false n k
        (Proofs.SdmTrain.grows proj gts cur) cur (Proofs.SdmTrain.drows proj vsub gts cur) regs = Ok out).
    { clear RC n cur. induction n as [|n IH]; intros k cur regs RC LK; [eexists; reflexivity|]. cbn [cascade].
      destruct (HF cur) as [f ->]. cbn [bind]. destruct (HT f (Proofs.SdmTrain.drows proj vsub gts cur)) as [r ->]. cbn [bind].
      replace (nth_res (regs ++ [r]) k) with (Ok r)
        by (symmetry; apply Proofs.SdmTrain.nth_res_some; rewrite nth_error_app2, LK, Nat.sub_diag by lia; reflexivity).
      cbn [bind]. destruct (HP r f) as (p & -> & LP). cbn [bind].
      assert (U : exists o, update_outer proj inst vadd vsub p (Proofs.SdmTrain.grows proj gts cur) cur 0
                              (Proofs.SdmTrain.drows proj vsub gts cur) = Ok o).
      { assert (Y : forall gts cur pd pg rd, length cur = length gts -> (forall i ss, nth_error cur i = Some ss -> length ss = m) ->
          length pd = length pg -> length rd = length cur * m -> length p >= length pd + length cur * m ->
          exists o, update_outer proj inst vadd vsub p (pg ++ Proofs.SdmTrain.grows proj gts cur) cur (length pd) (pd ++ rd) = Ok o).
        { clear - PI. induction gts as [|g gts IH]; intros [|ss cur] pd pg rd L H L1 L2 L3; try discriminate; [eexists; reflexivity|].
          cbn [update_outer]. cbn [length Nat.mul] in L2, L3. pose proof (H 0 ss eq_refl) as Ls.
          change (Proofs.SdmTrain.grows proj (g :: gts) (ss :: cur)) with (Proofs.SdmTrain.grow proj g ss ++ Proofs.SdmTrain.grows proj gts cur).
          assert (I0 : forall ss pd pg rd rg, length pd = length pg -> length ss <= length rd -> length p >= length pd + length ss ->
            exists o, update_inner proj inst vadd vsub p (pg ++ Proofs.SdmTrain.grow proj g ss ++ rg) ss (length pd) (pd ++ rd) = Ok o).
          { clear. induction ss as [|s ss IH]; intros pd pg rd rg L1 L2 L3; [eexists; reflexivity|]. cbn [length] in L2, L3. cbn [update_inner].
            destruct (nth_res p (length pd)) as [e|] eqn:E.
            2:{ unfold nth_res in E. destruct (nth_error p (length pd)) eqn:E2; [discriminate|]. apply nth_error_None in E2. lia. }
            cbn [bind].
            replace (nth_res (pg ++ Proofs.SdmTrain.grow proj g (s :: ss) ++ rg) (length pd)) with (Ok (Some (proj g)))
              by (symmetry; apply Proofs.SdmTrain.nth_res_some; rewrite L1, nth_error_app2, Nat.sub_diag by lia; reflexivity).
            cbn [bind]. destruct rd as [|x rd]; [cbn in L2; lia|]. rewrite Proofs.SdmTrain.set_row_app. cbn [bind].
            set (row := Some (vsub (proj g) (vadd (proj s) e))).
            specialize (IH (pd ++ [row]) (pg ++ [Some (proj g)]) rd rg). rewrite <- !app_assoc, !app_length in IH. cbn [app length] in IH.
            destruct IH as [[[o1 o2] o3] IH]; [lia|cbn in L2; lia|lia|].
            replace (length pd + 1) with (Datatypes.S (length pd)) in IH by lia.
            cbn [Proofs.SdmTrain.grow map app]. unfold Proofs.SdmTrain.grow in IH. rewrite IH. eexists. reflexivity. }
          destruct (I0 ss pd pg rd (Proofs.SdmTrain.grows proj gts cur)) as [[[o1 o2] o3] E]; [lia|lia|lia|].
          rewrite E. cbn [bind]. apply (Proofs.SdmTrain.update_inner_spec proj inst vadd vsub PI) in E; [|lia|lia].
          destruct E as (-> & Lo & -> & _). rewrite !app_assoc.
          replace (length pd + length ss) with (length (pd ++ Proofs.SdmTrain.drow proj vsub g o1))
            by (rewrite app_length; unfold Proofs.SdmTrain.drow; rewrite map_length; lia).
          edestruct IH as [[o4 o5] E2]; [| | | | |rewrite E2; eexists; reflexivity].
          - cbn in L; lia.
          - intros i s0 Hs. apply (H (Datatypes.S i) s0 Hs).
          - rewrite !app_length. unfold Proofs.SdmTrain.drow, Proofs.SdmTrain.grow. rewrite !map_length. lia.
          - rewrite skipn_length. lia.
          - rewrite app_length. unfold Proofs.SdmTrain.drow. rewrite map_length. lia. }
        destruct RC as [RC1 RC2]. apply (Y gts cur [] []); auto.
        - rewrite RC1. apply (Proofs.SdmTrain.drows_targets proj vsub m gts cur). split; auto.
        - cbn. lia. }
      destruct U as [[cur' d'] U]. rewrite U. cbn [bind].
      apply (Proofs.SdmTrain.update_outer_spec proj inst vadd vsub PI m p gts cur cur' [] [] (Proofs.SdmTrain.drows proj vsub gts cur)) in U;
        [|apply RC|apply RC|reflexivity|rewrite (proj1 RC); apply (Proofs.SdmTrain.drows_targets proj vsub m gts cur); auto].
      destruct U as (L & -> & N). cbn [app]. destruct RC as [RC1 RC2].
      assert (RC' : rectangular m gts cur').
      { split; [lia|]. intros i ss' Hs. destruct (nth_error cur i) as [ss|] eqn:E.
        - destruct (N i ss E) as (s2 & N1 & N2 & _). rewrite N1 in Hs. injection Hs as <-. rewrite N2. eapply RC2; eauto.
        - apply nth_error_None in E. assert (i < length cur') by (apply nth_error_Some; congruence). lia. }
      rewrite (Proofs.SdmTrain.grows_indep proj gts cur cur').
      - destruct (IH (Datatypes.S k) cur' (regs ++ [r]) RC') as [[[a b] c] ->]; [rewrite app_length; cbn; lia|]. eexists. reflexivity.
      - lia.
      - intros i a b Ha Hb. destruct (N i a Ha) as (s2 & N1 & N2 & _). rewrite N1 in Hb. injection Hb as <-. auto. }
    apply X; auto.
  Qed.
End C39.

(** A world for the examples: shapes are their own vectors, integers; the features are the shapes; a
    regressor remembers the largest target and predicts the target it saw first. *)
Local Open Scope Z_scope.
Definition ex_train := train (S := Z) (V := Z) (R := Z) (F := list (list Z)) (fun s => s) (fun v => v) Z.add Z.sub
  (fun c => Ok c) (fun f d => match d with Some x :: _ => Ok x | _ => Ok 0 end)
  (fun r f d => Ok r) (fun r f => Ok (map (fun _ => r) (concat f))).

Example c39_targets_example :
  exists steps regs final, ex_train false 2 None [10; 20] [[7; 8]; [17; 23]] = Ok (steps, regs, final) /\
    rectangular 2 [10; 20] [[7; 8]; [17; 23]] /\
    map st_delta steps = [[Some 3; Some 2; Some 3; Some (-3)]; [Some 0; Some (-1); Some 0; Some (-6)]] /\
    regs = [3; 0] /\ final = [[10; 11]; [20; 26]].
Proof.
  eexists _, _, _. split; [reflexivity|]. split; [|repeat split].
  split; [reflexivity|]. intros [|[|i]] ss; cbn; try (intros [= <-]; reflexivity). destruct i; discriminate.
Qed.

(** Images with different numbers of perturbed shapes (a box glob matching more boxes in the first image
    than in another one): rows of the targets are never written and the regressor is trained on whatever
    was in memory; with fewer boxes in the first image training fails with an IndexError. *)
Theorem c39_uneven_perturbations_refuted :
  (exists steps regs final, ex_train false 1 None [10; 20] [[7; 8]; [17]] = Ok (steps, regs, final) /\
     exists s, nth_error steps 0 = Some s /\ nth_error (st_delta s) 3 = Some None) /\
  ex_train false 1 None [10; 20] [[7]; [17; 23]] = Err IndexError.
Proof. split; [|reflexivity]. eexists _, _, _. split; [reflexivity|]. eexists. split; reflexivity. Qed.

Print Assumptions c39_targets.
Print Assumptions c39_train_resets.
Print Assumptions c39_increment_untrained.
Print Assumptions c39_training_succeeds.
Print Assumptions c39_uneven_perturbations_refuted.
