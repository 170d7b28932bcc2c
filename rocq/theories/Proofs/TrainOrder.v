From Coq Require Import List Arith Lia Permutation.
From Verif.Model Require Import Py Result SdmTrain.
From Verif.Spec Require Import TrainOrder.
From Verif.Proofs Require Import SdmTrain.
Import ListNotations.

Section P.
  Context {I S V R X : Type}.
  Variable proj : S -> V.
  Variable inst : V -> S.
  Variables vadd vsub : V -> V -> V.
  Variable x : I -> S -> X.
  Variable features : list I -> list (list S) -> res (list X).
  Variable reg_train : list X -> list (option V) -> res R.
  Variable reg_increment : R -> list X -> list (option V) -> res R.
  Variable reg_predict : R -> list X -> res (list V).
  Variable pred : R -> X -> V.
  Set Default Proof Using "Type".

  (** one image during training: image, ground truth, current shapes with their targets *)
  Notation block := (I * S * list (S * V))%type.
  Definition bim (b : block) : I := fst (fst b).
  Definition bgt (b : block) : S := snd (fst b).
  Definition bss (b : block) : list S := map fst (snd b).
  Definition bds (b : block) : list (option V) := map (fun sd => Some (snd sd)) (snd b).
  Definition bgs (b : block) : list (option V) := map (fun _ => Some (proj (bgt b))) (snd b).
  Definition bxs (b : block) : list X := map (fun sd => x (bim b) (fst sd)) (snd b).
  Definition move (r : R) (b : block) (s : S) : V := vadd (proj s) (pred r (x (bim b) s)).
  Definition adv (r : R) (b : block) : block :=
    (fst b, map (fun sd => (inst (move r b (fst sd)), vsub (proj (bgt b)) (move r b (fst sd)))) (snd b)).

  Lemma update_inner_fwd r b : forall (sds : list (S * V)) pe re pd pg rd rg,
    length pe = length pd -> length pg = length pd -> length sds <= length rd ->
    update_inner proj inst vadd vsub (pe ++ map (fun sd => pred r (x (bim b) (fst sd))) sds ++ re)
      (pg ++ map (fun _ => Some (proj (bgt b))) sds ++ rg) (map fst sds) (length pd) (pd ++ rd) =
    Ok (map (fun sd => inst (move r b (fst sd))) sds, length pd + length sds,
        pd ++ map (fun sd => Some (vsub (proj (bgt b)) (move r b (fst sd)))) sds ++ skipn (length sds) rd).
  Proof.
    induction sds as [|[s d] sds IH]; intros pe re pd pg rd rg L1 L2 L3; cbn [map app update_inner].
    - cbn. rewrite Nat.add_0_r. reflexivity.
    - destruct rd as [|y rd]; [cbn in L3; lia|]. cbn [fst].
      assert (E1 : nth_res (pe ++ pred r (x (bim b) s) :: map (fun sd => pred r (x (bim b) (fst sd))) sds ++ re) (length pd) = Ok (pred r (x (bim b) s))).
      { apply nth_res_some. rewrite <- L1, nth_error_app2, Nat.sub_diag by lia. reflexivity. }
      assert (E2 : nth_res (pg ++ Some (proj (bgt b)) :: map (fun _ => Some (proj (bgt b))) sds ++ rg) (length pd) = Ok (Some (proj (bgt b)))).
      { apply nth_res_some. rewrite <- L2, nth_error_app2, Nat.sub_diag by lia. reflexivity. }
      rewrite E1. cbn [bind]. rewrite E2. cbn [bind]. rewrite set_row_app. cbn [bind]. fold (move r b s).
      specialize (IH (pe ++ [pred r (x (bim b) s)]) re (pd ++ [Some (vsub (proj (bgt b)) (move r b s))]) (pg ++ [Some (proj (bgt b))]) rd rg).
      rewrite !app_length, <- !app_assoc in IH. cbn [length app] in IH.
      replace (length pd + 1) with (Datatypes.S (length pd)) in IH by lia.
      rewrite IH by (cbn in L3; lia). cbn [bind length skipn]. replace (Datatypes.S (length pd) + length sds) with (length pd + Datatypes.S (length sds)) by lia. reflexivity.
  Qed.

  Definition cur (T : list block) := map bss T.
  Definition del (T : list block) := flat_map bds T.
  Definition gr (T : list block) := flat_map bgs T.
  Definition est (r : R) (T : list block) := flat_map (fun b => map (pred r) (bxs b)) T.

  Lemma update_outer_fwd r : forall T pe pd pg, length pe = length pd -> length pg = length pd ->
    update_outer proj inst vadd vsub (pe ++ est r T) (pg ++ gr T) (cur T) (length pd) (pd ++ del T) =
    Ok (cur (map (adv r) T), pd ++ del (map (adv r) T)).
  Proof.
    induction T as [|b T IH]; intros pe pd pg L1 L2; [reflexivity|].
    cbn [cur map update_outer]. unfold est, gr, del at 1. cbn [flat_map]. fold (est r T) (gr T) (del T). fold (cur T).
    unfold bxs at 1. rewrite map_map. unfold bgs at 1, bss at 1.
    rewrite (update_inner_fwd r b (snd b) pe (est r T) pd pg (bds b ++ del T) (gr T) L1 L2)
      by (rewrite app_length; unfold bds; rewrite map_length; lia).
    cbn [bind]. rewrite skipn_app. unfold bds at 1 2. rewrite map_length, Nat.sub_diag. rewrite skipn_all2 by (rewrite map_length; lia).
    cbn [app skipn].
    assert (D : map (fun sd : S * V => Some (vsub (proj (bgt b)) (move r b (fst sd)))) (snd b) = bds (adv r b)).
    { unfold bds, adv. cbn [snd]. rewrite map_map. reflexivity. }
    rewrite D.
    assert (LB : length (bds (adv r b)) = length (snd b)) by (rewrite <- D; apply map_length).
    specialize (IH (pe ++ map (pred r) (bxs b)) (pd ++ bds (adv r b)) (pg ++ bgs b)).
    rewrite !app_length, <- !app_assoc, LB in IH. unfold bxs at 1, bgs at 1 in IH. rewrite !map_length in IH.
    rewrite IH by lia. cbn [bind]. unfold cur, del. cbn [map flat_map]. replace (bss (adv r b)) with (map (fun sd => inst (move r b (fst sd))) (snd b)); [reflexivity|].
    unfold bss, adv. cbn [snd]. rewrite map_map. reflexivity.
  Qed.

  Lemma gr_adv r T : gr (map (adv r) T) = gr T.
  Proof. induction T as [|b T IH]; [reflexivity|]. cbn. unfold gr in IH. rewrite IH. f_equal. unfold bgs, adv. cbn. rewrite map_map. reflexivity. Qed.
  Lemma ims_adv r T : map bim (map (adv r) T) = map bim T.
  Proof. rewrite map_map. reflexivity. Qed.

  Hypothesis features_rows : forall ims cur, length cur = length ims ->
    features ims cur = Ok (flat_map (fun p => map (x (fst p)) (snd p)) (combine ims cur)).
  Hypothesis predict_rows : forall r f, reg_predict r f = Ok (map (pred r) f).
  Hypothesis train_free : sample_order_free reg_train.
  Hypothesis increment_free : forall r, sample_order_free (reg_increment r).

  Definition frows (T : list block) := flat_map bxs T.
  Lemma features_eq T : features (map bim T) (cur T) = Ok (frows T).
  Proof using features_rows.
    rewrite features_rows by (unfold cur; rewrite !map_length; reflexivity). f_equal. unfold cur, frows.
    induction T as [|b T IH]; [reflexivity|]. cbn. rewrite IH. f_equal. unfold bss, bxs. rewrite map_map. reflexivity.
  Qed.
  Lemma est_eq r T : map (pred r) (frows T) = est r T.
  Proof. induction T as [|b T IH]; [reflexivity|]. cbn. rewrite map_app. unfold frows, est in IH. rewrite IH. reflexivity. Qed.

  Lemma combine_app {A B} (a : list A) : forall (b : list B) a' b', length a = length b -> combine (a ++ a') (b ++ b') = combine a b ++ combine a' b'.
  Proof. induction a as [|y a IH]; intros [|z b] a' b' L; try discriminate; auto. cbn. f_equal. apply IH. cbn in L. lia. Qed.
  Lemma samples T : combine (frows T) (del T) = flat_map (fun b => map (fun sd => (x (bim b) (fst sd), Some (snd sd))) (snd b)) T.
  Proof.
    induction T as [|b T IH]; [reflexivity|]. cbn. rewrite combine_app by (unfold bxs, bds; rewrite !map_length; reflexivity).
    unfold frows, del in IH. rewrite IH. f_equal. unfold bxs, bds. generalize (snd b). intros l. induction l as [|sd l IHl]; [reflexivity|]. cbn. f_equal. exact IHl.
  Qed.
  Lemma lens T : length (frows T) = length (del T).
  Proof. induction T as [|b T IH]; [reflexivity|]. cbn. rewrite !app_length. unfold frows, del in IH. rewrite IH. unfold bxs, bds. rewrite !map_length. reflexivity. Qed.
  Lemma samples_perm T T' : Permutation T T' -> Permutation (combine (frows T) (del T)) (combine (frows T') (del T')).
  Proof. intros P. rewrite !samples. apply Permutation_flat_map. exact P. Qed.

  Notation casc ims := (cascade proj inst vadd vsub (features ims) reg_train reg_increment reg_predict).

  Definition same_blocks (T T' : list block) (o o' : res (list (step S V (list X)) * list R * list (list S))) : Prop :=
    match o, o' with
    | Ok (_, regs, final), Ok (_, regs', final') =>
        regs = regs' /\ exists h : block -> list S, final = map h T /\ final' = map h T'
    | Err e, Err e' => e = e'
    | _, _ => False
    end.

  Lemma cascade_order inc : forall n k T T' regs, Permutation T T' ->
    same_blocks T T' (casc (map bim T) inc n k (gr T) (cur T) (del T) regs)
                     (casc (map bim T') inc n k (gr T') (cur T') (del T') regs).
  Proof using features_rows predict_rows train_free increment_free.
    induction n as [|n IH]; intros k T T' regs P; cbn [cascade].
    - split; [reflexivity|]. exists bss. split; reflexivity.
    - rewrite !features_eq. cbn [bind].
      assert (ER : (if inc then let? r := nth_res regs k in let? r' := reg_increment r (frows T) (del T) in Ok (firstn k regs ++ r' :: skipn (Datatypes.S k) regs)
                    else let? r := reg_train (frows T) (del T) in Ok (regs ++ [r])) =
                   (if inc then let? r := nth_res regs k in let? r' := reg_increment r (frows T') (del T') in Ok (firstn k regs ++ r' :: skipn (Datatypes.S k) regs)
                    else let? r := reg_train (frows T') (del T') in Ok (regs ++ [r]))).
      { pose proof (samples_perm T T' P) as Q. destruct inc.
        - destruct (nth_res regs k) as [r|]; [|reflexivity]. cbn [bind]. rewrite (increment_free r _ _ _ _ (lens T) (lens T') Q). reflexivity.
        - rewrite (train_free _ _ _ _ (lens T) (lens T') Q). reflexivity. }
      rewrite ER. clear ER. destruct (if inc then _ else _) as [regs'|e]; [|reflexivity]. cbn [bind].
      destruct (nth_res regs' k) as [r|e]; [|reflexivity]. cbn [bind].
      rewrite !predict_rows. cbn [bind]. rewrite !est_eq.
      pose proof (update_outer_fwd r T [] [] [] eq_refl eq_refl) as U. pose proof (update_outer_fwd r T' [] [] [] eq_refl eq_refl) as U'.
      cbn [app length] in U, U'. rewrite U, U'. cbn [bind].
      specialize (IH (Datatypes.S k) (map (adv r) T) (map (adv r) T') regs' (Permutation_map _ P)).
      rewrite !gr_adv, !ims_adv in IH.
      destruct (casc (map bim T) inc n (Datatypes.S k) (gr T) _ _ regs') as [[[s1 r1] f1]|e1];
      destruct (casc (map bim T') inc n (Datatypes.S k) (gr T') _ _ regs') as [[[s2 r2] f2]|e2]; cbn [bind same_blocks] in *; try contradiction; auto.
      destruct IH as (-> & h & -> & ->). split; [reflexivity|]. exists (fun b => h (adv r b)). rewrite !map_map. split; reflexivity.
  Qed.

  Notation item := (I * S * list S)%type.
  Definition to_block (t : item) : block := (fst t, map (fun s => (s, vsub (proj (snd (fst t))) (proj s))) (snd t)).
  Notation imt := (fun t : item => fst (fst t)).
  Notation gtt := (fun t : item => snd (fst t)).
  Notation sst := (fun t : item => snd t).

  Lemma cur_to T : cur (map to_block T) = map sst T.
  Proof. unfold cur. rewrite map_map. apply map_ext. intros t. unfold bss, to_block. cbn. rewrite map_map. apply map_id. Qed.
  Lemma drows_to T : drows proj vsub (map gtt T) (map sst T) = del (map to_block T).
  Proof. induction T as [|t T IH]; [reflexivity|]. unfold drows, del in *. cbn [map combine concat flat_map]. rewrite IH. f_equal. unfold drow, bds, to_block. cbn. rewrite map_map. reflexivity. Qed.
  Lemma grows_to T : grows proj (map gtt T) (map sst T) = gr (map to_block T).
  Proof. induction T as [|t T IH]; [reflexivity|]. unfold grows, gr in *. cbn [map combine concat flat_map]. rewrite IH. f_equal. unfold grow, bgs, to_block. cbn. rewrite map_map. reflexivity. Qed.

  Lemma train_order inc m n old T T' : Permutation T T' -> (forall t, In t T -> length (snd t) = m) ->
    same_cascade T T'
      (train proj inst vadd vsub (features (map imt T)) reg_train reg_increment reg_predict inc n old (map gtt T) (map sst T))
      (train proj inst vadd vsub (features (map imt T')) reg_train reg_increment reg_predict inc n old (map gtt T') (map sst T')).
  Proof using features_rows predict_rows train_free increment_free.
    intros P M. unfold train.
    destruct (if inc then _ else _) as [regs|e]; [|reflexivity]. cbn [bind].
    assert (Z : T = [] \/ T <> []) by (destruct T; [left|right]; congruence). destruct Z as [->|N].
    { apply Permutation_nil in P. subst T'. reflexivity. }
    assert (N' : T' <> []). { intros ->. apply Permutation_sym, Permutation_nil in P. congruence. }
    assert (RC : forall T0 : list item, (forall t, In t T0 -> length (snd t) = m) -> Spec.SdmTrain.rectangular m (map gtt T0) (map sst T0)).
    { intros T0 M0. split; [rewrite !map_length; reflexivity|]. intros i ss Hi. rewrite nth_error_map in Hi.
      destruct (nth_error T0 i) as [t|] eqn:E; [|discriminate]. injection Hi as <-. apply M0. eapply nth_error_In; eauto. }
    rewrite (compute_spec proj vsub m) by (auto; destruct T; discriminate || congruence).
    rewrite (compute_spec proj vsub m (map gtt T') (map sst T')).
    2:{ apply RC. intros t Ht. apply M. eapply Permutation_in; [apply Permutation_sym|]; eauto. }
    2:{ destruct T'; discriminate || congruence. }
    cbn [bind]. rewrite !drows_to, !grows_to.
    pose proof (cascade_order inc n 0 (map to_block T) (map to_block T') regs (Permutation_map _ P)) as C.
    rewrite !cur_to, !map_map in C.
    change (map (fun x0 : item => bim (to_block x0)) T) with (map imt T) in C.
    change (map (fun x0 : item => bim (to_block x0)) T') with (map imt T') in C.
    destruct (casc (map imt T) inc n 0 _ _ _ regs) as [[[s1 r1] f1]|e1];
    destruct (casc (map imt T') inc n 0 _ _ _ regs) as [[[s2 r2] f2]|e2]; cbn [same_blocks same_cascade] in *; try contradiction; auto.
    destruct C as (-> & h & -> & ->). split; [reflexivity|]. exists (fun t => h (to_block t)). rewrite !map_map. split; reflexivity.
  Qed.
End P.
