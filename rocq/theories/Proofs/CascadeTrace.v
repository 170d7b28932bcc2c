(** What the loop of a supervised descent training does to the estimates, iteration by iteration. *)
From Coq Require Import List Arith Lia.
From Verif.Model Require Import Py Result SdmTrain SdmAlgorithm.
From Verif.Spec Require Import SdmTrain.
From Verif.Proofs Require Import SdmTrain.
From Verif.Proofs Require SdmAlgorithm.
Import ListNotations.

Section P.
  Context {S V I X R M A E : Type}.
  Variables vadd vsub : V -> V -> V.
  Variable set_target : M -> S -> res M.
  Variable from_vector : M -> V -> res M.
  Variable vec : M -> V.
  Variable tgt : M -> S.
  Variable patches : I -> S -> res X.
  Variable build_appearance : nat -> list X -> res A.
  Variable appearance_feature : A -> X -> res X.
  Variable build_shape : list S -> res M.
  Variable reg_train : list X -> list (option V) -> res R.
  Variable reg_increment : R -> list X -> list (option V) -> res R.
  Variable reg_predict : R -> list X -> res (list V).
  Variable compute_error : S -> S -> S -> res E.
  Variable garbage : V.
  (** The vector of a shape, the states of the shape model that may occur, and the shapes whose vector is found back. *)
  Variable proj : S -> V.
  Variable inv : M -> Prop.
  Variable good : S -> Prop.
  Hypothesis Hset : forall m s m', inv m -> set_target m s = Ok m' -> inv m' /\ vec m' = proj s.
  Hypothesis Hfrom : forall m v m', inv m -> from_vector m v = Ok m' -> inv m' /\ (good (tgt m') -> proj (tgt m') = v).
  Notation einner := (estimates_inner vadd vsub set_target from_vector vec tgt).
  Notation eouter := (estimates_outer vadd vsub set_target from_vector vec tgt).
  Notation dinner := (deltas_inner vsub set_target vec).
  Notation douter := (deltas_outer vsub set_target vec).
  Notation drow := (drow proj vsub).
  Notation grow := (grow proj).
  Notation drows := (drows proj vsub).
  Notation grows := (grows proj).
  Notation zipadd a b := (map (fun p => vadd (fst p) (snd p)) (combine a b)).

  Lemma nth_skip (l : list V) : forall k e, nth_error l k = Some e -> skipn k l = e :: skipn (Datatypes.S k) l.
  Proof. induction l as [|a l IH]; intros [|k] e H; try discriminate; [injection H as <-; reflexivity|]. cbn. apply IH. exact H. Qed.

  Lemma einner_rows est g : forall ss pd pg rd rg m out j' m' d', inv m -> length pd = length pg -> length ss <= length rd ->
    einner est (pg ++ grow g ss ++ rg) ss (length pd) m (pd ++ rd) = Ok (out, j', m', d') -> Forall good out ->
    inv m' /\ j' = length pd + length ss /\ length out = length ss /\ d' = pd ++ drow g out ++ skipn (length ss) rd /\
    map proj out = zipadd (map proj ss) (skipn (length pd) est).
  Proof using Hset Hfrom.
    induction ss as [|s ss IH]; intros pd pg rd rg m out j' m' d' IM L1 L2 H GO; cbn [estimates_inner] in H.
    - injection H as <- <- <- <-. cbn. repeat split; auto.
    - destruct (nth_res est (length pd)) as [e|] eqn:E1; [|discriminate]. cbn [bind] in H.
      destruct (set_target m s) as [m1|] eqn:E2; [|discriminate]. cbn [bind] in H.
      destruct (from_vector m1 _) as [m2|] eqn:E3; [|discriminate]. cbn [bind] in H.
      assert (G : nth_res (pg ++ grow g (s :: ss) ++ rg) (length pd) = Ok (Some (proj g))).
      { apply nth_res_some. rewrite L1, nth_error_app2, Nat.sub_diag by lia. reflexivity. }
      rewrite G in H. cbn [bind] in H. destruct rd as [|x rd]; [cbn in L2; lia|]. rewrite set_row_app in H. cbn [bind] in H.
      destruct (einner est _ ss _ _ _) as [[[[r' j1] m3] d1]|] eqn:U; [|discriminate]. cbn [bind] in H. injection H as <- <- <- <-.
      destruct (Hset _ _ _ IM E2) as [I1 V1]. destruct (Hfrom _ _ _ I1 E3) as [I2 V2].
      inversion GO as [|? ? G1 G2]; subst. specialize (V2 G1). rewrite V1 in V2.
      set (row := Some (vsub (proj g) (vadd (vec m1) e))) in *.
      specialize (IH (pd ++ [row]) (pg ++ [Some (proj g)]) rd rg m2 r' j1 m3 d1).
      rewrite <- !app_assoc, !app_length in IH. cbn [app length] in IH. cbn [SdmTrain.grow map app] in U.
      replace (Datatypes.S (length pd)) with (length pd + 1) in U by lia.
      destruct IH as (I3 & -> & L & -> & P); [exact I2|lia|cbn in L2; lia|exact U|exact G2|].
      split; [exact I3|]. split; [cbn [length]; lia|]. split; [cbn [length]; lia|]. split.
      { cbn [SdmTrain.drow map length skipn app]. subst row. rewrite V1, <- V2. reflexivity. }
      apply nth_res_some in E1. rewrite (nth_skip _ _ _ E1). cbn [map combine]. rewrite P, V2. cbn [fst snd]. f_equal.
      replace (length pd + 1) with (Datatypes.S (length pd)) by lia. reflexivity.
  Qed.

  Lemma skipn_plus {T} (l : list T) : forall a b, skipn (a + b) l = skipn b (skipn a l).
  Proof. induction l as [|x l IH]; intros [|a] b; cbn; try reflexivity; [destruct b; reflexivity|]. apply IH. Qed.
  Lemma combine_app_short {T U} : forall (a a' : list T) (b : list U), length a <= length b ->
    combine (a ++ a') b = combine a b ++ combine a' (skipn (length a) b).
  Proof.
    induction a as [|x a IH]; intros a' b L; [reflexivity|]. destruct b as [|y b]; [cbn in L; lia|]. cbn [app combine length skipn].
    rewrite IH; [reflexivity|cbn in L; lia].
  Qed.

  Lemma eouter_rows est : forall gts cur pd pg rd rg m out m' d', inv m -> length cur = length gts -> length pd = length pg ->
    length rd = length (concat cur) ->
    eouter est (pg ++ grows gts cur ++ rg) cur (length pd) m (pd ++ rd) = Ok (out, m', d') -> Forall (Forall good) out ->
    inv m' /\ map (@length S) out = map (@length S) cur /\ d' = pd ++ drows gts out /\
    map proj (concat out) = zipadd (map proj (concat cur)) (skipn (length pd) est).
  Proof using Hset Hfrom.
    induction gts as [|g gts IH]; intros [|ss cur] pd pg rd rg m out m' d' IM L L1 L2 H GO; try discriminate; cbn [estimates_outer] in H.
    - injection H as <- <- <-. cbn in L2. destruct rd; [|discriminate]. cbn. auto.
    - unfold SdmTrain.grows in H. cbn [combine map concat fst snd] in H. rewrite <- app_assoc in H. fold (grows gts cur) in H.
      destruct (einner est _ ss _ _ _) as [[[[o1 j1] m1] d1]|] eqn:U; [|discriminate]. cbn [bind] in H.
      destruct (eouter est _ cur _ _ _) as [[[o2 m2] d2]|] eqn:W; [|discriminate]. cbn [bind] in H. injection H as <- <- <-.
      inversion GO as [|? ? G1 G2]; subst. cbn [concat] in L2. rewrite app_length in L2.
      apply einner_rows in U; [|exact IM|exact L1|lia|exact G1]. destruct U as (I1 & -> & LO & -> & P1).
      replace (length pd + length ss) with (length (pd ++ drow g o1)) in W by (unfold SdmTrain.drow; rewrite app_length, map_length; lia).
      rewrite !app_assoc in W. rewrite <- (app_assoc (pg ++ grow g ss)) in W.
      apply IH in W; [|exact I1|cbn in L; lia| unfold SdmTrain.drow, SdmTrain.grow; rewrite !app_length, !map_length; lia |rewrite skipn_length; lia|exact G2].
      destruct W as (I2 & Q & -> & P2). split; [exact I2|]. split; [cbn [map]; f_equal; assumption|]. split.
      { unfold SdmTrain.drows. cbn [combine map concat fst snd]. rewrite <- app_assoc. reflexivity. }
      cbn [concat]. rewrite !map_app, P1, P2. rewrite combine_app_short, map_app, map_length.
      + f_equal. f_equal. f_equal. rewrite app_length. unfold SdmTrain.drow. rewrite map_length, LO. apply skipn_plus.
      + assert (Z := f_equal (@length V) P1). rewrite !map_length, combine_length, map_length in Z. rewrite map_length. lia.
  Qed.

  Lemma dinner_rows g : forall ss pd pg rd rg m k' m' d' g', inv m -> length pd = length pg -> length rd = length rg -> length ss <= length rd ->
    dinner (proj g) ss (length pd) m (pd ++ rd) (pg ++ rg) = Ok (k', m', d', g') ->
    inv m' /\ k' = length pd + length ss /\ d' = pd ++ drow g ss ++ skipn (length ss) rd /\ g' = pg ++ grow g ss ++ skipn (length ss) rg.
  Proof using Hset.
    induction ss as [|s ss IH]; intros pd pg rd rg m k' m' d' g' IM L1 L2 L3 H; cbn [deltas_inner] in H.
    - injection H as <- <- <- <-. cbn. repeat split; auto.
    - destruct rd as [|x rd]; [cbn in L3; lia|]. destruct rg as [|y rg]; [discriminate|].
      rewrite L1 in H at 1. rewrite set_row_app in H. cbn [bind] in H.
      destruct (set_target m s) as [m1|] eqn:E2; [|discriminate]. cbn [bind] in H. rewrite set_row_app in H. cbn [bind] in H.
      destruct (Hset _ _ _ IM E2) as [I1 V1]. rewrite V1 in H.
      replace (pd ++ Some (vsub (proj g) (proj s)) :: rd) with ((pd ++ [Some (vsub (proj g) (proj s))]) ++ rd) in H by (rewrite <- app_assoc; reflexivity).
      replace (pg ++ Some (proj g) :: rg) with ((pg ++ [Some (proj g)]) ++ rg) in H by (rewrite <- app_assoc; reflexivity).
      replace (Datatypes.S (length pd)) with (length (pd ++ [Some (vsub (proj g) (proj s))])) in H by (rewrite app_length; cbn; lia).
      apply IH in H; [|exact I1|rewrite !app_length; cbn; lia|cbn in L2; lia|cbn in L3; lia].
      destruct H as (I2 & -> & -> & ->). split; [exact I2|]. rewrite app_length, <- !app_assoc. cbn [length skipn SdmTrain.drow SdmTrain.grow map app].
      split; [lia|]. split; reflexivity.
  Qed.
  Lemma douter_rows : forall gts cur pd pg rd rg m m' d' g', inv m -> length cur = length gts -> length pd = length pg -> length rd = length rg ->
    length rd = length (concat cur) -> douter gts cur (length pd) m (pd ++ rd) (pg ++ rg) = Ok (m', d', g') ->
    inv m' /\ d' = pd ++ drows gts cur /\ g' = pg ++ grows gts cur.
  Proof using Hset.
    induction gts as [|g gts IH]; intros [|ss cur] pd pg rd rg m m' d' g' IM L L1 L2 L3 H; try discriminate; cbn [deltas_outer] in H.
    - injection H as <- <- <-. cbn in L3. destruct rd; [|discriminate]. destruct rg; [|discriminate]. auto.
    - destruct (set_target m g) as [m1|] eqn:E1; [|discriminate]. cbn [bind] in H. destruct (Hset _ _ _ IM E1) as [I1 V1]. rewrite V1 in H.
      destruct (dinner (proj g) ss _ _ _ _) as [[[[k1 m2] d1] g1]|] eqn:U; [|discriminate]. cbn [bind] in H.
      cbn [concat] in L3. rewrite app_length in L3. apply dinner_rows in U; [|exact I1|exact L1|exact L2|lia]. destruct U as (I2 & -> & -> & ->).
      replace (length pd + length ss) with (length (pd ++ drow g ss)) in H by (unfold SdmTrain.drow; rewrite app_length, map_length; lia).
      rewrite !app_assoc in H. apply IH in H.
      + destruct H as (I3 & -> & ->). split; [exact I3|]. unfold SdmTrain.drows, SdmTrain.grows. cbn [combine map concat fst snd]. rewrite !app_assoc. auto.
      + exact I2.
      + cbn in L. lia.
      + unfold SdmTrain.drow, SdmTrain.grow. rewrite !app_length, !map_length. lia.
      + rewrite !skipn_length. lia.
      + rewrite skipn_length. lia.
  Qed.
  Lemma deltas_rows np m gts cur m' d g : inv m -> rectangular np gts cur ->
    deltas vsub set_target vec m gts cur = Ok (m', d, g) -> inv m' /\ d = drows gts cur /\ g = grows gts cur.
  Proof using Hset.
    intros IM [L H] D. unfold deltas in D. destruct (nth_res cur 0) as [c0|] eqn:E0; [|discriminate]. cbn [bind] in D.
    apply nth_res_some in E0. rewrite (H 0 c0 E0) in D. apply (douter_rows gts cur [] []) in D; auto.
    rewrite repeat_length, (concat_len np) by auto. rewrite L. reflexivity.
  Qed.

  Lemma pinfo_inv gts np : forall delta est j m es m', inv m -> print_info from_vector tgt compute_error garbage gts np j delta est m = Ok (es, m') -> inv m'.
  Proof using Hfrom.
    induction delta as [|dx delta IH]; intros [|edx est] j m es m' IM H; cbn [print_info] in H; try (injection H as <- <-; exact IM).
    destruct (from_vector m _) as [m1|] eqn:E1; [|discriminate]. cbn [bind] in H.
    destruct (from_vector m1 edx) as [m2|] eqn:E2; [|discriminate]. cbn [bind] in H.
    destruct (nth_res gts _); [|discriminate]. cbn [bind] in H. destruct (compute_error _ _ _); [|discriminate]. cbn [bind] in H.
    destruct (print_info _ _ _ _ gts np _ delta est m2) as [[es' m3]|] eqn:E3; [|discriminate]. injection H as <- <-.
    eapply IH; [|exact E3]. destruct (Hfrom _ _ _ IM E1) as [I1 _]. destruct (Hfrom _ _ _ I1 E2) as [I2 _]. exact I2.
  Qed.

  (** One iteration of a training from scratch, seen from outside. *)
  Definition turn (feat : list (list S) -> res (list X)) (gts : list S) (c c' : list (list S)) : Prop :=
    exists f r est, feat c = Ok f /\ reg_train f (drows gts c) = Ok r /\ reg_predict r f = Ok est /\
      map (@length S) c' = map (@length S) c /\ map proj (concat c') = zipadd (map proj (concat c)) est.
  Notation lp := (loop vadd vsub set_target from_vector vec tgt reg_train reg_increment reg_predict compute_error garbage).

  Lemma lengths_grows gts : forall c c', map (@length S) c' = map (@length S) c -> grows gts c' = grows gts c.
  Proof.
    induction gts as [|g gts IH]; intros [|s c] [|s' c'] H; try discriminate; try reflexivity. cbn [map] in H. injection H as H1 H2.
    unfold SdmTrain.grows. cbn [combine map concat fst snd]. f_equal; [|apply IH; exact H2]. unfold SdmTrain.grow.
    revert s' H1. clear. induction s as [|x s IH]; intros [|x' s'] H; try discriminate; [reflexivity|]. cbn. f_equal. apply IH. cbn in H. lia.
  Qed.
  Lemma lengths_length {T U} (a : list (list T)) (b : list (list U)) : map (@length T) a = map (@length U) b -> length a = length b.
  Proof. intros H. assert (Z := f_equal (@length nat) H). rewrite !map_length in Z. exact Z. Qed.
  Lemma drows_length gts : forall c, length c = length gts -> length (drows gts c) = length (concat c).
  Proof.
    induction gts as [|g gts IH]; intros [|s c] H; try discriminate; [reflexivity|]. unfold SdmTrain.drows. cbn [combine map concat fst snd].
    rewrite !app_length. unfold SdmTrain.drow at 1. rewrite map_length. f_equal. apply IH. cbn in H. lia.
  Qed.

  Lemma loop_trace feat vb np gts : forall n k cur m regs o, inv m -> length cur = length gts -> length regs = k ->
    lp feat vb false np gts n k (grows gts cur) cur m (drows gts cur) regs = Ok o ->
    Forall (Forall (Forall good)) (tl (o_currents o ++ [o_final o])) ->
    length (o_currents o) = n /\ nth_error (o_currents o ++ [o_final o]) 0 = Some cur /\
    forall i c c', nth_error (o_currents o ++ [o_final o]) i = Some c -> nth_error (o_currents o ++ [o_final o]) (Datatypes.S i) = Some c' ->
      length c = length gts /\ turn feat gts c c'.
  Proof using Hset Hfrom.
    induction n as [|n IH]; intros k cur m regs o IM L K H GO.
    - injection H as <-. cbn. split; auto. split; auto. intros [|[|i]] c c' H1 H2; discriminate.
    - destruct (Proofs.SdmAlgorithm.loop_turn vadd vsub set_target from_vector vec tgt reg_train reg_increment reg_predict compute_error garbage
                  _ _ _ _ _ _ _ _ _ _ _ _ _ H) as (f & regs' & r & est & pr & m1 & cur' & m2 & delta' & o' & Hf & Hr & Hn & Hp & Hv & Ho & Hl & ->).
      cbn [o_currents o_final app tl] in GO |- *.
      destruct (reg_train f (drows gts cur)) as [r0|] eqn:ER; [|discriminate]. cbn [bind] in Hr. injection Hr as <-.
      rewrite nth_error_app2 in Hn by lia. rewrite K, Nat.sub_diag in Hn. injection Hn as ->.
      assert (I1 : inv m1).
      { destruct vb; [|injection Hv as _ <-; exact IM].
        destruct (print_info _ _ _ _ _ _ _ _ _ _) as [[es m']|] eqn:P; [|discriminate]. injection Hv as _ <-. eapply pinfo_inv; eauto. }
      assert (G' : Forall (Forall good) cur').
      { destruct n as [|n].
        - injection Hl as <-. cbn in GO. inversion GO; auto.
        - destruct (Proofs.SdmAlgorithm.loop_turn vadd vsub set_target from_vector vec tgt reg_train reg_increment reg_predict compute_error garbage
                  _ _ _ _ _ _ _ _ _ _ _ _ _ Hl) as (? & ? & ? & ? & ? & ? & ? & ? & ? & ? & _ & _ & _ & _ & _ & _ & _ & ->).
          cbn in GO. inversion GO; auto. }
      pose proof (eouter_rows est gts cur [] [] (drows gts cur) [] m1 cur' m2 delta' I1 L eq_refl (drows_length gts cur L)) as EO.
      cbn [app length skipn] in EO. rewrite app_nil_r in EO. destruct (EO Ho G') as (I2 & LL & -> & P). clear EO.
      assert (L' : length cur' = length gts) by (rewrite <- L; apply lengths_length; exact LL).
      rewrite <- (lengths_grows gts _ _ LL) in Hl.
      apply IH in Hl; [|exact I2|exact L'|rewrite app_length; cbn; lia|].
      + destruct Hl as (N & HD & T). split; [cbn; lia|]. split; [reflexivity|]. intros [|i] c c' H1 H2.
        * change (nth_error (o_currents o' ++ [o_final o']) 0 = Some c') in H2. injection H1 as <-. rewrite HD in H2. injection H2 as <-. split; [exact L|]. exists f, r, est. auto.
        * eapply T; eauto.
      + destruct (o_currents o') as [|c1 cs]; cbn [app tl] in *; [constructor|]. inversion GO; auto.
  Qed.

  Notation tr := (train vadd vsub set_target from_vector vec tgt patches build_appearance appearance_feature build_shape
                       reg_train reg_increment reg_predict compute_error garbage).
  Lemma train_trace kd vb n a images gts cur a' o np : (forall m, Proofs.SdmAlgorithm.shape_used build_shape kd a gts = Ok m -> inv m) -> rectangular np gts cur ->
    tr kd vb false n a images gts cur = Ok (a', o) ->
    Forall (Forall (Forall good)) (tl (o_currents o ++ [o_final o])) ->
    length (o_currents o) = n /\ nth_error (o_currents o ++ [o_final o]) 0 = Some cur /\
    forall i c c', nth_error (o_currents o ++ [o_final o]) i = Some c -> nth_error (o_currents o ++ [o_final o]) (Datatypes.S i) = Some c' ->
      length c = length gts /\ turn (training_features patches appearance_feature kd (a_appearance a') images) gts c c'.
  Proof using Hset Hfrom.
    intros I1 RC H GO. apply Proofs.SdmAlgorithm.train_parts in H.
    destruct H as (regs & c0 & m & m1 & delta & gt & app & H1 & H2 & H3 & H4 & H5 & H6 & H7 & ->). injection H1 as <-.
    assert (IM : inv m) by auto.
    apply (deltas_rows np) in H5; auto. destruct H5 as (IM1 & -> & ->). destruct RC as [L _].
    cbn [a_appearance]. apply (loop_trace _ vb (length c0) gts n 0 cur m1 [] o IM1 L eq_refl H7 GO).
  Qed.
End P.
