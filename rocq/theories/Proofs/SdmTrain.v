From Coq Require Import List Arith Lia.
From Verif.Model Require Import Py Result SdmTrain.
From Verif.Spec Require Import SdmTrain.
Import ListNotations.

Lemma nth_res_some {A} (l : list A) i x : nth_res l i = Ok x <-> nth_error l i = Some x.
Proof. unfold nth_res. destruct (nth_error l i); split; congruence. Qed.

Lemma set_row_app {A} (v : A) x r : forall pre, set_row (length pre) v (pre ++ x :: r) = Ok (pre ++ Some v :: r).
Proof. induction pre as [|y pre IH]; [reflexivity|]. cbn [length app set_row]. rewrite IH. reflexivity. Qed.

Lemma nth_concat {A} m (ls : list (list A)) : (forall i l, nth_error ls i = Some l -> length l = m) ->
  forall i k l, nth_error ls i = Some l -> k < m -> nth_error (concat ls) (i * m + k) = nth_error l k.
Proof.
  induction ls as [|a ls IH]; intros H i k l Hi Hk; [destruct i; discriminate|].
  pose proof (H 0 a eq_refl) as La. destruct i as [|i]; cbn [concat].
  - injection Hi as <-. cbn. rewrite nth_error_app1; auto. lia.
  - rewrite nth_error_app2 by (cbn; lia). replace (S i * m + k - length a) with (i * m + k) by (cbn; lia).
    apply IH; auto. intros j l' Hj. apply (H (S j) l' Hj).
Qed.
Lemma concat_len {A} m (ls : list (list A)) : (forall i l, nth_error ls i = Some l -> length l = m) ->
  length (concat ls) = length ls * m.
Proof.
  induction ls as [|a ls IH]; intros H; [reflexivity|]. cbn. rewrite app_length, IH, (H 0 a eq_refl); auto.
  intros j l' Hj. apply (H (S j) l' Hj).
Qed.

Section P.
  Context {S V R F : Type}.
  Variable proj : S -> V.
  Variable inst : V -> S.
  Variables vadd vsub : V -> V -> V.
  Variable features : list (list S) -> res F.
  Variable reg_train : F -> list (option V) -> res R.
  Variable reg_increment : R -> F -> list (option V) -> res R.
  Variable reg_predict : R -> F -> res (list V).
  Set Default Proof Using "Type".

  Definition drow (g : S) (ss : list S) : list (option V) := map (fun s => Some (vsub (proj g) (proj s))) ss.
  Definition grow (g : S) (ss : list S) : list (option V) := map (fun _ => Some (proj g)) ss.
  Definition drows gts cur := concat (map (fun p => drow (fst p) (snd p)) (combine gts cur)).
  Definition grows gts cur := concat (map (fun p => grow (fst p) (snd p)) (combine gts cur)).

  Lemma delta_inner_spec g : forall ss pd pg rd rg, length pd = length pg -> length rd = length rg -> length ss <= length rd ->
    delta_inner proj vsub (proj g) ss (length pd) (pd ++ rd) (pg ++ rg) =
    Ok (length pd + length ss, pd ++ drow g ss ++ skipn (length ss) rd, pg ++ grow g ss ++ skipn (length ss) rg).
  Proof.
    induction ss as [|s ss IH]; intros pd pg rd rg L1 L2 L3.
    - cbn. rewrite Nat.add_0_r. reflexivity.
    - destruct rd as [|x rd]; [cbn in L3; lia|]. destruct rg as [|y rg]; [discriminate|]. cbn [delta_inner].
      rewrite L1 at 1. rewrite set_row_app. cbn [bind]. rewrite set_row_app. cbn [bind].
      replace (pd ++ Some (vsub (proj g) (proj s)) :: rd) with ((pd ++ [Some (vsub (proj g) (proj s))]) ++ rd) by (rewrite <- app_assoc; reflexivity).
      replace (pg ++ Some (proj g) :: rg) with ((pg ++ [Some (proj g)]) ++ rg) by (rewrite <- app_assoc; reflexivity).
      replace (Datatypes.S (length pd)) with (length (pd ++ [Some (vsub (proj g) (proj s))])) by (rewrite app_length; cbn; lia).
      rewrite IH; [|rewrite !app_length; cbn; lia|cbn in L2; lia|cbn in L3; lia].
      rewrite app_length, <- !app_assoc. cbn [length skipn drow grow map app]. replace (length pd + 1 + length ss) with (length pd + Datatypes.S (length ss)) by lia. reflexivity.
  Qed.
  Lemma delta_outer_spec : forall gts cur pd pg rd rg, length cur = length gts ->
    length pd = length pg -> length rd = length rg -> length rd = length (concat cur) ->
    delta_outer proj vsub gts cur (length pd) (pd ++ rd) (pg ++ rg) = Ok (pd ++ drows gts cur, pg ++ grows gts cur).
  Proof.
    induction gts as [|g gts IH]; intros [|ss cur] pd pg rd rg L L1 L2 L3; try discriminate; cbn [delta_outer].
    - cbn in L3. destruct rd; [|discriminate]. destruct rg; [|discriminate]. reflexivity.
    - cbn [concat] in L3. rewrite app_length in L3. rewrite delta_inner_spec by (auto; lia). cbn [bind].
      replace (length pd + length ss) with (length (pd ++ drow g ss)) by (rewrite app_length; unfold drow; rewrite map_length; lia).
      rewrite !app_assoc. rewrite IH.
      + unfold drows, grows. cbn [combine map concat fst snd]. rewrite !app_assoc. reflexivity.
      + cbn in L. lia.
      + unfold drow, grow. rewrite !app_length, !map_length. lia.
      + rewrite !skipn_length. lia.
      + rewrite skipn_length. lia.
  Qed.
  Lemma compute_spec m gts cur : rectangular m gts cur -> gts <> [] ->
    compute_delta_x proj vsub gts cur = Ok (drows gts cur, grows gts cur).
  Proof.
    intros [L H] N. unfold compute_delta_x. destruct gts as [|g gts]; [congruence|]. destruct cur as [|c cur]; [discriminate|].
    cbn [nth_res nth_error bind]. rewrite (H 0 c eq_refl).
    apply (delta_outer_spec (g :: gts) (c :: cur) [] []); auto.
    rewrite repeat_length, (concat_len m) by auto. rewrite L. reflexivity.
  Qed.

  Lemma drows_targets m gts cur : rectangular m gts cur -> targets_ok proj vsub m gts cur (drows gts cur).
  Proof.
    intros [L H].
    assert (U : forall i l, nth_error (map (fun p => drow (fst p) (snd p)) (combine gts cur)) i = Some l -> length l = m).
    { intros i l Hi. rewrite nth_error_map in Hi. destruct (nth_error (combine gts cur) i) as [[g ss]|] eqn:E; [|discriminate].
      injection Hi as <-. unfold drow. rewrite map_length. cbn [snd]. apply (H i). clear - E. revert cur i E.
      induction gts as [|a gts IH]; intros [|b cur] [|i] E; try discriminate; cbn in *; [injection E as _ <-; reflexivity|]. apply IH. exact E. }
    split.
    - unfold drows. rewrite (concat_len m) by auto. rewrite map_length, combine_length. rewrite L. rewrite Nat.min_id. reflexivity.
    - intros i l g ss s Hg Hss Hs.
      assert (E : nth_error (map (fun p => drow (fst p) (snd p)) (combine gts cur)) i = Some (drow g ss)).
      { rewrite nth_error_map. replace (nth_error (combine gts cur) i) with (Some (g, ss)); [reflexivity|]. clear - Hg Hss.
        revert cur i Hg Hss. induction gts as [|a gts IH]; intros [|b cur] [|i] Hg Hss; try discriminate; cbn in *; [congruence|]. apply IH; auto. }
      unfold drows. rewrite (nth_concat m _ U i l _ E).
      + unfold drow. rewrite nth_error_map, Hs. reflexivity.
      + rewrite <- (H i ss Hss). apply nth_error_Some. congruence.
  Qed.

  Hypothesis proj_inst : forall v, proj (inst v) = v.

  Lemma update_inner_spec est g : forall ss pd pg rd rg out j' d',
    length pd = length pg -> length ss <= length rd ->
    update_inner proj inst vadd vsub est (pg ++ grow g ss ++ rg) ss (length pd) (pd ++ rd) = Ok (out, j', d') ->
    j' = length pd + length ss /\ length out = length ss /\ d' = pd ++ drow g out ++ skipn (length ss) rd /\
    forall l s, nth_error ss l = Some s -> exists p, nth_error est (length pd + l) = Some p /\
      nth_error out l = Some (inst (vadd (proj s) p)).
  Proof using proj_inst.
    induction ss as [|s ss IH]; intros pd pg rd rg out j' d' L1 L3 H.
    - injection H as <- <- <-. cbn. rewrite Nat.add_0_r. repeat split; auto. intros [|l]; discriminate.
    - cbn [update_inner] in H. destruct (nth_res est (length pd)) as [e|] eqn:E; [|discriminate]. cbn [bind] in H.
      assert (G : nth_res (pg ++ grow g (s :: ss) ++ rg) (length pd) = Ok (Some (proj g))).
      { apply nth_res_some. rewrite L1, nth_error_app2, Nat.sub_diag by lia. reflexivity. }
      rewrite G in H. cbn [bind] in H. destruct rd as [|x rd]; [cbn in L3; lia|]. rewrite set_row_app in H. cbn [bind] in H.
      set (row := Some (vsub (proj g) (vadd (proj s) e))) in *.
      destruct (update_inner _ _ _ _ est _ ss _ _) as [[[r' j1] d1]|] eqn:U; [|discriminate]. cbn [bind] in H. injection H as <- <- <-.
      specialize (IH (pd ++ [row]) (pg ++ [Some (proj g)]) rd rg r' j1 d1).
      rewrite <- !app_assoc, !app_length in IH. cbn [app length] in IH. cbn [grow map app] in U.
      replace (Datatypes.S (length pd)) with (length pd + 1) in U by lia.
      destruct IH as (-> & L & -> & N); [lia|cbn in L3; lia|exact U|].
      cbn [length]. split; [lia|]. split; [lia|]. split.
      + unfold drow at 2. cbn [map]. rewrite proj_inst. fold row. fold (drow g r'). reflexivity.
      + intros [|l] s' Hs.
        * injection Hs as <-. rewrite Nat.add_0_r. exists e. split; [apply nth_res_some; auto|reflexivity].
        * destruct (N l s' Hs) as (p & P1 & P2). exists p. split; auto. rewrite <- P1. f_equal. lia.
  Qed.

  Lemma update_outer_spec m est : forall gts cur out pd pg rd d',
    length cur = length gts -> (forall i ss, nth_error cur i = Some ss -> length ss = m) ->
    length pd = length pg -> length rd = length cur * m ->
    update_outer proj inst vadd vsub est (pg ++ grows gts cur) cur (length pd) (pd ++ rd) = Ok (out, d') ->
    length out = length cur /\ d' = pd ++ drows gts out /\
    forall i ss, nth_error cur i = Some ss -> exists ss', nth_error out i = Some ss' /\ length ss' = length ss /\
      forall l s, nth_error ss l = Some s -> exists p, nth_error est (length pd + i * m + l) = Some p /\
        nth_error ss' l = Some (inst (vadd (proj s) p)).
  Proof using proj_inst.
    induction gts as [|g gts IH]; intros [|ss cur] out pd pg rd d' L H L1 L2 U; try discriminate.
    - injection U as <- <-. destruct rd; [|discriminate]. repeat split; auto. intros [|i]; discriminate.
    - cbn [update_outer] in U. cbn [length Nat.mul] in L2. pose proof (H 0 ss eq_refl) as Ls.
      destruct (update_inner _ _ _ _ est _ ss _ _) as [[[out1 j1] d1]|] eqn:UI; [|discriminate]. cbn [bind] in U.
      change (grows (g :: gts) (ss :: cur)) with (grow g ss ++ grows gts cur) in *.
      apply update_inner_spec in UI; [|auto|lia]. destruct UI as (-> & Lo & -> & N).
      destruct (update_outer _ _ _ _ est _ cur _ _) as [[rest d2]|] eqn:UO; [|discriminate]. injection U as <- <-.
      rewrite !app_assoc in UO. replace (length pd + length ss) with (length (pd ++ drow g out1)) in UO
        by (rewrite app_length; unfold drow; rewrite map_length; lia).
      apply IH in UO.
      + destruct UO as (LR & -> & N2). split; [cbn; lia|]. split.
        * unfold drows. cbn [combine map concat fst snd]. rewrite <- app_assoc. reflexivity.
        * intros [|i] s0 Hs.
          -- injection Hs as <-. exists out1. split; auto. split; auto. intros l s Hl. rewrite Nat.add_0_r. auto.
          -- destruct (N2 i s0 Hs) as (ss' & N3 & N4 & N5). exists ss'. split; auto. split; auto.
             intros l s Hl. destruct (N5 l s Hl) as (p & P1 & P2). exists p. split; auto. rewrite <- P1. f_equal.
             rewrite app_length. unfold drow. rewrite map_length. cbn. lia.
      + cbn in L. lia.
      + intros i s0 Hs. apply (H (Datatypes.S i) s0 Hs).
      + rewrite !app_length. unfold drow, grow. rewrite !map_length. lia.
      + rewrite skipn_length. lia.
  Qed.

  Notation casc := (cascade proj inst vadd vsub features reg_train reg_increment reg_predict).

  Lemma grows_indep gts : forall cur cur', length cur = length cur' ->
    (forall i a b, nth_error cur i = Some a -> nth_error cur' i = Some b -> length a = length b) -> grows gts cur = grows gts cur'.
  Proof.
    induction gts as [|g gts IH]; intros [|a cur] [|b cur'] L H; try discriminate; auto.
    unfold grows in *. cbn [combine map concat fst snd]. f_equal.
    - specialize (H 0 a b eq_refl eq_refl). unfold grow. clear - H. revert b H. induction a; intros [|y b] H; try discriminate; auto. cbn. f_equal. auto.
    - apply IH; [cbn in L; lia|]. intros i x y. apply (H (Datatypes.S i)).
  Qed.

  Lemma cascade_spec inc m gts : forall n k cur regs steps regs' final,
    rectangular m gts cur ->
    casc inc n k (grows gts cur) cur (drows gts cur) regs = Ok (steps, regs', final) ->
    length steps = n /\ rectangular m gts final /\
    Forall (fun s => rectangular m gts (st_current s) /\ targets_ok proj vsub m gts (st_current s) (st_delta s) /\
                     features (st_current s) = Ok (st_features s)) steps /\
    match steps with s :: _ => st_current s = cur | [] => final = cur end /\
    linked proj inst vadd m steps final /\
    length regs' = (if inc then length regs else length regs + n).
  Proof using proj_inst.
    induction n as [|n IH]; intros k cur regs steps regs' final RC H.
    - injection H as <- <- <-. repeat split; auto; try apply RC. destruct inc; lia.
    - cbn [cascade] in H. destruct (features cur) as [f|] eqn:EF; [|discriminate]. cbn [bind] in H.
      destruct (if inc then _ else _) as [regs1|] eqn:ER; [|discriminate]. cbn [bind] in H.
      destruct (nth_res regs1 k) as [r|] eqn:EN; [|discriminate]. cbn [bind] in H.
      destruct (reg_predict r f) as [est|] eqn:EP; [|discriminate]. cbn [bind] in H.
      destruct (update_outer _ _ _ _ est _ cur 0 _) as [[cur' d']|] eqn:EU; [|discriminate]. cbn [bind] in H.
      destruct (casc inc n _ _ cur' d' regs1) as [[[st rg] fin]|] eqn:EC; [|discriminate]. injection H as <- <- <-.
      destruct RC as [RC1 RC2].
      apply (update_outer_spec m est gts cur cur' [] [] (drows gts cur)) in EU; auto.
      2:{ rewrite RC1. apply (drows_targets m). split; auto. }
      destruct EU as (L & -> & N). cbn [app length] in *.
      assert (RC' : rectangular m gts cur').
      { split; [lia|]. intros i ss' Hs. destruct (nth_error cur i) as [ss|] eqn:E.
        - destruct (N i ss E) as (s2 & N1 & N2 & _). rewrite N1 in Hs. injection Hs as <-. rewrite N2. eapply RC2; eauto.
        - apply nth_error_None in E. assert (i < length cur') by (apply nth_error_Some; congruence). lia. }
      rewrite (grows_indep gts cur cur') in EC.
      2:{ lia. }
      2:{ intros i a b Ha Hb. destruct (N i a Ha) as (s2 & N1 & N2 & _). rewrite N1 in Hb. injection Hb as <-. auto. }
      apply IH in EC; [|exact RC']. destruct EC as (C1 & C2 & C3 & C4 & C5 & C6).
      split; [cbn; lia|]. split; [exact C2|]. split; [|split; [|split]].
      + constructor; auto. cbn. split; [split; auto|]. split; [apply drows_targets; split; auto|auto].
      + reflexivity.
      + cbn [linked st_pred st_current]. split; [|exact C5].
        replace (match st with [] => fin | b :: _ => st_current b end) with cur' by (destruct st; congruence).
        split; [lia|]. intros i ss Hs. destruct (N i ss Hs) as (ss' & N1 & N2 & N3). exists ss'. split; auto.
      + rewrite C6. destruct inc.
        * destruct (nth_res regs k) as [r0|] eqn:E0; [|discriminate]. cbn [bind] in ER.
          destruct (reg_increment r0 f _) as [r1|]; [|discriminate]. cbn [bind] in ER.
          assert (X : firstn k regs ++ r1 :: skipn (Datatypes.S k) regs = regs1) by congruence. rewrite <- X.
          apply nth_res_some in E0. assert (k < length regs) by (apply nth_error_Some; congruence).
          rewrite app_length, firstn_length. change (length (r1 :: skipn (Datatypes.S k) regs)) with (Datatypes.S (length (skipn (Datatypes.S k) regs))). rewrite skipn_length. lia.
        * destruct (reg_train f _); [|discriminate]. injection ER as <-. rewrite app_length. cbn. lia.
  Qed.
End P.
