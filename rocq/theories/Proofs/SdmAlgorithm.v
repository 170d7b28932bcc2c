From Coq Require Import List Arith Lia.
From Verif.Model Require Import Py Result SdmTrain SdmAlgorithm.
From Verif.Spec Require Import SdmAlgorithm.
Import ListNotations.

Lemma mapM_ok {A B} (f : A -> res B) : forall l ys, mapM f l = Ok ys ->
  length ys = length l /\ forall i x, nth_error l i = Some x -> exists y, nth_error ys i = Some y /\ f x = Ok y.
Proof.
  induction l as [|a l IH]; cbn [mapM]; intros ys H.
  - injection H as <-. split; auto. intros [|i] x; discriminate.
  - destruct (f a) as [y|] eqn:E; [|discriminate]. cbn [bind] in H. destruct (mapM f l) as [zs|] eqn:M; [|discriminate].
    cbn [bind] in H. injection H as <-. destruct (IH zs eq_refl) as [L N]. split; [cbn; lia|].
    intros [|i] x Hx; cbn in *; [injection Hx as <-; eauto|]. apply N. exact Hx.
Qed.

(** position of the rows of image i *)
Definition offset {T} (c : list (list T)) (i : nat) : nat := length (concat (firstn i c)).
Lemma concat_at {T} (c : list (list T)) : forall i l row x, nth_error c i = Some row -> nth_error row l = Some x ->
  nth_error (concat c) (offset c i + l) = Some x.
Proof.
  induction c as [|a c IH]; intros [|i] l row x H1 H2; try discriminate; cbn [concat nth_error] in *.
  - injection H1 as <-. unfold offset. cbn. rewrite nth_error_app1; auto. apply nth_error_Some. congruence.
  - unfold offset. cbn [firstn concat]. rewrite app_length. rewrite nth_error_app2 by lia.
    replace (length a + length (concat (firstn i c)) + l - length a) with (offset c i + l) by (unfold offset; lia).
    eapply IH; eauto.
Qed.
Lemma offset_ext {T U} : forall i (a : list (list T)) (b : list (list U)),
  (forall j ra rb, j < i -> nth_error a j = Some ra -> nth_error b j = Some rb -> length ra = length rb) ->
  i <= length a -> i <= length b -> offset a i = offset b i.
Proof.
  induction i as [|i IH]; intros a b H La Lb; [reflexivity|]. destruct a as [|ra a]; [cbn in La; lia|].
  destruct b as [|rb b]; [cbn in Lb; lia|]. unfold offset in *. cbn [firstn concat]. rewrite !app_length.
  rewrite (H 0 ra rb) by (auto; lia). rewrite (IH a b); auto; try (cbn in *; lia).
  intros j x y J Hx Hy. apply (H (S j)); auto. lia.
Qed.
Lemma concat_singles {T} (l : list T) : concat (map (fun x => [x]) l) = l.
Proof. induction l; cbn; congruence. Qed.

Lemma replace_length {T} (r : T) : forall k l, k < length l -> length (firstn k l ++ r :: skipn (S k) l) = length l.
Proof. induction k as [|k IH]; intros [|a l] H; cbn in *; try lia. f_equal. apply IH. lia. Qed.

Section P.
  Context {S V I X R M A E : Type}.
  Variables vadd vsub : V -> V -> V.
  Variable set_target : M -> S -> res M.
  Variable from_vector : M -> V -> res M.
  Variable vec : M -> V.
  Variable tgt : M -> S.
  Variable patches : I -> S -> res X.
  Variable build_appearance : nat -> list X -> res A.
  Variable appearance_feature : A -> X -> res X.
  Variable build_shape : list S -> res M.
  Variable reg_train : list X -> list (option V) -> res R.
  Variable reg_increment : R -> list X -> list (option V) -> res R.
  Variable reg_predict : R -> list X -> res (list V).
  Variable reg_predict1 : R -> X -> res V.
  Variable compute_error : S -> S -> S -> res E.
  Variable garbage : V.
  Set Default Proof Using "Type".

  Notation tfeat := (test_features patches appearance_feature).
  Notation trfeat := (training_features patches appearance_feature).

  Lemma per_image_rows : forall images (cur : list (list S)) rows, features_per_image patches images cur = Ok rows ->
    length rows = length images /\ length images <= length cur /\
    forall i im ss, nth_error images i = Some im -> nth_error cur i = Some ss ->
      exists row, nth_error rows i = Some row /\ length row = length ss /\
        forall l s, nth_error ss l = Some s -> exists x, nth_error row l = Some x /\ patches im s = Ok x.
  Proof.
    induction images as [|im images IH]; intros cur rows H.
    - injection H as <-. split; [reflexivity|]. split; [cbn; lia|]. intros [|i]; discriminate.
    - destruct cur as [|ss cur]; [discriminate|]. cbn [features_per_image] in H.
      destruct (mapM (patches im) ss) as [xs|] eqn:Ex; [|discriminate]. cbn [bind] in H.
      destruct (vstack _) as [u|]; [|discriminate]. cbn [bind] in H.
      destruct (features_per_image patches images cur) as [rest|] eqn:Er; [|discriminate]. injection H as <-.
      destruct (IH cur rest Er) as (L1 & L2 & N). destruct (mapM_ok _ _ _ Ex) as [Lx Nx].
      split; [cbn; lia|]. split; [cbn; lia|]. intros [|i] im' ss' H1 H2; cbn [nth_error] in *.
      + injection H1 as <-. injection H2 as <-. exists xs. auto.
      + eapply N; eauto.
  Qed.
  Lemma zip_rows kd app : forall images (cur : list (list S)) rows, features_zip patches appearance_feature kd app images cur = Ok rows ->
    forall i im ss, nth_error images i = Some im -> nth_error cur i = Some ss ->
      exists row, nth_error rows i = Some row /\ length row = length ss /\
        forall l s, nth_error ss l = Some s -> exists x, nth_error row l = Some x /\ tfeat kd app im s = Ok x.
  Proof.
    induction images as [|im images IH]; intros cur rows H [|i] im' ss' H1 H2; try discriminate;
      destruct cur as [|ss cur]; try discriminate; cbn [features_zip] in H;
      (destruct (mapM _ ss) as [xs|] eqn:Ex; [|discriminate]); cbn [bind] in H;
      (destruct (features_zip _ _ _ _ images cur) as [rest|] eqn:Er; [|discriminate]); injection H as <-;
      destruct (mapM_ok _ _ _ Ex) as [Lx Nx]; cbn [nth_error] in *.
    - injection H1 as <-. injection H2 as <-. exists xs. auto.
    - eapply IH; eauto.
  Qed.
  Lemma nth_below {T} (l : list T) i x j : nth_error l i = Some x -> j < i -> exists y, nth_error l j = Some y.
  Proof.
    intros H J. destruct (nth_error l j) eqn:En; eauto. apply nth_error_None in En.
    assert (i < length l) by (apply nth_error_Some; congruence). lia.
  Qed.
  (** Row [offset + l] of the training features holds the test features of sample (i, l). *)
  Lemma features_at kd app images (cur : list (list S)) f i l im ss s : trfeat kd app images cur = Ok f ->
    nth_error images i = Some im -> nth_error cur i = Some ss -> nth_error ss l = Some s ->
    exists x, nth_error f (offset cur i + l) = Some x /\ tfeat kd app im s = Ok x.
  Proof.
    intros H Hi Hc Hs. unfold training_features in H.
    assert (X0 : exists rows, f = concat rows /\
      forall j im' ss', nth_error images j = Some im' -> nth_error cur j = Some ss' ->
      exists row, nth_error rows j = Some row /\ length row = length ss' /\
        forall l0 s0, nth_error ss' l0 = Some s0 -> exists x, nth_error row l0 = Some x /\ tfeat kd app im' s0 = Ok x).
    { destruct (k_appearance kd) eqn:K.
      - destruct (features_zip _ _ _ _ images cur) as [rows|] eqn:Er; [|discriminate]. cbn [bind] in H. exists rows. split.
        + unfold vstack in H. destruct (map _ (concat rows)) eqn:Em; [discriminate|]. rewrite <- Em in H. rewrite concat_singles in H. congruence.
        + apply (zip_rows _ _ _ _ _ Er).
      - destruct (features_per_image _ images cur) as [rows|] eqn:Er; [|discriminate]. cbn [bind] in H. exists rows. split.
        + unfold vstack in H. destruct rows; [discriminate|]. congruence.
        + destruct (per_image_rows _ _ _ Er) as (_ & _ & N). intros j im' ss' H1 H2. destruct (N j im' ss' H1 H2) as (row & Nr & Lr & Nx).
          exists row. split; auto. split; auto. intros l0 s0 H0. destruct (Nx l0 s0 H0) as (x & Hx & Px). exists x. split; auto.
          unfold test_features. rewrite Px, K. reflexivity. }
    destruct X0 as (rows & -> & N). destruct (N i im ss Hi Hc) as (row & Nr & Lr & Nx). destruct (Nx l s Hs) as (x & Hx & Px).
    exists x. split; auto. rewrite (offset_ext i cur rows).
    - eapply concat_at; eauto.
    - intros j ra rb J Ha Hb. destruct (nth_below _ _ _ j Hi J) as [imj Hj]. destruct (N j imj ra Hj Ha) as (row' & E1 & E2 & _). congruence.
    - apply Nat.lt_le_incl. apply nth_error_Some. congruence.
    - apply Nat.lt_le_incl. apply nth_error_Some. congruence.
  Qed.

  Variable same : M -> M -> Prop.
  Hypothesis ST : stateless set_target from_vector same.
  Let refl := same_refl ST. Let sym := same_sym ST. Let trans := same_trans ST.
  Let sset := same_set ST. Let sfrom := same_from ST. Let forgets := set_forgets ST.

  Notation einner := (estimates_inner vadd vsub set_target from_vector vec tgt).
  Notation eouter := (estimates_outer vadd vsub set_target from_vector vec tgt).

  Lemma einner_at est gt : forall ss j m delta ss' j' m' delta', einner est gt ss j m delta = Ok (ss', j', m', delta') ->
    j' = j + length ss /\ same m m' /\ length ss' = length ss /\
    forall l s, nth_error ss l = Some s -> exists e m1 m2, nth_error est (j + l) = Some e /\
      set_target m s = Ok m1 /\ from_vector m1 (vadd (vec m1) e) = Ok m2 /\ nth_error ss' l = Some (tgt m2).
  Proof using ST.
    induction ss as [|s ss IH]; intros j m delta ss' j' m' delta' H; cbn [estimates_inner] in H.
    - injection H as <- <- <- <-. split; [cbn; lia|]. split; [apply refl|]. split; auto. intros [|l]; discriminate.
    - destruct (nth_res est j) as [e|] eqn:Ee; [|discriminate]. cbn [bind] in H.
      destruct (set_target m s) as [m1|] eqn:E1; [|discriminate]. cbn [bind] in H.
      destruct (from_vector m1 _) as [m2|] eqn:E2; [|discriminate]. cbn [bind] in H.
      destruct (nth_res gt j) as [g|]; [|discriminate]. cbn [bind] in H.
      destruct (match g with Some _ => _ | None => _ end) as [d1|]; [|discriminate]. cbn [bind] in H.
      destruct (einner est gt ss (Datatypes.S j) m2 d1) as [[[[r' j1] m3] d2]|] eqn:Er; [|discriminate]. cbn [bind] in H.
      injection H as <- <- <- <-. destruct (IH _ _ _ _ _ _ _ Er) as (-> & SM & L & N).
      assert (S2 : same m m2) by (eapply trans; [eapply sset; eauto|eapply sfrom; eauto]).
      split; [cbn; lia|]. split; [eapply trans; eauto|]. split; [cbn; lia|].
      intros [|l] s' Hs; cbn [nth_error] in *.
      + injection Hs as <-. exists e, m1, m2. rewrite Nat.add_0_r. unfold nth_res in Ee. destruct (nth_error est j); [|discriminate].
        injection Ee as ->. auto.
      + destruct (N l s' Hs) as (e' & n1 & n2 & N1 & N2 & N3 & N4). exists e', n1, n2. split; [rewrite <- N1; f_equal; lia|].
        split; [|auto]. rewrite (forgets m m2); auto.
  Qed.
  Lemma eouter_at est gt : forall cur j m delta cur' m' delta', eouter est gt cur j m delta = Ok (cur', m', delta') ->
    same m m' /\ length cur' = length cur /\
    (forall i ss, nth_error cur i = Some ss -> exists ss', nth_error cur' i = Some ss' /\ length ss' = length ss) /\
    forall i l s, sample cur i l = Some s -> exists e m1 m2, nth_error est (j + (offset cur i + l)) = Some e /\
      set_target m s = Ok m1 /\ from_vector m1 (vadd (vec m1) e) = Ok m2 /\ sample cur' i l = Some (tgt m2).
  Proof using ST.
    induction cur as [|ss cur IH]; intros j m delta cur' m' delta' H; cbn [estimates_outer] in H.
    - injection H as <- <- <-. split; [apply refl|]. split; auto. split; intros [|i]; discriminate.
    - destruct (einner est gt ss j m delta) as [[[[ss1 j1] m1] d1]|] eqn:Ei; [|discriminate]. cbn [bind] in H.
      destruct (eouter est gt cur j1 m1 d1) as [[[rest m2] d2]|] eqn:Er; [|discriminate]. cbn [bind] in H. injection H as <- <- <-.
      destruct (einner_at _ _ _ _ _ _ _ _ _ _ Ei) as (-> & S1 & L1 & N1). destruct (IH _ _ _ _ _ _ Er) as (S2 & L2 & R2 & N2).
      split; [eapply trans; eauto|]. split; [cbn; lia|]. split.
      + intros [|i] s0 H0; cbn [nth_error] in *; [injection H0 as <-; eauto|apply R2; exact H0].
      + intros [|i] l s Hs; unfold sample in *; cbn [nth_error] in *.
        * destruct (N1 l s Hs) as (e & n1 & n2 & Q). exists e, n1, n2. exact Q.
        * destruct (N2 i l s Hs) as (e & n1 & n2 & Q1 & Q2 & Q3 & Q4). exists e, n1, n2. split.
          { rewrite <- Q1. unfold offset. cbn [firstn concat]. rewrite app_length. f_equal. lia. }
          split; auto. rewrite (forgets m m1); auto.
  Qed.

  Notation pinfo := (print_info from_vector tgt compute_error garbage).
  Lemma print_same : forall gts np delta est j m es m', pinfo gts np j delta est m = Ok (es, m') -> same m m'.
  Proof using ST.
    induction delta as [|dx delta IH]; intros [|edx est] j m es m' H; cbn [print_info] in H; try (injection H as <- <-; apply refl).
    destruct (from_vector m _) as [m1|] eqn:E1; [|discriminate]. cbn [bind] in H.
    destruct (from_vector m1 edx) as [m2|] eqn:E2; [|discriminate]. cbn [bind] in H.
    destruct (nth_res gts _); [|discriminate]. cbn [bind] in H. destruct (compute_error _ _ _); [|discriminate]. cbn [bind] in H.
    destruct (pinfo gts np _ delta est m2) as [[es' m3]|] eqn:E3; [|discriminate]. injection H as <- <-.
    eapply trans; [eapply sfrom; eauto|]. eapply trans; [eapply sfrom; eauto|]. eapply IH; eauto.
  Qed.

  Notation lp := (loop vadd vsub set_target from_vector vec tgt reg_train reg_increment reg_predict compute_error garbage).
  (** One iteration taken apart. *)
  Lemma loop_turn feat vb inc np gts n k gt cur m delta regs o : lp feat vb inc np gts (Datatypes.S n) k gt cur m delta regs = Ok o ->
    exists f regs' r est pr m1 cur' m2 delta' o',
      feat cur = Ok f /\
      (if inc then let? r := nth_res regs k in let? r' := reg_increment r f delta in Ok (firstn k regs ++ r' :: skipn (Datatypes.S k) regs)
       else let? r := reg_train f delta in Ok (regs ++ [r])) = Ok regs' /\
      nth_error regs' k = Some r /\ reg_predict r f = Ok est /\
      (if vb then let? (es, m1) := pinfo gts np 0 delta est m in Ok ([es], m1) else Ok ([], m)) = Ok (pr, m1) /\
      eouter est gt cur 0 m1 delta = Ok (cur', m2, delta') /\
      lp feat vb inc np gts n (Datatypes.S k) gt cur' m2 delta' regs' = Ok o' /\
      o = mkOut (cur :: o_currents o') (pr ++ o_printed o') (o_regs o') (o_model o') (o_final o').
  Proof.
    cbn [loop]. intros H. destruct (feat cur) as [f|]; [|discriminate]. cbn [bind] in H.
    destruct (if inc then _ else _) as [regs'|] eqn:Er; [|discriminate]. cbn [bind] in H.
    destruct (nth_res regs' k) as [r|] eqn:En; [|discriminate]. cbn [bind] in H.
    destruct (reg_predict r f) as [est|] eqn:Ep; [|discriminate]. cbn [bind] in H.
    destruct (if vb then _ else _) as [[pr m1]|] eqn:Ev; [|discriminate]. cbn [bind] in H.
    destruct (eouter est gt cur 0 m1 delta) as [[[cur' m2] delta']|] eqn:Eo; [|discriminate]. cbn [bind] in H.
    destruct (lp _ _ _ _ _ n _ _ _ _ _ _) as [o'|] eqn:El; [|discriminate]. injection H as <-.
    unfold nth_res in En. destruct (nth_error regs' k) eqn:En'; [|discriminate]. injection En as ->.
    exists f, regs', r, est, pr, m1, cur', m2, delta', o'. do 7 (split; auto).
  Qed.
  Lemma print_turn_same vb gts np delta est m pr m1 :
    (if vb : bool then let? (es, m1) := pinfo gts np 0 delta est m in Ok ([es], m1) else Ok ([], m)) = Ok (pr, m1) -> same m m1.
  Proof using ST.
    destruct vb.
    - destruct (pinfo gts np 0 delta est m) as [[es m']|] eqn:Ep; [|discriminate]. cbn [bind]. intros H. injection H as <- <-. eapply print_same; eauto.
    - intros H. injection H as <- <-. apply refl.
  Qed.
  (** Regressors of earlier iterations are kept, and the model stays the same model. *)
  Lemma loop_regs feat vb inc np gts : forall n k gt cur m delta regs o, lp feat vb inc np gts n k gt cur m delta regs = Ok o ->
    (if inc then k + n <= length regs \/ n = 0 else length regs = k) ->
    (forall j, j < k -> nth_error (o_regs o) j = nth_error regs j) /\
    length (o_regs o) = (if inc then length regs else k + n) /\ same m (o_model o) /\ length (o_currents o) = n.
  Proof using ST.
    induction n as [|n IH]; intros k gt cur m delta regs o H K.
    - injection H as <-. cbn [o_regs o_model o_currents]. split; auto. split; [destruct inc; lia|]. split; [apply refl|reflexivity].
    - destruct (loop_turn _ _ _ _ _ _ _ _ _ _ _ _ _ H) as (f & regs' & r & est & pr & m1 & cur' & m2 & delta' & o' & _ & Hr & Hn & _ & Hv & Ho & Hl & ->).
      cbn [o_regs o_model o_currents]. pose proof (print_turn_same _ _ _ _ _ _ _ _ Hv) as S1.
      destruct (eouter_at _ _ _ _ _ _ _ _ _ Ho) as (S2 & _).
      assert (RK : (forall j, j < k -> nth_error regs' j = nth_error regs j) /\ length regs' = (if inc then length regs else Datatypes.S k)).
      { destruct inc.
        - destruct (nth_res regs k) as [r0|] eqn:E0; [|discriminate]. cbn [bind] in Hr. destruct (reg_increment r0 f delta) as [r1|]; [|discriminate].
          injection Hr as <-. unfold nth_res in E0. assert (k < length regs) by (apply nth_error_Some; destruct (nth_error regs k); congruence).
          split.
          + intros j J. rewrite nth_error_app1 by (rewrite firstn_length; lia). clear - J H0. revert regs H0 j J.
            induction k as [|k IHk]; intros regs L j J; [lia|]. destruct regs; [cbn in L; lia|]. destruct j; [reflexivity|]. cbn. apply IHk; cbn in L; lia.
          + apply replace_length. auto.
        - destruct (reg_train f delta) as [r1|]; [|discriminate]. injection Hr as <-. split.
          + intros j J. rewrite nth_error_app1 by lia. reflexivity.
          + rewrite app_length. cbn. lia. }
      destruct RK as [RK1 RK2].
      destruct (IH _ _ _ _ _ _ _ Hl) as (Q1 & Q2 & Q3 & Q4).
      { destruct inc; [|exact RK2]. destruct K as [K|K]; [|discriminate]. left. lia. }
      split; [intros j J; rewrite Q1 by lia; apply RK1; exact J|]. split; [destruct inc; lia|].
      split; [|cbn; lia]. eapply trans; [exact S1|]. eapply trans; [exact S2|exact Q3].
  Qed.

  (** What is computed does not depend on the state the model was left in. *)
  Lemma einner_same est gt : forall ss j m n delta ss' j' m' delta', same m n ->
    einner est gt ss j m delta = Ok (ss', j', m', delta') ->
    exists n', einner est gt ss j n delta = Ok (ss', j', n', delta') /\ same m' n'.
  Proof using ST.
    destruct ss as [|s ss]; intros j m n delta ss' j' m' delta' SM H; cbn [estimates_inner] in *.
    - injection H as <- <- <- <-. eauto.
    - rewrite <- (forgets m n s SM). rewrite H. eauto.
  Qed.
  Lemma eouter_same est gt : forall cur j m n delta cur' m' delta', same m n ->
    eouter est gt cur j m delta = Ok (cur', m', delta') ->
    exists n', eouter est gt cur j n delta = Ok (cur', n', delta') /\ same m' n'.
  Proof using ST.
    induction cur as [|ss cur IH]; intros j m n delta cur' m' delta' SM H; cbn [estimates_outer] in *.
    - injection H as <- <- <-. eauto.
    - destruct (einner est gt ss j m delta) as [[[[ss1 j1] m1] d1]|] eqn:Ei; [|discriminate]. cbn [bind] in H.
      destruct (einner_same _ _ _ _ _ _ _ _ _ _ _ SM Ei) as (n1 & En & S1). rewrite En. cbn [bind].
      destruct (eouter est gt cur j1 m1 d1) as [[[rest m2] d2]|] eqn:Er; [|discriminate]. cbn [bind] in H. injection H as <- <- <-.
      destruct (IH _ _ _ _ _ _ _ S1 Er) as (n2 & En2 & S2). rewrite En2. cbn [bind]. eauto.
  Qed.
  Notation dinner := (deltas_inner vsub set_target vec).
  Notation douter := (deltas_outer vsub set_target vec).
  Lemma dinner_same g ss k m n delta gt k' m' delta' gt' : same m n ->
    dinner g ss k m delta gt = Ok (k', m', delta', gt') ->
    exists n', dinner g ss k n delta gt = Ok (k', n', delta', gt') /\ same m' n'.
  Proof using ST.
    intros SM H. destruct ss as [|s ss]; cbn [deltas_inner] in *.
    - injection H as <- <- <- <-. eauto.
    - rewrite <- (forgets m n s SM). eauto.
  Qed.
  Lemma dinner_keeps g : forall ss k m delta gt k' m' delta' gt', dinner g ss k m delta gt = Ok (k', m', delta', gt') -> same m m'.
  Proof using ST.
    induction ss as [|s ss IH]; intros k m delta gt k' m' delta' gt' H; cbn [deltas_inner] in H; [injection H as <- <- <- <-; apply refl|].
    destruct (set_row k g gt) as [gt1|]; [|discriminate]. cbn [bind] in H. destruct (set_target m s) as [m1|] eqn:E1; [|discriminate]. cbn [bind] in H.
    destruct (set_row k (vsub g (vec m1)) delta) as [d1|]; [|discriminate]. cbn [bind] in H. eapply trans; [eapply sset; eauto|eapply IH; eauto].
  Qed.
  Lemma douter_keeps : forall gts cur k m delta gt m' delta' gt', douter gts cur k m delta gt = Ok (m', delta', gt') -> same m m'.
  Proof using ST.
    induction gts as [|g gts IH]; intros [|ss cur] k m delta gt m' delta' gt' H; cbn [deltas_outer] in H; try (injection H as <- <- <-; apply refl).
    destruct (set_target m g) as [m1|] eqn:E1; [|discriminate]. cbn [bind] in H.
    destruct (dinner (vec m1) ss k m1 delta gt) as [[[[k1 m2] d1] g1]|] eqn:E2; [|discriminate]. cbn [bind] in H.
    eapply trans; [eapply sset; eauto|]. eapply trans; [eapply dinner_keeps; eauto|eapply IH; eauto].
  Qed.
  Lemma deltas_same m n gts cur m' delta gt : same m n -> deltas vsub set_target vec m gts cur = Ok (m', delta, gt) ->
    exists n', deltas vsub set_target vec n gts cur = Ok (n', delta, gt) /\ same m' n' /\ same m m'.
  Proof using ST.
    unfold deltas. intros SM H. destruct (nth_res cur 0) as [c0|]; [|discriminate]. cbn [bind] in *.
    pose proof (douter_keeps _ _ _ _ _ _ _ _ _ H) as SK.
    destruct gts as [|g gts]; [cbn [deltas_outer] in *; injection H as <- <- <-; eauto|].
    destruct cur as [|ss cur]; [cbn [deltas_outer] in *; injection H as <- <- <-; eauto|].
    cbn [deltas_outer] in *. rewrite <- (forgets m n g SM). rewrite H. exists m'. auto.
  Qed.

  Definition agree (o o' : outcome S R M E) : Prop :=
    o_currents o = o_currents o' /\ o_regs o = o_regs o' /\ o_final o = o_final o' /\ same (o_model o) (o_model o').
  Lemma loop_quiet feat vb inc np gts : forall n k gt cur m m' delta regs o, same m m' ->
    lp feat vb inc np gts n k gt cur m delta regs = Ok o ->
    exists o', lp feat false inc np gts n k gt cur m' delta regs = Ok o' /\ agree o o'.
  Proof using ST.
    induction n as [|n IH]; intros k gt cur m m' delta regs o SM H.
    - injection H as <-. eexists. split; [reflexivity|]. unfold agree. cbn. auto.
    - destruct (loop_turn _ _ _ _ _ _ _ _ _ _ _ _ _ H) as (f & regs' & r & est & pr & m1 & cur' & m2 & delta' & o' & Hf & Hr & Hn & Hp & Hv & Ho & Hl & ->).
      pose proof (print_turn_same _ _ _ _ _ _ _ _ Hv) as S1.
      destruct (eouter_same _ _ _ _ _ m' _ _ _ _ ltac:(eapply trans; [apply sym; exact S1|exact SM]) Ho) as (n2 & Hn2 & S2).
      destruct (IH _ _ _ _ _ _ _ _ S2 Hl) as (o2 & L2 & (A1 & A2 & A3 & A4)).
      cbn [loop]. rewrite Hf. cbn [bind]. rewrite Hr. cbn [bind]. unfold nth_res. rewrite Hn. cbn [bind]. rewrite Hp. cbn [bind].
      rewrite Hn2. cbn [bind]. rewrite L2. cbn [bind]. eexists. split; [reflexivity|]. unfold agree. cbn. do 3 (split; [congruence|]). exact A4.
  Qed.

  (** Lengths of the rows, for the printing. *)
  Lemma set_row_len {T} (v : T) : forall k a a', set_row k v a = Ok a' -> length a' = length a.
  Proof.
    induction k as [|k IH]; intros [|x a] a' H; cbn [set_row] in H; try discriminate.
    - injection H as <-. reflexivity.
    - destruct (set_row k v a) as [a1|] eqn:E1; [|discriminate]. injection H as <-. cbn. f_equal. apply IH. exact E1.
  Qed.
  Lemma einner_len est gt : forall ss j m delta ss' j' m' delta', einner est gt ss j m delta = Ok (ss', j', m', delta') -> length delta' = length delta.
  Proof.
    induction ss as [|s ss IH]; intros j m delta ss' j' m' delta' H; cbn [estimates_inner] in H; [injection H as <- <- <- <-; reflexivity|].
    destruct (nth_res est j) as [e|]; [|discriminate]. cbn [bind] in H.
    destruct (set_target m s) as [m1|]; [|discriminate]. cbn [bind] in H.
    destruct (from_vector m1 _) as [m2|]; [|discriminate]. cbn [bind] in H.
    destruct (nth_res gt j) as [g|]; [|discriminate]. cbn [bind] in H.
    destruct (match g with Some _ => _ | None => _ end) as [d1|] eqn:Ed; [|discriminate]. cbn [bind] in H.
    destruct (einner est gt ss (Datatypes.S j) m2 d1) as [[[[r' j1] m3] d2]|] eqn:Er; [|discriminate]. cbn [bind] in H. injection H as <- <- <- <-.
    rewrite (IH _ _ _ _ _ _ _ Er). destruct g; [eapply set_row_len; eauto|injection Ed as <-; reflexivity].
  Qed.
  Lemma eouter_len est gt : forall cur j m delta cur' m' delta', eouter est gt cur j m delta = Ok (cur', m', delta') -> length delta' = length delta.
  Proof.
    induction cur as [|ss cur IH]; intros j m delta cur' m' delta' H; cbn [estimates_outer] in H; [injection H as <- <- <-; reflexivity|].
    destruct (einner est gt ss j m delta) as [[[[ss1 j1] m1] d1]|] eqn:Ei; [|discriminate]. cbn [bind] in H.
    destruct (eouter est gt cur j1 m1 d1) as [[[rest m2] d2]|] eqn:Er; [|discriminate]. cbn [bind] in H. injection H as <- <- <-.
    rewrite (IH _ _ _ _ _ _ Er). eapply einner_len; eauto.
  Qed.
  Lemma dinner_len g : forall ss k m delta gt k' m' delta' gt', dinner g ss k m delta gt = Ok (k', m', delta', gt') -> length delta' = length delta.
  Proof.
    induction ss as [|s ss IH]; intros k m delta gt k' m' delta' gt' H; cbn [deltas_inner] in H; [injection H as <- <- <- <-; reflexivity|].
    destruct (set_row k g gt) as [gt1|]; [|discriminate]. cbn [bind] in H. destruct (set_target m s) as [m1|] eqn:E1; [|discriminate]. cbn [bind] in H.
    destruct (set_row k (vsub g (vec m1)) delta) as [d1|] eqn:Ed; [|discriminate]. cbn [bind] in H. rewrite (IH _ _ _ _ _ _ _ _ H). eapply set_row_len; eauto.
  Qed.
  Lemma douter_len : forall gts cur k m delta gt m' delta' gt', douter gts cur k m delta gt = Ok (m', delta', gt') -> length delta' = length delta.
  Proof.
    induction gts as [|g gts IH]; intros [|ss cur] k m delta gt m' delta' gt' H; cbn [deltas_outer] in H; try (injection H as <- <- <-; reflexivity).
    destruct (set_target m g) as [m1|] eqn:E1; [|discriminate]. cbn [bind] in H.
    destruct (dinner (vec m1) ss k m1 delta gt) as [[[[k1 m2] d1] g1]|] eqn:E2; [|discriminate]. cbn [bind] in H.
    rewrite (IH _ _ _ _ _ _ _ _ H). eapply dinner_len; eauto.
  Qed.
  Lemma print_total gts np : (forall m v, exists m', from_vector m v = Ok m') -> (forall a b c, exists e, compute_error a b c = Ok e) ->
    forall delta est j m, j + length delta <= length gts * np ->
    exists es m', pinfo gts np j delta est m = Ok (es, m') /\ length es = min (length delta) (length est).
  Proof.
    intros TF TE. induction delta as [|dx delta IH]; intros [|edx est] j m L; cbn [print_info]; try (eexists _, _; split; reflexivity).
    destruct (TF m (match dx with Some v => v | None => garbage end)) as [m1 ->]. cbn [bind].
    destruct (TF m1 edx) as [m2 ->]. cbn [bind]. cbn [length] in L.
    assert (J : j / np < length gts) by (apply Nat.div_lt_upper_bound; lia).
    unfold nth_res. destruct (nth_error gts (j / np)) as [g|] eqn:Eg; [|apply nth_error_None in Eg; lia]. cbn [bind].
    destruct (TE (tgt m1) (tgt m2) g) as [e ->]. cbn [bind].
    destruct (IH est (Datatypes.S j) m2) as (es & m' & -> & Le); [lia|]. cbn [bind]. eexists _, _. split; [reflexivity|]. cbn. lia.
  Qed.
  Lemma loop_loud feat inc np gts : (forall m v, exists m', from_vector m v = Ok m') -> (forall a b c, exists e, compute_error a b c = Ok e) ->
    forall n k gt cur m m' delta regs o, same m m' -> length delta <= length gts * np ->
    lp feat false inc np gts n k gt cur m delta regs = Ok o ->
    exists o', lp feat true inc np gts n k gt cur m' delta regs = Ok o' /\ agree o o' /\ length (o_printed o') = n.
  Proof using ST.
    intros TF TE. induction n as [|n IH]; intros k gt cur m m' delta regs o SM LD H.
    - injection H as <-. eexists. split; [reflexivity|]. unfold agree. cbn. auto.
    - destruct (loop_turn _ _ _ _ _ _ _ _ _ _ _ _ _ H) as (f & regs' & r & est & pr & m1 & cur' & m2 & delta' & o' & Hf & Hr & Hn & Hp & Hv & Ho & Hl & ->).
      cbn in Hv. injection Hv as <- <-.
      destruct (print_total gts np TF TE delta est 0 m') as (es & m3 & Hpr & _); [lia|].
      assert (S3 : same m m3) by (eapply trans; [exact SM|eapply print_same; eauto]).
      destruct (eouter_same _ _ _ _ _ m3 _ _ _ _ S3 Ho) as (n2 & Hn2 & S2).
      destruct (IH _ _ _ _ _ _ _ _ S2 ltac:(rewrite (eouter_len _ _ _ _ _ _ _ _ _ Ho); exact LD) Hl) as (o2 & L2 & (A1 & A2 & A3 & A4) & PL).
      cbn [loop]. rewrite Hf. cbn [bind]. rewrite Hr. cbn [bind]. unfold nth_res. rewrite Hn. cbn [bind]. rewrite Hp. cbn [bind].
      rewrite Hpr. cbn [bind]. rewrite Hn2. cbn [bind]. rewrite L2. cbn [bind]. eexists. split; [reflexivity|]. unfold agree. cbn.
      split; [|lia]. do 3 (split; [congruence|]). exact A4.
  Qed.

  Notation tr := (train vadd vsub set_target from_vector vec tgt patches build_appearance appearance_feature build_shape
                    reg_train reg_increment reg_predict compute_error garbage).
  Notation appof := (appearance_of patches build_appearance).
  (** The appearance model used by a training. *)
  Definition app_used (kd : kind) (n : nat) (a : algorithm R M A) images (gts : list S) : res (option A) :=
    if k_appearance kd then
      match a_appearance a, n with
      | Some ap, _ => Ok (Some ap)
      | None, 0 => Ok None
      | None, Datatypes.S _ => let? ap := appof images gts in Ok (Some ap)
      end
    else Ok (a_appearance a).
  Definition shape_used (kd : kind) (a : algorithm R M A) (gts : list S) : res M :=
    match (if k_shape kd then a_shape a else None) with Some m => Ok m | None => build_shape gts end.
  Lemma train_parts kd vb inc n a images gts cur a' o : tr kd vb inc n a images gts cur = Ok (a', o) <->
    exists regs c0 m m1 delta gt app,
      (if inc then match a_regressors a with [] => Err ValueError | rs => Ok rs end else Ok []) = Ok regs /\
      nth_error cur 0 = Some c0 /\ gts <> [] /\ shape_used kd a gts = Ok m /\ deltas vsub set_target vec m gts cur = Ok (m1, delta, gt) /\
      app_used kd n a images gts = Ok app /\
      lp (trfeat kd app images) vb inc (length c0) gts n 0 gt cur m1 delta regs = Ok o /\
      a' = mkAlg (o_regs o) (if k_shape kd then Some (o_model o) else a_shape a) app.
  Proof.
    unfold train, shape_used, app_used. split.
    - intros H. destruct (if inc then _ else _) as [regs|]; [|discriminate]. cbn [bind] in H.
      destruct (nth_res cur 0) as [c0|] eqn:Ec; [|discriminate]. cbn [bind] in H.
      destruct (nth_res gts 0) as [g0|] eqn:Eg; [|discriminate]. cbn [bind] in H.
      destruct (match (if k_shape kd then a_shape a else None) with Some m => Ok m | None => build_shape gts end) as [m|]; [|discriminate]. cbn [bind] in H.
      destruct (deltas vsub set_target vec m gts cur) as [[[m1 delta] gt]|] eqn:Ed; [|discriminate]. cbn [bind] in H.
      destruct (if k_appearance kd then _ else _) as [app|]; [|discriminate]. cbn [bind] in H.
      destruct (lp _ _ _ _ _ _ _ _ _ _ _ _) as [o'|] eqn:El; [|discriminate]. cbn [bind] in H. injection H as <- <-.
      exists regs, c0, m, m1, delta, gt, app. unfold nth_res in *. destruct (nth_error cur 0); [|discriminate]. injection Ec as ->.
      split; auto. split; auto. split; [destruct gts; [discriminate|congruence]|]. do 3 (split; auto).
    - intros (regs & c0 & m & m1 & delta & gt & app & H1 & H2 & H3 & H4 & H5 & H6 & H7 & ->).
      rewrite H1. cbn [bind]. unfold nth_res. rewrite H2. cbn [bind]. destruct gts as [|g gts]; [congruence|]. cbn [nth_error bind].
      rewrite H4. cbn [bind]. rewrite H5. cbn [bind]. rewrite H6. cbn [bind]. rewrite H7. reflexivity.
  Qed.

  Definition agree_alg (a a' : algorithm R M A) : Prop :=
    a_regressors a = a_regressors a' /\ a_appearance a = a_appearance a' /\
    match a_shape a, a_shape a' with Some m, Some m' => same m m' | None, None => True | _, _ => False end.

  Lemma train_quiet kd inc n a images gts cur a' o : tr kd true inc n a images gts cur = Ok (a', o) ->
    exists a2 o2, tr kd false inc n a images gts cur = Ok (a2, o2) /\ agree o o2 /\ agree_alg a' a2.
  Proof using ST.
    intros H. apply train_parts in H. destruct H as (regs & c0 & m & m1 & delta & gt & app & H1 & H2 & H3 & H4 & H5 & H6 & H7 & ->).
    destruct (loop_quiet _ _ _ _ _ _ _ _ _ _ _ _ _ _ (refl m1) H7) as (o2 & L2 & AG). exists (mkAlg (o_regs o2) (if k_shape kd then Some (o_model o2) else a_shape a) app), o2.
    split; [apply train_parts; exists regs, c0, m, m1, delta, gt, app; auto 10|]. split; auto. destruct AG as (A1 & A2 & A3 & A4).
    unfold agree_alg. cbn. split; auto. split; auto. destruct (k_shape kd); auto. destruct (a_shape a); auto.
  Qed.
  Lemma deltas_len m gts cur c0 m1 delta gt : nth_error cur 0 = Some c0 -> deltas vsub set_target vec m gts cur = Ok (m1, delta, gt) ->
    length delta = length gts * length c0.
  Proof.
    unfold deltas, nth_res. intros -> H. cbn [bind] in H. rewrite (douter_len _ _ _ _ _ _ _ _ _ H). apply repeat_length.
  Qed.
  Lemma train_loud kd inc n a images gts cur a' o :
    (forall m v, exists m', from_vector m v = Ok m') -> (forall x y z, exists e, compute_error x y z = Ok e) ->
    tr kd false inc n a images gts cur = Ok (a', o) ->
    exists a2 o2, tr kd true inc n a images gts cur = Ok (a2, o2) /\ agree o o2 /\ agree_alg a' a2 /\ length (o_printed o2) = n.
  Proof using ST.
    intros TF TE H. apply train_parts in H. destruct H as (regs & c0 & m & m1 & delta & gt & app & H1 & H2 & H3 & H4 & H5 & H6 & H7 & ->).
    destruct (loop_loud _ inc (length c0) gts TF TE _ _ _ _ _ _ _ _ _ (refl m1) ltac:(rewrite (deltas_len _ _ _ _ _ _ _ H2 H5); auto) H7) as (o2 & L2 & AG & PL).
    exists (mkAlg (o_regs o2) (if k_shape kd then Some (o_model o2) else a_shape a) app), o2.
    split; [apply train_parts; exists regs, c0, m, m1, delta, gt, app; auto 10|]. split; auto. split; auto. destruct AG as (A1 & A2 & A3 & A4).
    unfold agree_alg. cbn. split; auto. split; auto. destruct (k_shape kd); auto. destruct (a_shape a); auto.
  Qed.

  (** Training with the same regressors, a model in another state and the same appearance model. *)
  Lemma train_same_models kd n a b images gts cur a' o m m' app :
    shape_used kd a gts = Ok m -> shape_used kd b gts = Ok m' -> same m m' ->
    app_used kd n a images gts = Ok app -> (app_used kd n b images gts = Ok app \/ k_appearance kd = false) ->
    tr kd false false n a images gts cur = Ok (a', o) ->
    exists b' o', tr kd false false n b images gts cur = Ok (b', o') /\ agree o o'.
  Proof using ST.
    intros SA SB SM AA AB H. apply train_parts in H. destruct H as (regs & c0 & m0 & m1 & delta & gt & app0 & H1 & H2 & H3 & H4 & H5 & H6 & H7 & ->).
    assert (m0 = m) by congruence. subst m0. assert (app0 = app) by congruence. subst app0.
    destruct (deltas_same _ _ _ _ _ _ _ SM H5) as (n1 & D & S1 & _).
    destruct (loop_quiet _ _ _ _ _ _ _ _ _ _ _ _ _ _ S1 H7) as (o2 & L2 & AG).
    assert (exists app', app_used kd n b images gts = Ok app' /\ trfeat kd app images = trfeat kd app' images) as (app' & AB' & FE).
    { destruct AB as [AB|AB]; [eauto|]. unfold app_used. rewrite AB. eexists. split; [reflexivity|].
      unfold training_features. rewrite AB. reflexivity. }
    rewrite FE in L2. eexists _, o2. split; [|exact AG]. apply train_parts. exists regs, c0, m', n1, delta, gt, app'.
    injection H1 as <-. do 7 (split; auto).
  Qed.

  (** The shape model after a training is the one used, the appearance model is the one used. *)
  Lemma train_keeps kd vb inc n a images gts cur a' o : tr kd vb inc n a images gts cur = Ok (a', o) ->
    (k_shape kd = true -> exists m m', shape_used kd a gts = Ok m /\ a_shape a' = Some m' /\ same m m') /\
    app_used kd n a images gts = Ok (a_appearance a').
  Proof using ST.
    intros H. apply train_parts in H. destruct H as (regs & c0 & m & m1 & delta & gt & app & H1 & H2 & H3 & H4 & H5 & H6 & H7 & ->).
    cbn [a_shape a_appearance]. split; auto. intros K. rewrite K. exists m, (o_model o). split; auto. split; auto.
    destruct (deltas_same _ _ _ _ _ _ _ (refl m) H5) as (_ & _ & _ & S1). eapply trans; [exact S1|].
    assert (LK : forall n k gt cur m delta regs o, lp (trfeat kd app images) vb inc (length c0) gts n k gt cur m delta regs = Ok o -> same m (o_model o)).
    { clear H7. clear - ST refl sym trans sset sfrom forgets. induction n as [|n IH]; intros k gt cur m delta regs o H.
      - injection H as <-. apply refl.
      - destruct (loop_turn _ _ _ _ _ _ _ _ _ _ _ _ _ H) as (f & regs' & r & est & pr & m1 & cur' & m2 & delta' & o' & _ & _ & _ & _ & Hv & Ho & Hl & ->).
        cbn [o_model]. eapply trans; [eapply print_turn_same; eauto|]. eapply trans; [|eapply IH; eauto]. eapply eouter_at; eauto. }
    eapply LK; eauto.
  Qed.

  Hypothesis RW : rowwise reg_predict reg_predict1.

  Lemma skipn_nth {T} (l : list T) k x : nth_error l k = Some x -> skipn k l = x :: skipn (Datatypes.S k) l.
  Proof. revert l. induction k; intros [|a l] H; try discriminate; cbn in *; [congruence|]. apply IHk. exact H. Qed.

  Lemma loop_replay kd app images i l im vb inc np gts : nth_error images i = Some im ->
    forall n k gt cur m delta regs o, lp (trfeat kd app images) vb inc np gts n k gt cur m delta regs = Ok o ->
    (if inc then length regs = k + n else length regs = k) ->
    forall s mk, sample cur i l = Some s -> set_target mk s = Ok mk -> tgt mk = s -> same mk m ->
    (forall c x, In c (tl (o_currents o)) -> sample c i l = Some x -> recovered set_target from_vector tgt same m x) ->
    exists shapes m', fit_loop vadd from_vector vec tgt patches appearance_feature reg_predict1 kd app (skipn k (o_regs o)) im mk = Ok (shapes, m') /\
      retraces (o_currents o) (o_final o) i l shapes.
  Proof using ST RW.
    intros Hi. induction n as [|n IH]; intros k gt cur m delta regs o H K s mk Hs Fx Tg Sm Rec.
    - pose proof (loop_regs _ _ _ _ _ _ _ _ _ _ _ _ _ H) as Q. injection H as <-. cbn [o_regs o_currents o_final] in *.
      replace (skipn k regs) with (@nil R) by (symmetry; apply skipn_all2; destruct inc; lia).
      eexists [], _. split; [reflexivity|]. split; [reflexivity|]. intros [|j]; discriminate.
    - pose proof (loop_regs _ _ _ _ _ _ _ _ _ _ _ _ _ H) as Q0.
      destruct (loop_turn _ _ _ _ _ _ _ _ _ _ _ _ _ H) as (f & regs' & r & est & pr & m1 & cur' & m2 & delta' & o' & Hf & Hr & Hn & Hp & Hv & Ho & Hl & ->).
      cbn [o_regs o_model o_currents o_final tl] in *. pose proof (print_turn_same _ _ _ _ _ _ _ _ Hv) as S1.
      destruct (eouter_at _ _ _ _ _ _ _ _ _ Ho) as (S2 & _ & _ & N).
      destruct (N i l s Hs) as (e & n1 & n2 & N1 & N2 & N3 & N4). cbn [Nat.add] in N1.
      assert (EQ : n1 = mk).
      { assert (set_target m1 s = set_target mk s) by (apply forgets; apply sym; eapply trans; eauto). congruence. }
      subst n1. unfold sample in Hs. destruct (nth_error cur i) as [ss|] eqn:Hc; [|discriminate].
      destruct (features_at _ _ _ _ _ _ _ _ _ _ Hf Hi Hc Hs) as (x & X1 & X2). destruct (RW _ _ _ Hp) as [_ RP].
      destruct (RP _ _ X1) as (v & V1 & V2). rewrite N1 in V1. injection V1 as <-.
      assert (K' : if inc then length regs' = Datatypes.S k + n else length regs' = Datatypes.S k).
      { destruct inc.
        - destruct (nth_res regs k) as [r0|] eqn:E0; [|discriminate]. cbn [bind] in Hr. destruct (reg_increment r0 f delta) as [r1|]; [|discriminate].
          injection Hr as <-. transitivity (length regs); [apply replace_length; lia|lia].
        - destruct (reg_train f delta) as [r1|]; [|discriminate]. injection Hr as <-. rewrite app_length. cbn. lia. }
      assert (RK : nth_error (o_regs o') k = Some r).
      { destruct (loop_regs _ _ _ _ _ _ _ _ _ _ _ _ _ Hl) as (Q & _); [destruct inc; lia|]. rewrite Q by lia. exact Hn. }
      rewrite (skipn_nth _ _ _ RK). cbn [fit_loop]. rewrite Tg, X2. cbn [bind]. rewrite V2. cbn [bind]. rewrite N3. cbn [bind].
      assert (HD : match n with 0 => o_final o' = cur' /\ o_currents o' = [] | _ => exists t, o_currents o' = cur' :: t end).
      { destruct n; [cbn [loop] in Hl; injection Hl as <-; auto|].
        destruct (loop_turn _ _ _ _ _ _ _ _ _ _ _ _ _ Hl) as (? & ? & ? & ? & ? & ? & ? & ? & ? & ? & _ & _ & _ & _ & _ & _ & _ & ->). eexists; reflexivity. }
      assert (HX : exists shapes m', fit_loop vadd from_vector vec tgt patches appearance_feature reg_predict1 kd app (skipn (Datatypes.S k) (o_regs o')) im n2 = Ok (shapes, m') /\
                retraces (o_currents o') (o_final o') i l shapes).
      { destruct n as [|n].
        - destruct HD as [_ HC]. destruct (loop_regs _ _ _ _ _ _ _ _ _ _ _ _ _ Hl) as (_ & LL & _); [destruct inc; lia|].
          rewrite skipn_all2 by (destruct inc; lia). eexists [], _. split; [reflexivity|]. rewrite HC. split; [reflexivity|]. intros [|j]; discriminate.
        - destruct HD as [t HC]. eapply (IH _ _ _ _ _ _ _ Hl K' (tgt n2) n2); auto.
          + apply (Rec cur' (tgt n2) ltac:(rewrite HC; left; reflexivity) N4 mk (vadd (vec mk) e) n2); auto.
          + apply sym. apply trans with mk; [|eapply sfrom; eauto]. apply sym. eapply trans; [exact Sm|]. eapply trans; [exact S1|exact S2].
          + intros c x0 Hin Hx. assert (RX : recovered set_target from_vector tgt same m x0) by (eapply Rec; eauto; rewrite HC in *; right; exact Hin).
            intros p v p' Hp1 Hp2 Hp3. apply (RX p v p'); auto. eapply trans; [exact S1|]. eapply trans; [exact S2|exact Hp1]. }
      destruct HX as (shapes & m' & HF & HL & HN). rewrite HF. cbn [bind]. eexists _, _. split; [reflexivity|]. split; [cbn; lia|].
      intros [|j] sj Hj; cbn [nth_error] in Hj.
      + injection Hj as <-. exists cur'. split; [|exact N4]. destruct n; [destruct HD as [-> ->]; reflexivity|]. destruct HD as [t ->]. reflexivity.
      + destruct (HN j sj Hj) as (c & C1 & C2). exists c. split; auto.
  Qed.
End P.
