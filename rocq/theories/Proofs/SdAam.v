From Coq Require Import List Arith Lia.
From Verif.Model Require Import Py Result SdmTrain SdmAlgorithm SdAam.
From Verif.Spec Require Import SdmAlgorithm SdAam.
From Verif.Proofs Require Import SdmAlgorithm.
Import ListNotations.

Section P.
  Context {S V I X R M E : Type}.
  Variables vadd vsub : V -> V -> V.
  Variable set_target : M -> S -> res M.
  Variable from_vector : M -> V -> res M.
  Variable vec : M -> V.
  Variable tgt : M -> S.
  Variable feature : I -> M -> res X.
  Variable reg_train : list X -> list (option V) -> res R.
  Variable reg_increment : R -> list X -> list (option V) -> res R.
  Variable reg_predict : R -> list X -> res (list V).
  Variable reg_predict1 : R -> X -> res V.
  Variable compute_error : S -> S -> S -> res E.
  Variable garbage : V.
  Variable same : M -> M -> Prop.
  Hypothesis ST : stateless set_target from_vector same.
  Let refl := same_refl ST. Let sym := same_sym ST. Let trans := same_trans ST.
  Let sset := same_set ST. Let sfrom := same_from ST. Let forgets := set_forgets ST.
  Set Default Proof Using "ST".

  Notation fshapes := (features_shapes set_target feature).
  Notation fimages := (features_images set_target feature).
  Notation trfeat := (training_features set_target feature).
  Notation eouter := (estimates_outer vadd vsub set_target from_vector vec tgt).
  Notation pinfo := (print_info from_vector tgt compute_error garbage).
  Notation lp := (sd_loop vadd vsub set_target from_vector vec tgt feature reg_train reg_increment reg_predict compute_error garbage).
  Notation tr := (sd_train vadd vsub set_target from_vector vec tgt feature reg_train reg_increment reg_predict compute_error garbage).

  Lemma fshapes_at im : forall ss m xs m', fshapes im ss m = Ok (xs, m') ->
    same m m' /\ length xs = length ss /\
    forall l s, nth_error ss l = Some s -> exists x m1, nth_error xs l = Some x /\ set_target m s = Ok m1 /\ feature im m1 = Ok x.
  Proof.
    induction ss as [|s ss IH]; intros m xs m' H; cbn [features_shapes] in H.
    - injection H as <- <-. split; [apply refl|]. split; auto. intros [|l]; discriminate.
    - unfold test_features in H. destruct (set_target m s) as [m1|] eqn:E1; [|discriminate]. cbn [bind] in H.
      destruct (feature im m1) as [x|] eqn:E2; [|discriminate]. cbn [bind] in H.
      destruct (fshapes im ss m1) as [[ys m2]|] eqn:E3; [|discriminate]. injection H as <- <-.
      destruct (IH _ _ _ E3) as (S1 & L & N). pose proof (sset _ _ _ E1) as S0.
      split; [eapply trans; eauto|]. split; [cbn; lia|]. intros [|l] s' Hs; cbn [nth_error] in *.
      + injection Hs as <-. eauto.
      + destruct (N l s' Hs) as (y & n1 & N1 & N2 & N3). exists y, n1. split; auto. split; auto. rewrite (forgets m m1 s'); auto.
  Qed.
  Lemma fimages_at : forall images cur m xs m', fimages images cur m = Ok (xs, m') ->
    same m m' /\
    forall i l im s, nth_error images i = Some im -> sample cur i l = Some s ->
      exists x m1, nth_error xs (offset cur i + l) = Some x /\ set_target m s = Ok m1 /\ feature im m1 = Ok x.
  Proof.
    induction images as [|im images IH]; intros [|ss cur] m xs m' H; cbn [features_images] in H;
      try (injection H as <- <-; split; [apply refl|]; intros i l im0 s0 H1 H2; destruct i; discriminate).
    destruct (fshapes im ss m) as [[ys m1]|] eqn:E1; [|discriminate]. cbn [bind] in H.
    destruct (fimages images cur m1) as [[zs m2]|] eqn:E2; [|discriminate]. cbn [bind] in H. injection H as <- <-.
    destruct (fshapes_at _ _ _ _ _ E1) as (S1 & L & N). destruct (IH _ _ _ _ E2) as (S2 & N2).
    split; [eapply trans; eauto|]. intros [|i] l im' s Hi Hs; unfold sample in Hs; cbn [nth_error] in *.
    - injection Hi as <-. destruct (N l s Hs) as (x & n1 & Q1 & Q2 & Q3). exists x, n1. split; auto.
      unfold offset. cbn [firstn concat length Nat.add]. rewrite nth_error_app1; auto. apply nth_error_Some. congruence.
    - destruct (N2 i l im' s Hi Hs) as (x & n1 & Q1 & Q2 & Q3). exists x, n1. split; [|split; auto; rewrite (forgets m m1 s); auto].
      unfold offset in *. cbn [firstn concat]. rewrite app_length, nth_error_app2 by lia. rewrite <- Q1. f_equal. lia.
  Qed.
  Lemma trfeat_at images cur m f m' : trfeat images cur m = Ok (f, m') ->
    same m m' /\
    forall i l im s, nth_error images i = Some im -> sample cur i l = Some s ->
      exists x m1, nth_error f (offset cur i + l) = Some x /\ set_target m s = Ok m1 /\ feature im m1 = Ok x.
  Proof.
    unfold training_features. destruct (fimages images cur m) as [[xs m1]|] eqn:E1; [|discriminate]. cbn [bind].
    destruct xs; [discriminate|]. intros H. injection H as <- <-. eapply fimages_at; eauto.
  Qed.
  Lemma fshapes_same im ss m n xs m' : same m n -> fshapes im ss m = Ok (xs, m') -> exists n', fshapes im ss n = Ok (xs, n') /\ same m' n'.
  Proof.
    intros SM H. destruct ss as [|s ss]; cbn [features_shapes] in *; [injection H as <- <-; eauto|].
    unfold test_features in *. rewrite <- (forgets m n s SM). eauto.
  Qed.
  Lemma fimages_same : forall images cur m n xs m', same m n -> fimages images cur m = Ok (xs, m') ->
    exists n', fimages images cur n = Ok (xs, n') /\ same m' n'.
  Proof.
    induction images as [|im images IH]; intros [|ss cur] m n xs m' SM H; cbn [features_images] in *; try (injection H as <- <-; eauto).
    destruct (fshapes im ss m) as [[ys m1]|] eqn:E1; [|discriminate]. cbn [bind] in H.
    destruct (fshapes_same _ _ _ _ _ _ SM E1) as (n1 & -> & S1). cbn [bind].
    destruct (fimages images cur m1) as [[zs m2]|] eqn:E2; [|discriminate]. cbn [bind] in H. injection H as <- <-.
    destruct (IH _ _ _ _ _ S1 E2) as (n2 & -> & S2). cbn [bind]. eauto.
  Qed.
  Lemma trfeat_same images cur m n f m' : same m n -> trfeat images cur m = Ok (f, m') -> exists n', trfeat images cur n = Ok (f, n') /\ same m' n'.
  Proof.
    unfold training_features. intros SM H. destruct (fimages images cur m) as [[xs m1]|] eqn:E1; [|discriminate]. cbn [bind] in H.
    destruct (fimages_same _ _ _ _ _ _ SM E1) as (n1 & -> & S1). cbn [bind]. destruct xs; [discriminate|]. injection H as <- <-. eauto.
  Qed.

  Lemma sd_turn images vb inc np gts n k gt cur m delta regs o : lp images vb inc np gts (Datatypes.S n) k gt cur m delta regs = Ok o ->
    exists f m0 regs' r est pr m1 cur' m2 delta' o',
      trfeat images cur m = Ok (f, m0) /\
      (if inc then let? r := nth_res regs k in let? r' := reg_increment r f delta in Ok (firstn k regs ++ r' :: skipn (Datatypes.S k) regs)
       else let? r := reg_train f delta in Ok (regs ++ [r])) = Ok regs' /\
      nth_error regs' k = Some r /\ reg_predict r f = Ok est /\
      (if vb then let? (es, m1) := pinfo gts np 0 delta est m0 in Ok ([es], m1) else Ok ([], m0)) = Ok (pr, m1) /\
      eouter est gt cur 0 m1 delta = Ok (cur', m2, delta') /\
      lp images vb inc np gts n (Datatypes.S k) gt cur' m2 delta' regs' = Ok o' /\
      o = mkOut (cur :: o_currents o') (pr ++ o_printed o') (o_regs o') (o_model o') (o_final o').
  Proof using.
    cbn [sd_loop]. intros H. destruct (trfeat images cur m) as [[f m0]|]; [|discriminate]. cbn [bind] in H.
    destruct (if inc then _ else _) as [regs'|] eqn:Er; [|discriminate]. cbn [bind] in H.
    destruct (nth_res regs' k) as [r|] eqn:En; [|discriminate]. cbn [bind] in H.
    destruct (reg_predict r f) as [est|] eqn:Ep; [|discriminate]. cbn [bind] in H.
    destruct (if vb then _ else _) as [[pr m1]|] eqn:Ev; [|discriminate]. cbn [bind] in H.
    destruct (eouter est gt cur 0 m1 delta) as [[[cur' m2] delta']|] eqn:Eo; [|discriminate]. cbn [bind] in H.
    destruct (lp _ _ _ _ _ n _ _ _ _ _ _) as [o'|] eqn:El; [|discriminate]. injection H as <-.
    unfold nth_res in En. destruct (nth_error regs' k) eqn:En'; [|discriminate]. injection En as ->.
    exists f, m0, regs', r, est, pr, m1, cur', m2, delta', o'. do 7 (split; auto).
  Qed.
  Lemma turn_regs (inc : bool) k (regs regs' : list R) f delta :
    (if inc then let? r := nth_res regs k in let? r' := reg_increment r f delta in Ok (firstn k regs ++ r' :: skipn (Datatypes.S k) regs)
     else let? r := reg_train f delta in Ok (regs ++ [r])) = Ok regs' ->
    (if inc then True else length regs = k) ->
    (forall j, j < k -> nth_error regs' j = nth_error regs j) /\ length regs' = (if inc then length regs else Datatypes.S k).
  Proof using.
    intros Hr K. destruct inc.
    - destruct (nth_res regs k) as [r0|] eqn:E0; [|discriminate]. cbn [bind] in Hr. destruct (reg_increment r0 f delta) as [r1|]; [|discriminate].
      injection Hr as <-. unfold nth_res in E0. assert (H0 : k < length regs) by (apply nth_error_Some; destruct (nth_error regs k); congruence).
      split.
      + intros j J. rewrite nth_error_app1 by (rewrite firstn_length; lia). clear - J H0. revert regs H0 j J.
        induction k as [|k IHk]; intros regs L j J; [lia|]. destruct regs; [cbn in L; lia|]. destruct j; [reflexivity|]. cbn. apply IHk; cbn in L; lia.
      + apply replace_length. auto.
    - destruct (reg_train f delta) as [r1|]; [|discriminate]. injection Hr as <-. split.
      + intros j J. rewrite nth_error_app1 by lia. reflexivity.
      + rewrite app_length. cbn. lia.
  Qed.
  Notation psame := (print_turn_same from_vector tgt compute_error garbage).
  Lemma print_same' vb gts np delta est m pr m1 :
    (if vb : bool then let? (es, m1) := pinfo gts np 0 delta est m in Ok ([es], m1) else Ok ([], m)) = Ok (pr, m1) -> same m m1.
  Proof. eapply print_turn_same; eauto. Qed.
  Lemma sd_regs images vb inc np gts : forall n k gt cur m delta regs o, lp images vb inc np gts n k gt cur m delta regs = Ok o ->
    (if inc then True else length regs = k) ->
    (forall j, j < k -> nth_error (o_regs o) j = nth_error regs j) /\
    length (o_regs o) = (if inc then length regs else k + n) /\ same m (o_model o) /\ length (o_currents o) = n.
  Proof.
    induction n as [|n IH]; intros k gt cur m delta regs o H K.
    - injection H as <-. cbn [o_regs o_model o_currents]. split; auto. split; [destruct inc; lia|]. split; [apply refl|reflexivity].
    - destruct (sd_turn _ _ _ _ _ _ _ _ _ _ _ _ _ H) as (f & m0 & regs' & r & est & pr & m1 & cur' & m2 & delta' & o' & Hf & Hr & Hn & _ & Hv & Ho & Hl & ->).
      cbn [o_regs o_model o_currents]. pose proof (print_same' _ _ _ _ _ _ _ _ Hv) as S1.
      destruct (trfeat_at _ _ _ _ _ Hf) as (S0 & _).
      destruct (eouter_at vadd vsub set_target from_vector vec tgt same ST _ _ _ _ _ _ _ _ _ Ho) as (S2 & _).
      destruct (turn_regs _ _ _ _ _ _ Hr K) as [RK1 RK2].
      destruct (IH _ _ _ _ _ _ _ Hl) as (Q1 & Q2 & Q3 & Q4); [destruct inc; auto|].
      split; [intros j J; rewrite Q1 by lia; apply RK1; exact J|]. split; [destruct inc; lia|].
      split; [|cbn; lia]. eapply trans; [exact S0|]. eapply trans; [exact S1|]. eapply trans; [exact S2|exact Q3].
  Qed.

  Lemma sd_quiet images vb inc np gts : forall n k gt cur m m' delta regs o, same m m' ->
    lp images vb inc np gts n k gt cur m delta regs = Ok o ->
    exists o', lp images false inc np gts n k gt cur m' delta regs = Ok o' /\ agree same o o'.
  Proof.
    induction n as [|n IH]; intros k gt cur m m' delta regs o SM H.
    - injection H as <-. eexists. split; [reflexivity|]. unfold agree. cbn. auto.
    - destruct (sd_turn _ _ _ _ _ _ _ _ _ _ _ _ _ H) as (f & m0 & regs' & r & est & pr & m1 & cur' & m2 & delta' & o' & Hf & Hr & Hn & Hp & Hv & Ho & Hl & ->).
      pose proof (print_same' _ _ _ _ _ _ _ _ Hv) as S1. destruct (trfeat_same _ _ _ _ _ _ SM Hf) as (n0 & Hf' & S0).
      destruct (eouter_same vadd vsub set_target from_vector vec tgt same ST _ _ _ _ _ n0 _ _ _ _ ltac:(eapply trans; [apply sym; exact S1|exact S0]) Ho) as (n2 & Hn2 & S2).
      destruct (IH _ _ _ _ _ _ _ _ S2 Hl) as (o2 & L2 & (A1 & A2 & A3 & A4)).
      cbn [sd_loop]. rewrite Hf'. cbn [bind]. rewrite Hr. cbn [bind]. unfold nth_res. rewrite Hn. cbn [bind]. rewrite Hp. cbn [bind].
      rewrite Hn2. cbn [bind]. rewrite L2. cbn [bind]. eexists. split; [reflexivity|]. unfold agree. cbn. do 3 (split; [congruence|]). exact A4.
  Qed.
  Lemma sd_loud images inc np gts : (forall m v, exists m', from_vector m v = Ok m') -> (forall a b c, exists e, compute_error a b c = Ok e) ->
    forall n k gt cur m m' delta regs o, same m m' -> length delta <= length gts * np ->
    lp images false inc np gts n k gt cur m delta regs = Ok o ->
    exists o', lp images true inc np gts n k gt cur m' delta regs = Ok o' /\ agree same o o' /\ length (o_printed o') = n.
  Proof.
    intros TF TE. induction n as [|n IH]; intros k gt cur m m' delta regs o SM LD H.
    - injection H as <-. eexists. split; [reflexivity|]. unfold agree. cbn. auto.
    - destruct (sd_turn _ _ _ _ _ _ _ _ _ _ _ _ _ H) as (f & m0 & regs' & r & est & pr & m1 & cur' & m2 & delta' & o' & Hf & Hr & Hn & Hp & Hv & Ho & Hl & ->).
      cbn in Hv. injection Hv as <- <-. destruct (trfeat_same _ _ _ _ _ _ SM Hf) as (n0 & Hf' & S0).
      destruct (print_total from_vector tgt compute_error garbage gts np TF TE delta est 0 n0) as (es & m3 & Hpr & _); [lia|].
      assert (S3 : same m0 m3) by (eapply trans; [exact S0|eapply print_same; eauto]).
      destruct (eouter_same vadd vsub set_target from_vector vec tgt same ST _ _ _ _ _ m3 _ _ _ _ S3 Ho) as (n2 & Hn2 & S2).
      destruct (IH _ _ _ _ _ _ _ _ S2 ltac:(rewrite (eouter_len _ _ _ _ _ _ _ _ _ _ _ _ _ _ _ Ho); exact LD) Hl) as (o2 & L2 & (A1 & A2 & A3 & A4) & PL).
      cbn [sd_loop]. rewrite Hf'. cbn [bind]. rewrite Hr. cbn [bind]. unfold nth_res. rewrite Hn. cbn [bind]. rewrite Hp. cbn [bind].
      rewrite Hpr. cbn [bind]. rewrite Hn2. cbn [bind]. rewrite L2. cbn [bind]. eexists. split; [reflexivity|]. unfold agree. cbn.
      split; [|lia]. do 3 (split; [congruence|]). exact A4.
  Qed.
  (** The same loop in another state of the transform. *)
  Lemma sd_loop_same images inc np gts n k gt cur m m' delta regs o : same m m' ->
    lp images false inc np gts n k gt cur m delta regs = Ok o ->
    exists o', lp images false inc np gts n k gt cur m' delta regs = Ok o' /\ agree same o o'.
  Proof. apply sd_quiet. Qed.

  Lemma train_parts' vb inc n a images gts cur a' o : tr vb inc n a images gts cur = Ok (a', o) <->
    exists regs c0 m1 delta gt,
      (if inc then match sd_regressors a with [] => Err ValueError | rs => Ok rs end else Ok []) = Ok regs /\
      nth_error cur 0 = Some c0 /\ gts <> [] /\ deltas vsub set_target vec (sd_transform a) gts cur = Ok (m1, delta, gt) /\
      lp images vb inc (length c0) gts n 0 gt cur m1 delta regs = Ok o /\ a' = mkSd (o_regs o) (o_model o).
  Proof using.
    unfold sd_train. split.
    - intros H. destruct (if inc then _ else _) as [regs|] eqn:E1; [|discriminate]. cbn [bind] in H.
      unfold nth_res in H. destruct (nth_error cur 0) as [c0|] eqn:E2; [|discriminate]. cbn [bind] in H.
      destruct (nth_error gts 0) eqn:E3; [|discriminate]. cbn [bind] in H.
      destruct (deltas _ _ _ _ _ _) as [[[m1 delta] gt]|] eqn:E4; [|discriminate]. cbn [bind] in H.
      destruct (lp _ _ _ _ _ _ _ _ _ _ _ _) as [o'|] eqn:E5; [|discriminate]. cbn [bind] in H. injection H as <- <-.
      exists regs, c0, m1, delta, gt. do 2 (split; [reflexivity|]). split; [destruct gts; discriminate|]. auto.
    - intros (regs & c0 & m1 & delta & gt & H1 & H2 & H3 & H4 & H5 & ->). rewrite H1. cbn [bind]. unfold nth_res. rewrite H2. cbn [bind].
      destruct gts as [|g gts]; [congruence|]. cbn [nth_error bind]. rewrite H4. cbn [bind]. rewrite H5. reflexivity.
  Qed.

  (** ** The fit *)
  Hypothesis RW : rowwise reg_predict reg_predict1.
  Hypothesis RB : forall m v m', from_vector m v = Ok m' -> vec m' = v.
  Set Default Proof Using "All".
  Lemma sd_replay images i l im vb inc np gts : nth_error images i = Some im ->
    forall n k gt cur m delta regs o, lp images vb inc np gts n k gt cur m delta regs = Ok o ->
    (if inc then length regs = k + n else length regs = k) ->
    forall s mk, sample cur i l = Some s -> set_target m s = Ok mk -> set_target mk (tgt mk) = Ok mk ->
    (forall c x, In c (tl (o_currents o)) -> sample c i l = Some x -> recovered set_target from_vector tgt same m x) ->
    exists ps shapes m', sd_fit_loop vadd set_target from_vector tgt feature reg_predict1 (skipn k (o_regs o)) im mk (vec mk) = Ok (ps, shapes, m') /\
      length ps = length shapes /\ retraces (o_currents o) (o_final o) i l shapes.
  Proof.
    intros Hi. induction n as [|n IH]; intros k gt cur m delta regs o H K s mk Hs Fx Id Rec.
    - pose proof (sd_regs _ _ _ _ _ _ _ _ _ _ _ _ _ H) as Q. injection H as <-. cbn [o_regs o_currents o_final] in *.
      replace (skipn k regs) with (@nil R) by (symmetry; apply skipn_all2; destruct inc; lia).
      eexists [], [], _. split; [reflexivity|]. split; [reflexivity|]. split; [reflexivity|]. intros [|j]; discriminate.
    - destruct (sd_turn _ _ _ _ _ _ _ _ _ _ _ _ _ H) as (f & m0 & regs' & r & est & pr & m1 & cur' & m2 & delta' & o' & Hf & Hr & Hn & Hp & Hv & Ho & Hl & ->).
      cbn [o_regs o_model o_currents o_final tl] in *. pose proof (print_same' _ _ _ _ _ _ _ _ Hv) as S1.
      destruct (trfeat_at _ _ _ _ _ Hf) as (S0 & FA).
      destruct (eouter_at vadd vsub set_target from_vector vec tgt same ST _ _ _ _ _ _ _ _ _ Ho) as (S2 & _ & _ & N).
      destruct (FA i l im s Hi Hs) as (x & n0 & X1 & X2 & X3).
      destruct (N i l s Hs) as (e & n1 & n2 & N1 & N2 & N3 & N4). cbn [Nat.add] in N1.
      assert (EQ0 : n0 = mk) by congruence. subst n0.
      assert (EQ : n1 = mk).
      { assert (set_target m1 s = set_target m s) by (apply forgets; apply sym; eapply trans; eauto). congruence. }
      subst n1. destruct (RW _ _ _ Hp) as [_ RP].
      destruct (RP _ _ X1) as (v & V1 & V2). rewrite N1 in V1. injection V1 as <-.
      assert (K' : if inc then length regs' = Datatypes.S k + n else length regs' = Datatypes.S k).
      { destruct (turn_regs _ _ _ _ _ _ Hr) as [_ QL]; destruct inc; auto; lia. }
      assert (RK : nth_error (o_regs o') k = Some r).
      { destruct (sd_regs _ _ _ _ _ _ _ _ _ _ _ _ _ Hl) as (Q & _); [destruct inc; auto|]. rewrite Q by lia. exact Hn. }
      rewrite (skipn_nth _ _ _ RK). cbn [sd_fit_loop]. unfold test_features. rewrite Id. cbn [bind]. rewrite X3. cbn [bind]. rewrite V2. cbn [bind].
      rewrite N3. cbn [bind]. pose proof (RB _ _ _ N3) as VE. rewrite <- VE.
      assert (HD : match n with 0 => o_final o' = cur' /\ o_currents o' = [] | _ => exists t, o_currents o' = cur' :: t end).
      { destruct n; [cbn [sd_loop] in Hl; injection Hl as <-; auto|].
        destruct (sd_turn _ _ _ _ _ _ _ _ _ _ _ _ _ Hl) as (? & ? & ? & ? & ? & ? & ? & ? & ? & ? & ? & _ & _ & _ & _ & _ & _ & _ & ->). eexists; reflexivity. }
      assert (Sk : same m mk) by (eapply sset; eauto).
      assert (S2k : same m2 n2).
      { apply sym. apply trans with mk; [apply sym; eapply sfrom; eauto|]. apply trans with m; [apply sym; exact Sk|].
        eapply trans; [exact S0|]. eapply trans; [exact S1|exact S2]. }
      assert (HX : exists ps shapes m', sd_fit_loop vadd set_target from_vector tgt feature reg_predict1 (skipn (Datatypes.S k) (o_regs o')) im n2 (vec n2) = Ok (ps, shapes, m') /\
                length ps = length shapes /\ retraces (o_currents o') (o_final o') i l shapes).
      { destruct n as [|n].
        - destruct HD as [_ HC]. destruct (sd_regs _ _ _ _ _ _ _ _ _ _ _ _ _ Hl) as (_ & LL & _); [destruct inc; auto|].
          rewrite skipn_all2 by (destruct inc; lia). eexists [], [], _. split; [reflexivity|]. rewrite HC. split; [reflexivity|]. split; [reflexivity|]. intros [|j]; discriminate.
        - destruct HD as [t HC].
          assert (RN : set_target n2 (tgt n2) = Ok n2).
          { apply (Rec cur' (tgt n2) ltac:(rewrite HC; left; reflexivity) N4 mk (vadd (vec mk) e) n2); auto. }
          eapply (IH _ _ _ _ _ _ _ Hl K' (tgt n2) n2); auto.
          + rewrite (forgets m2 n2); auto.
          + intros c x0 Hin Hx. assert (RX : recovered set_target from_vector tgt same m x0) by (eapply Rec; eauto; rewrite HC in *; right; exact Hin).
            intros p v p' Hp1 Hp2 Hp3. apply (RX p v p'); auto. eapply trans; [exact S0|]. eapply trans; [exact S1|]. eapply trans; [exact S2|exact Hp1]. }
      destruct HX as (ps & shapes & m' & HF & HP & HL & HN). rewrite HF. cbn [bind]. eexists _, _, _. split; [reflexivity|]. split; [cbn; lia|]. split; [cbn; lia|].
      intros [|j] sj Hj; cbn [nth_error] in Hj.
      + injection Hj as <-. exists cur'. split; [|exact N4]. destruct n; [destruct HD as [-> ->]; reflexivity|]. destruct HD as [t ->]. reflexivity.
      + destruct (HN j sj Hj) as (c & C1 & C2). exists c. split; auto.
  Qed.
End P.
