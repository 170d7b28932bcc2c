From Coq Require Import List Reals Arith Bool Lia Lra Permutation.
From Verif.Model Require Import Py Result ApsGraph.
From Verif.Spec Require Import ApsGraph.
Import ListNotations.
Local Open Scope R_scope.

(** ** Sums *)
Lemma sumR_total {A} (f : A -> R) l : sumR (map f l) = total f l.
Proof. induction l as [|x l IH]; cbn; [reflexivity|now rewrite IH]. Qed.
Lemma total_ext {A} (f g : A -> R) l : (forall x, In x l -> f x = g x) -> total f l = total g l.
Proof.
  induction l as [|x l IH]; cbn; intros H; [reflexivity|].
  rewrite H by auto. rewrite IH; [reflexivity|]. intros; apply H; auto.
Qed.
Lemma total_plus {A} (f g : A -> R) l : total (fun x => f x + g x) l = total f l + total g l.
Proof. induction l as [|x l IH]; cbn; [lra|rewrite IH; lra]. Qed.
Lemma total_scal {A} c (f : A -> R) l : total (fun x => c * f x) l = c * total f l.
Proof. induction l as [|x l IH]; cbn; [lra|rewrite IH; lra]. Qed.
Lemma total_const {A} c (l : list A) : total (fun _ => c) l = INR (length l) * c.
Proof. induction l as [|x l IH]; [cbn; lra|]. cbn [length]. rewrite S_INR. cbn. rewrite IH. lra. Qed.
Lemma total_nonneg {A} (f : A -> R) l : (forall x, In x l -> 0 <= f x) -> 0 <= total f l.
Proof.
  induction l as [|x l IH]; cbn; intros H; [lra|].
  assert (0 <= f x) by auto. assert (0 <= total f l) by (apply IH; auto). lra.
Qed.
Lemma total_zero {A} (f : A -> R) l :
  (forall x, In x l -> 0 <= f x) -> total f l = 0 -> forall x, In x l -> f x = 0.
Proof.
  induction l as [|y l IH]; cbn; intros H H0 x Hx; [contradiction|].
  assert (0 <= f y) by auto. assert (0 <= total f l) by (apply total_nonneg; auto).
  destruct Hx as [<-|Hx]; [lra|]. apply IH; auto. lra.
Qed.
Lemma total_perm {A} (f : A -> R) l l' : Permutation l l' -> total f l = total f l'.
Proof. induction 1; cbn; lra. Qed.
Lemma total_map {A B} (f : B -> R) (g : A -> B) l : total f (map g l) = total (fun x => f (g x)) l.
Proof. induction l as [|x l IH]; cbn; [reflexivity|now rewrite IH]. Qed.

(** ** Covariances *)
Section Scatter.
  Context {A : Type}.
  Variables (x y : A -> R) (l : list A).
  Definition sxx := total (fun s => (x s - average x l) * (x s - average x l)) l.
  Definition sxy := total (fun s => (x s - average x l) * (y s - average y l)) l.
  Definition syy := total (fun s => (y s - average y l) * (y s - average y l)) l.

  Lemma quad a b :
    total (fun s => (a * (x s - average x l) + b * (y s - average y l)) ^ 2) l =
    a * a * sxx + 2 * a * b * sxy + b * b * syy.
  Proof.
    unfold sxx, sxy, syy. rewrite <- !total_scal, <- !total_plus. apply total_ext. intros s _. ring.
  Qed.
  Lemma quad_nonneg a b : 0 <= a * a * sxx + 2 * a * b * sxy + b * b * syy.
  Proof. rewrite <- quad. apply total_nonneg. intros s _. apply pow2_ge_0. Qed.
  Lemma sxx_nonneg : 0 <= sxx.
  Proof. generalize (quad_nonneg 1 0). lra. Qed.

  Lemma cauchy : 0 <= sxx * syy - sxy * sxy.
  Proof.
    destruct (Req_EM_T sxx 0) as [H0|H0].
    - assert (Hxy : sxy = 0).
      { unfold sxy. rewrite (total_ext _ (fun _ => 0)); [rewrite total_const; ring|].
        intros s Hs. assert (Hz : (x s - average x l) * (x s - average x l) = 0).
        { apply (total_zero (fun s => (x s - average x l) * (x s - average x l)) l); auto.
          intros z _. apply Rle_0_sqr. }
        apply Rsqr_0_uniq in Hz. rewrite Hz. ring. }
      rewrite Hxy, H0. lra.
    - assert (Hp : 0 < sxx) by (generalize sxx_nonneg; lra).
      generalize (quad_nonneg (- sxy) sxx). intro Hq.
      assert (Hq' : 0 <= sxx * (sxx * syy - sxy * sxy)).
      { eapply Rle_trans; [exact Hq|]. right. ring. }
      destruct (Rle_lt_dec 0 (sxx * syy - sxy * sxy)) as [H|H]; [exact H|exfalso].
      assert (sxx * (sxx * syy - sxy * sxy) < sxx * 0) by (apply Rmult_lt_compat_l; assumption). lra.
  Qed.

  (** Singular exactly when all points lie on a line. *)
  Lemma singular_iff : l <> [] ->
    sxx * syy - sxy * sxy = 0 <->
    exists a b c, (a <> 0 \/ b <> 0) /\ forall s, In s l -> a * x s + b * y s = c.
  Proof.
    intros Hl.
    assert (HN : INR (length l) <> 0). { destruct l; [congruence|]. apply not_0_INR. discriminate. }
    split.
    - intro H0.
      assert (Hker : exists a b, (a <> 0 \/ b <> 0) /\ a * a * sxx + 2 * a * b * sxy + b * b * syy = 0).
      { destruct (Req_EM_T sxx 0) as [Hx|Hx].
        - exists 1, 0. split; [left; lra|]. rewrite Hx. ring.
        - exists sxy, (- sxx). split; [right; lra|].
          transitivity (sxx * (sxx * syy - sxy * sxy)); [ring|]. rewrite H0. ring. }
      destruct Hker as (a & b & Hab & Hq). exists a, b, (a * average x l + b * average y l).
      split; [exact Hab|]. intros s Hs. rewrite <- quad in Hq.
      assert (Hz : (a * (x s - average x l) + b * (y s - average y l)) ^ 2 = 0).
      { apply (total_zero (fun s => (a * (x s - average x l) + b * (y s - average y l)) ^ 2) l); auto.
        intros z _. apply pow2_ge_0. }
      assert (Hz' : a * (x s - average x l) + b * (y s - average y l) = 0).
      { apply Rsqr_0_uniq. unfold Rsqr. rewrite <- Hz. ring. }
      lra.
    - intros (a & b & c & Hab & Hc).
      assert (Hm : a * average x l + b * average y l = c).
      { unfold average. transitivity ((a * total x l + b * total y l) / INR (length l)); [field; assumption|].
        rewrite <- !total_scal, <- total_plus, (total_ext _ (fun _ => c)) by assumption.
        rewrite total_const. field. assumption. }
      assert (Hd : forall s, In s l -> a * (x s - average x l) + b * (y s - average y l) = 0).
      { intros s Hs. specialize (Hc s Hs). lra. }
      assert (H1 : a * sxx + b * sxy = 0).
      { unfold sxx, sxy. rewrite <- !total_scal, <- total_plus.
        rewrite (total_ext _ (fun _ => 0)); [rewrite total_const; ring|]. intros s Hs. cbv beta.
        transitivity ((x s - average x l) * (a * (x s - average x l) + b * (y s - average y l))); [ring|].
        rewrite (Hd s Hs). ring. }
      assert (H2 : a * sxy + b * syy = 0).
      { unfold syy, sxy. rewrite <- !total_scal, <- total_plus.
        rewrite (total_ext _ (fun _ => 0)); [rewrite total_const; ring|]. intros s Hs. cbv beta.
        transitivity ((y s - average y l) * (a * (x s - average x l) + b * (y s - average y l))); [ring|].
        rewrite (Hd s Hs). ring. }
      destruct Hab as [Ha|Hb].
      + apply (Rmult_eq_reg_l a); [|assumption].
        transitivity (syy * (a * sxx + b * sxy) - sxy * (a * sxy + b * syy)); [ring|]. rewrite H1, H2. ring.
      + apply (Rmult_eq_reg_l b); [|assumption].
        transitivity (sxx * (a * sxy + b * syy) - sxy * (a * sxx + b * sxy)); [ring|]. rewrite H1, H2. ring.
  Qed.
End Scatter.

Notation X i j := (fun s => fst (rel s i j)).
Notation Y i j := (fun s => snd (rel s i j)).

Lemma spread_scatter shapes i j :
  spread shapes i j =
  (sxx (X i j) shapes * syy (Y i j) shapes - sxy (X i j) (Y i j) shapes * sxy (X i j) (Y i j) shapes)
  / (INR (length shapes) - 1) / (INR (length shapes) - 1).
Proof. unfold spread, covar, sxx, syy, sxy, Rdiv. ring. Qed.

Lemma spread_nonneg shapes i j : 0 <= spread shapes i j.
Proof.
  rewrite spread_scatter. unfold Rdiv. rewrite Rmult_assoc.
  apply Rmult_le_pos; [apply cauchy|apply Rle_0_sqr].
Qed.

Lemma two_images_INR {A} (l : list A) : (2 <= length l)%nat -> INR (length l) - 1 > 0.
Proof. intros H. apply le_INR in H. cbn in H. lra. Qed.

Lemma spread_zero_iff shapes i j : (2 <= length shapes)%nat ->
  spread shapes i j = 0 <-> on_a_line shapes i j.
Proof.
  intros HN. pose proof (two_images_INR _ HN) as H1.
  rewrite spread_scatter. unfold on_a_line.
  rewrite <- (singular_iff (X i j) (Y i j)) by (destruct shapes; [cbn in HN; lia|discriminate]).
  split; intro H.
  - apply (Rmult_eq_reg_r (/ (INR (length shapes) - 1) * / (INR (length shapes) - 1))).
    + rewrite Rmult_0_l, <- Rmult_assoc. exact H.
    + apply Rmult_integral_contrapositive. split; apply Rinv_neq_0_compat; lra.
  - rewrite H. unfold Rdiv. ring.
Qed.

(** ** Weights *)
Lemma nth_res_at s i n : length s = n -> (i < n)%nat -> nth_res s i = Ok (at_ s i).
Proof.
  intros Hl Hi. unfold nth_res, at_. destruct (nth_error s i) as [p|] eqn:H.
  - now rewrite (nth_error_nth s i (0, 0) H).
  - apply nth_error_None in H. lia.
Qed.

Lemma mapM_ok {A B} (f : A -> res B) (g : A -> B) l : (forall x, In x l -> f x = Ok (g x)) -> mapM f l = Ok (map g l).
Proof.
  induction l as [|x l IH]; intros H; [reflexivity|]. cbn [mapM map]. rewrite H by (now left). cbn [bind].
  rewrite IH by (intros; apply H; now right). reflexivity.
Qed.
Lemma mapM_err {A B} (f : A -> res B) e l : l <> [] -> (forall x, In x l -> f x = Err e) -> mapM f l = Err e.
Proof. destruct l as [|x l]; intros Hl H; [congruence|]. cbn [mapM]. now rewrite H by (now left). Qed.

Lemma diffs_ok n shapes i j : annotated n shapes -> (i < n)%nat -> (j < n)%nat ->
  diffs shapes i j = Ok (map (fun s => rel s i j) shapes).
Proof.
  intros Ha Hi Hj. apply mapM_ok. intros s Hs.
  rewrite (nth_res_at s i n) by auto. cbn [bind]. rewrite (nth_res_at s j n) by auto. reflexivity.
Qed.

Lemma mean_average {A} (f : A -> R) l : mean (map f l) = average f l.
Proof. unfold mean, average. now rewrite sumR_total, map_length. Qed.
Lemma cov_covar (f g : list (R * R) -> R) l : cov (map f l) (map g l) = covar l f g.
Proof.
  unfold cov, covar. rewrite !mean_average, map_length. f_equal.
  assert (Hc : combine (map f l) (map g l) = map (fun s => (f s, g s)) l).
  { clear. induction l as [|x l IH]; cbn; [reflexivity|now rewrite IH]. }
  rewrite Hc, map_map. cbn [fst snd]. apply sumR_total.
Qed.

Definition gauss (shapes : list rshape) (i j : nat) : gaussian :=
  mkGaussian (average (X i j) shapes) (average (Y i j) shapes) (covar shapes (X i j) (X i j))
             (covar shapes (X i j) (Y i j)) (covar shapes (Y i j) (Y i j)).
Lemma gdet_gauss shapes i j : gdet (gauss shapes i j) = spread shapes i j.
Proof. reflexivity. Qed.

Definition weight_of (shapes : list rshape) (i j : nat) : R :=
  INR (length shapes) * ln (2 * PI) + INR (length shapes) / 2 * ln (spread shapes i j) + (INR (length shapes) - 1).

Lemma weight_value n shapes i j : annotated n shapes -> (i < n)%nat -> (j < n)%nat -> (2 <= length shapes)%nat ->
  weight shapes i j =
  if Req_EM_T (spread shapes i j) 0 then Err LinAlgError else Ok (weight_of shapes i j).
Proof.
  intros Ha Hi Hj HN. unfold weight. rewrite (diffs_ok n) by assumption. cbn [bind].
  destruct (Nat.eqb_spec (@length rshape shapes) 1) as [H1|_]; [lia|].
  rewrite !map_map, !mean_average, !cov_covar.
  change (mkGaussian _ _ _ _ _) with (gauss shapes i j).
  pose proof (two_images_INR _ HN) as HN1.
  destruct (Req_EM_T (spread shapes i j) 0) as [H0|H0].
  - erewrite mapM_err; [reflexivity| |].
    + destruct shapes; [cbn in HN; lia|discriminate].
    + intros x _. unfold pdf. rewrite gdet_gauss. destruct (Req_EM_T _ 0); [reflexivity|contradiction].
  - set (g := gauss shapes i j).
    set (maha := fun x : R * R => (cyy g * (fst x - mx g) * (fst x - mx g) - 2 * cxy g * (fst x - mx g) * (snd x - my g)
                                   + cxx g * (snd x - my g) * (snd x - my g)) / gdet g).
    assert (Hpos : 0 < spread shapes i j) by (generalize (spread_nonneg shapes i j); lra).
    assert (Hsq : 0 < sqrt (spread shapes i j)) by (now apply sqrt_lt_R0).
    assert (HPI : 0 < 2 * PI) by (generalize PI_RGT_0; lra).
    rewrite (mapM_ok _ (fun x => maha x / 2 + (ln (2 * PI) + / 2 * ln (spread shapes i j)))).
    2:{ intros x _. unfold pdf. fold g. replace (gdet g) with (spread shapes i j) by reflexivity.
        destruct (Req_EM_T _ 0); [contradiction|]. cbn [bind]. f_equal.
        change (_ / spread shapes i j) with (maha x).
        unfold Rdiv at 1. rewrite ln_mult, ln_exp, ln_Rinv, ln_mult.
        - assert (Hl : ln (sqrt (spread shapes i j)) = / 2 * ln (spread shapes i j)).
          { rewrite <- (sqrt_sqrt (spread shapes i j)) at 2 by lra. rewrite ln_mult by assumption. lra. }
          rewrite Hl. lra.
        - exact HPI.
        - exact Hsq.
        - now apply Rmult_lt_0_compat.
        - apply exp_pos.
        - apply Rinv_0_lt_compat. now apply Rmult_lt_0_compat. }
    cbn [bind]. f_equal. rewrite sumR_total, total_map, total_plus, total_const.
    unfold weight_of.
    assert (Hm : total (fun s => maha (rel s i j) / 2) shapes = INR (length shapes) - 1); [|rewrite Hm; lra].
    transitivity (/ 2 * / gdet g *
      (cyy g * sxx (X i j) shapes + (- 2 * cxy g) * sxy (X i j) (Y i j) shapes + cxx g * syy (Y i j) shapes)).
    { unfold sxx, sxy, syy. rewrite <- !total_scal, <- !total_plus, <- total_scal. apply total_ext.
      intros s _. unfold maha, Rdiv. cbn [mx my]. subst g. cbn [gauss mx my]. ring. }
    assert (Hxx : sxx (X i j) shapes = (INR (length shapes) - 1) * cxx g)
      by (subst g; cbn [gauss cxx]; unfold covar, sxx; field; lra).
    assert (Hxy : sxy (X i j) (Y i j) shapes = (INR (length shapes) - 1) * cxy g)
      by (subst g; cbn [gauss cxy]; unfold covar, sxy; field; lra).
    assert (Hyy : syy (Y i j) shapes = (INR (length shapes) - 1) * cyy g)
      by (subst g; cbn [gauss cyy]; unfold covar, syy; field; lra).
    rewrite Hxx, Hxy, Hyy.
    assert (Hg : gdet g <> 0) by (exact H0). unfold gdet in *. field. exact Hg.
Qed.

(** ** The graph *)
Lemma pairs_iff n i j : In (i, j) (pairs n) <-> (i < j < n)%nat.
Proof.
  unfold pairs. rewrite in_flat_map. split.
  - intros (k & Hk & H). apply in_seq in Hk. apply in_map_iff in H. destruct H as (m & Hm & H').
    injection Hm as -> ->. apply in_seq in H'. lia.
  - intros H. exists i. split; [apply in_seq; lia|]. apply in_map. apply in_seq. lia.
Qed.

Lemma mapM_first_err {A B} (f : A -> res B) e l :
  (forall x, In x l -> (exists y, f x = Ok y) \/ f x = Err e) ->
  (exists x, In x l /\ f x = Err e) -> mapM f l = Err e.
Proof.
  induction l as [|y l IH]; intros Hall [x [Hx He]]; [contradiction|].
  cbn [mapM]. destruct (Hall y (or_introl eq_refl)) as [[z Hz]|Hz]; rewrite Hz; [|reflexivity]. cbn [bind].
  rewrite IH; [reflexivity| |].
  - intros w Hw. apply Hall. now right.
  - destruct Hx as [<-|Hx]; [congruence|]. now exists x.
Qed.

Section Graph.
  Variables (n : nat) (shapes : list rshape).
  Hypothesis Ha : annotated n shapes.
  Hypothesis HN : (2 <= length shapes)%nat.

  Lemma first_shape : exists s, nth_res shapes 0 = Ok s /\ length s = n.
  Proof.
    destruct shapes as [|s l] eqn:H; [cbn in HN; lia|]. exists s. split; [reflexivity|]. apply Ha. now left.
  Qed.

  Lemma all_weights_ok :
    (forall i j, (i < j < n)%nat -> spread shapes i j <> 0) ->
    all_weights shapes = Ok (map (fun e => (e, weight_of shapes (fst e) (snd e))) (pairs n)).
  Proof.
    intros Hs. unfold all_weights. destruct first_shape as (s & Hs0 & Hsn). rewrite Hs0. cbn [bind]. rewrite ?Hsn.
    apply mapM_ok. intros [i j] Hij. apply pairs_iff in Hij. cbn [fst snd].
    rewrite (weight_value n) by (assumption || lia).
    destruct (Req_EM_T _ 0) as [H|_]; [now apply Hs in H|]. reflexivity.
  Qed.

  Lemma all_weights_err i j : (i < j < n)%nat -> spread shapes i j = 0 -> all_weights shapes = Err LinAlgError.
  Proof.
    intros Hij H0. unfold all_weights. destruct first_shape as (s & Hs0 & Hsn). rewrite Hs0. cbn [bind]. rewrite ?Hsn.
    apply mapM_first_err.
    - intros [i' j'] Hx. apply pairs_iff in Hx. cbn [fst snd]. rewrite (weight_value n) by (assumption || lia).
      destruct (Req_EM_T _ 0); [now right|left; eexists; reflexivity].
    - exists (i, j). split; [now apply pairs_iff|]. cbn [fst snd]. rewrite (weight_value n) by (assumption || lia).
      destruct (Req_EM_T _ 0); [reflexivity|contradiction].
  Qed.

  Lemma filter_all {A} (f : A -> bool) l : (forall x, In x l -> f x = true) -> filter f l = l.
  Proof.
    induction l as [|x l IH]; intros H; cbn; [reflexivity|]. rewrite H by (now left). f_equal. apply IH.
    intros; apply H; now right.
  Qed.

  Lemma complete_graph_ok : (2 <= n)%nat ->
    (forall i j, (i < j < n)%nat -> spread shapes i j <> 0) ->
    (forall i j, (i < j < n)%nat -> weight_of shapes i j <> 0) ->
    complete_graph shapes = Ok (map (fun e => (e, weight_of shapes (fst e) (snd e))) (pairs n)).
  Proof.
    intros Hn Hs Hw. unfold complete_graph. rewrite all_weights_ok by assumption.
    destruct first_shape as (s & Hs0 & Hsn). rewrite Hs0. cbn [bind]. rewrite ?Hsn.
    rewrite filter_all.
    2:{ intros x Hx. apply in_map_iff in Hx. destruct Hx as ([i j] & <- & Hij). apply pairs_iff in Hij.
        unfold present. cbn [fst snd]. destruct (Req_EM_T _ 0) as [H|_]; [now apply Hw in H|reflexivity]. }
    destruct (isolated n _) eqn:Hi; [exfalso|reflexivity].
    apply existsb_exists in Hi. destruct Hi as (v & Hv & Hi). apply in_seq in Hv.
    apply negb_true_iff in Hi. rewrite <- not_true_iff_false in Hi. apply Hi. apply existsb_exists.
    destruct (Nat.eq_dec v 0) as [->|Hv0].
    - exists ((0, 1)%nat, weight_of shapes 0 1). split; [|reflexivity].
      apply in_map_iff. exists (0, 1)%nat. split; [reflexivity|]. apply pairs_iff. lia.
    - exists ((0, v)%nat, weight_of shapes 0 v). split.
      + apply in_map_iff. exists (0, v)%nat. split; [reflexivity|]. apply pairs_iff. lia.
      + unfold touches. cbn [fst snd]. rewrite Nat.eqb_refl. apply orb_true_r.
  Qed.

  Definition clean : Prop :=
    forall i j, (i < j < n)%nat -> spread shapes i j <> 0 /\ weight_of shapes i j <> 0.

  Lemma cost_weights t : (forall i j, In (i, j) t -> (i < j < n)%nat) -> clean ->
    cost (weight_of shapes) t =
    INR (length t) * (INR (length shapes) * ln (2 * PI) + (INR (length shapes) - 1)) +
    INR (length shapes) / 2 * ln (product (spread shapes) t) /\ 0 < product (spread shapes) t.
  Proof.
    intros Ht Hc. induction t as [|[i j] t IH].
    - cbn. rewrite ln_1. split; lra.
    - destruct IH as [IH Hp]; [intros; apply Ht; now right|].
      destruct (Hc i j) as [Hs _]; [apply Ht; now left|].
      assert (Hpos : 0 < spread shapes i j) by (generalize (spread_nonneg shapes i j); lra).
      cbn [cost product fst snd].
      split; [|now apply Rmult_lt_0_compat].
      rewrite IH, (ln_mult (spread shapes i j)) by assumption. cbn [length]. rewrite S_INR. unfold weight_of. ring.
  Qed.

  Lemma ln_le_iff a b : 0 < a -> 0 < b -> ln a <= ln b <-> a <= b.
  Proof.
    intros Ha' Hb. split; intro H.
    - destruct (Rle_lt_dec a b) as [Hle|Hlt]; [exact Hle|]. apply (ln_increasing b a Hb) in Hlt. lra.
    - destruct H as [H| ->]; [left; now apply ln_increasing|right; reflexivity].
  Qed.

  Definition least_spread (t : list (nat * nat)) : Prop :=
    spanning n t /\ forall t', spanning n t' -> product (spread shapes) t <= product (spread shapes) t'.

  Lemma tree_iff t : clean -> (2 <= n)%nat ->
    forall g, complete_graph shapes = Ok g -> (minimum_spanning_tree n g t <-> least_spread t).
  Proof.
    intros Hc Hn g Hg. rewrite complete_graph_ok in Hg; [|assumption| |]; try (intros; now apply Hc).
    injection Hg as <-.
    set (g := map _ _).
    assert (Hin : forall t0, spanning n t0 -> tree_of n g t0).
    { intros t0 H0. split; [exact H0|]. intros [i j] Hij. unfold g. rewrite map_map. cbn [fst]. rewrite map_id.
      apply pairs_iff. now apply H0. }
    assert (Hgw : forall i j x, In ((i, j), x) g -> weight_of shapes i j = x).
    { intros i j x Hx. apply in_map_iff in Hx. destruct Hx as ([i' j'] & Hx & _). injection Hx as -> -> <-. reflexivity. }
    assert (Hcost : forall w t0, (forall i j x, In ((i, j), x) g -> w i j = x) -> spanning n t0 ->
              cost w t0 = cost (weight_of shapes) t0).
    { intros w t0 Hw H0. assert (Hi : forall i j, In (i, j) t0 -> w i j = weight_of shapes i j).
      { intros i j Hij. apply Hw. apply in_map_iff. exists (i, j). split; [reflexivity|]. apply pairs_iff. now apply H0. }
      clear - Hi. induction t0 as [|[i j] t0 IH]; [reflexivity|]. cbn. rewrite Hi by (now left).
 rewrite IH; [reflexivity|]. intros; apply Hi; now right. }
    assert (Hcmp : forall t1 t2, spanning n t1 -> spanning n t2 ->
      (cost (weight_of shapes) t1 <= cost (weight_of shapes) t2 <->
       product (spread shapes) t1 <= product (spread shapes) t2)).
    { intros t1 t2 H1 H2.
      destruct (cost_weights t1) as [-> Hp1]; [apply H1|assumption|].
      destruct (cost_weights t2) as [-> Hp2]; [apply H2|assumption|].
      destruct H1 as [-> _]. destruct H2 as [-> _]. rewrite <- (ln_le_iff (product (spread shapes) t1) (product (spread shapes) t2)) by assumption.
      pose proof (two_images_INR _ HN) as HN1.
      assert (Hh : 0 < INR (length shapes) / 2) by lra.
      split; intro H.
      - apply (Rmult_le_reg_l (INR (length shapes) / 2)); [assumption|]. lra.
      - assert (INR (length shapes) / 2 * ln (product (spread shapes) t1) <=
                INR (length shapes) / 2 * ln (product (spread shapes) t2)) by (apply Rmult_le_compat_l; lra).
        lra. }
    split.
    - intros [[Ht _] Hm]. split; [exact Ht|]. intros t' Ht'. apply Hcmp; [assumption..|].
      apply Hm; [exact Hgw|auto].
    - intros [Ht Hm]. split; [auto|]. intros w Hw t' [Ht' _].
      rewrite (Hcost w t), (Hcost w t') by assumption. apply Hcmp; auto.
  Qed.
End Graph.

(** ** Invariance *)
Lemma average_plus {A} (f : A -> R) l : average f l = total f l / INR (length l).
Proof. reflexivity. Qed.

Lemma spread_perm shapes shapes' i j : Permutation shapes shapes' -> spread shapes i j = spread shapes' i j.
Proof.
  intros H. unfold spread, covar, average.
  rewrite (Permutation_length H), !(total_perm _ _ _ H). reflexivity.
Qed.

Lemma Forall2_total {A} (P : A -> A -> Prop) (f g : A -> R) l l' :
  Forall2 P l l' -> (forall x y, P x y -> f y = g x) -> total f l' = total g l.
Proof. induction 1 as [|x y l l' Hxy _ IH]; intros H; cbn; [reflexivity|]. rewrite (H x y Hxy), IH by assumption. reflexivity. Qed.

Lemma rel_moved a b c d n s s' i j : length s = n -> (i < n)%nat -> (j < n)%nat -> moved_as a b c d s s' ->
  rel s' i j = (a * fst (rel s i j) + b * snd (rel s i j), c * fst (rel s i j) + d * snd (rel s i j)).
Proof.
  intros Hl Hi Hj (u & v & ->). unfold rel, at_. cbn [fst snd].
  set (f := fun p : R * R => (a * fst p + b * snd p + u, c * fst p + d * snd p + v)).
  assert (Hnth : forall k, (k < n)%nat -> nth k (map f s) (0, 0) = f (nth k s (0, 0))).
  { intros k Hk. rewrite (nth_indep _ (0, 0) (f (0, 0))) by (rewrite map_length; lia). apply map_nth. }
  rewrite !Hnth by assumption. unfold f. cbn [fst snd]. f_equal; ring.
Qed.

Lemma spread_moved a b c d n shapes shapes' i j :
  annotated n shapes -> (i < n)%nat -> (j < n)%nat -> shapes <> [] ->
  Forall2 (moved_as a b c d) shapes shapes' ->
  spread shapes' i j = (a * d - b * c) * (a * d - b * c) * spread shapes i j.
Proof.
  intros Ha Hi Hj Hne HF.
  assert (HF' : Forall2 (fun s s' => rel s' i j = (a * fst (rel s i j) + b * snd (rel s i j),
                                                  c * fst (rel s i j) + d * snd (rel s i j))) shapes shapes').
  { clear Hne. induction HF as [|s s' l l' H HF IH]; constructor.
    - apply (rel_moved a b c d n); auto. apply Ha. now left.
    - apply IH. intros z Hz. apply Ha. now right. }
  assert (HN : INR (length shapes) <> 0). { destruct shapes; [congruence|]. apply not_0_INR. discriminate. }
  assert (Hlen : length shapes = length shapes') by (clear - HF; induction HF; cbn; congruence).
  assert (Hax : average (X i j) shapes' = a * average (X i j) shapes + b * average (Y i j) shapes).
  { unfold average. rewrite <- Hlen.
    rewrite (Forall2_total _ (X i j) (fun s => a * fst (rel s i j) + b * snd (rel s i j)) _ _ HF').
    - rewrite total_plus, !total_scal. field. assumption.
    - intros x y ->. reflexivity. }
  assert (Hay : average (Y i j) shapes' = c * average (X i j) shapes + d * average (Y i j) shapes).
  { unfold average. rewrite <- Hlen.
    rewrite (Forall2_total _ (Y i j) (fun s => c * fst (rel s i j) + d * snd (rel s i j)) _ _ HF').
    - rewrite total_plus, !total_scal. field. assumption.
    - intros x y ->. reflexivity. }
  rewrite !spread_scatter, <- Hlen.
  set (k := INR (length shapes) - 1).
  assert (Hxx : sxx (X i j) shapes' = a * a * sxx (X i j) shapes + 2 * a * b * sxy (X i j) (Y i j) shapes + b * b * syy (Y i j) shapes).
  { rewrite <- quad. unfold sxx at 1. rewrite Hax. eapply Forall2_total; [exact HF'|]. intros x y ->. cbn [fst snd]. ring. }
  assert (Hyy : syy (Y i j) shapes' = c * c * sxx (X i j) shapes + 2 * c * d * sxy (X i j) (Y i j) shapes + d * d * syy (Y i j) shapes).
  { rewrite <- quad. unfold syy at 1. rewrite Hay. eapply Forall2_total; [exact HF'|]. intros x y ->. cbn [fst snd]. ring. }
  assert (Hxy : sxy (X i j) (Y i j) shapes' = a * c * sxx (X i j) shapes + (a * d + b * c) * sxy (X i j) (Y i j) shapes + b * d * syy (Y i j) shapes).
  { unfold sxx, sxy, syy. rewrite <- !total_scal, <- !total_plus. rewrite Hax, Hay.
    eapply Forall2_total; [exact HF'|]. intros x y ->. cbn [fst snd]. ring. }
  rewrite Hxx, Hyy, Hxy. unfold Rdiv. ring.
Qed.

Lemma product_scaled (w w' : nat -> nat -> R) k t :
  (forall i j, In (i, j) t -> w' i j = k * w i j) -> product w' t = k ^ length t * product w t.
Proof.
  induction t as [|[i j] t IH]; intros H; cbn [product length]; [cbn; ring|].
 rewrite IH by (intros; apply H; now right).
  cbn [fst snd]. rewrite (H i j) by (now left).
 cbn. ring.
Qed.
