From Coq Require Import List QArith Qcanon Bool Lia.
From Verif.Model Require Import Py ProbMap.
From Verif.Spec Require Import ProbMap.
Import ListNotations.
Local Open Scope Qc_scope.

Lemma qmin2_le a b : qmin2 a b <= a /\ qmin2 a b <= b.
Proof.
  unfold qmin2. destruct (Qclt_le_dec b a) as [L|L]; split; try apply Qcle_refl; auto. apply Qclt_le_weak. exact L.
Qed.
Lemma qmin2_in a b : qmin2 a b = a \/ qmin2 a b = b.
Proof. unfold qmin2. destruct (Qclt_le_dec b a); auto. Qed.
Lemma fold_min r : forall x, fold_left qmin2 r x <= x /\ (forall v, In v r -> fold_left qmin2 r x <= v) /\ In (fold_left qmin2 r x) (x :: r).
Proof.
  induction r as [|y r IH]; intros x; cbn.
  - split; [apply Qcle_refl|]. split; [contradiction|]. now left.
  - destruct (IH (qmin2 x y)) as [A [B C]]. pose proof (qmin2_le x y) as [D E]. split; [eapply Qcle_trans; eassumption|]. split.
    + intros v [->|V]; [eapply Qcle_trans; eassumption|auto].
    + destruct C as [C|C]; [|now auto]. rewrite <- C. destruct (qmin2_in x y) as [->| ->]; auto.
Qed.
Lemma qmin_ok l m : qmin l = Ok m -> In m l /\ forall v, In v l -> m <= v.
Proof.
  destruct l as [|x r]; [discriminate|]. cbn. intros [= <-]. destruct (fold_min r x) as [A [B C]]. split; [exact C|].
  intros v [<-|V]; auto.
Qed.
Lemma shifted_ok l s : shifted l = Ok s -> exists m, In m l /\ (forall v, In v l -> m <= v) /\ s = map (fun v => v - m) l.
Proof.
  unfold shifted. destruct (qmin l) as [m|] eqn:E; [|discriminate]. cbn. intros [= <-]. exists m. destruct (qmin_ok _ _ E). auto.
Qed.
Lemma shifted_total l : l <> [] -> exists s, shifted l = Ok s.
Proof. destruct l as [|x r]; [congruence|]. intros _. unfold shifted. cbn. eexists. reflexivity. Qed.
Lemma sub_le m v : m <= v -> 0 <= v - m.
Proof. intros H. rewrite <- (Qcplus_opp_r m). apply Qcplus_le_compat; [exact H|apply Qcle_refl]. Qed.
Lemma shifted_nonneg l s : shifted l = Ok s -> Forall (fun v => 0 <= v) s.
Proof.
  intros H. destruct (shifted_ok _ _ H) as [m [_ [M ->]]]. apply Forall_forall. intros v V. apply in_map_iff in V. destruct V as [a [<- A]].
  apply sub_le. auto.
Qed.
Lemma qsum_nonneg l : Forall (fun v => 0 <= v) l -> 0 <= qsum l.
Proof.
  induction l as [|x l IH]; intros H; cbn; [apply Qcle_refl|]. inversion H; subst. rewrite <- (Qcplus_0_r 0). apply Qcplus_le_compat; auto.
Qed.
Lemma qsum_pos l : Forall (fun v => 0 <= v) l -> (0 < qsum l <-> exists v, In v l /\ 0 < v).
Proof.
  induction l as [|x l IH]; intros H; cbn.
  - split; [intros L; exfalso; exact (Qclt_not_le _ _ L (Qcle_refl 0))|intros [v [[] _]]].
  - inversion H; subst. specialize (IH H3). pose proof (qsum_nonneg l H3) as N. split.
    + intros L. destruct (Qclt_le_dec 0 x) as [P|P]; [exists x; auto|].
      assert (E : x = 0) by (apply Qcle_antisym; auto). subst x. rewrite Qcplus_0_l in L. destruct (proj1 IH L) as [v [V P']]. exists v. auto.
    + intros [v [[<-|V] P]].
      * apply Qclt_le_trans with (x + 0); [rewrite Qcplus_0_r; exact P|]. apply Qcplus_le_compat; [apply Qcle_refl|exact N].
      * apply Qclt_le_trans with (0 + qsum l); [rewrite Qcplus_0_l; apply IH; eauto|]. apply Qcplus_le_compat; [exact H2|apply Qcle_refl].
Qed.
Lemma is_posE q : is_pos q = true <-> 0 < q.
Proof.
  unfold is_pos. destruct (Qclt_le_dec 0 q) as [L|L]; split; auto; try discriminate. intros C. exfalso. exact (Qclt_not_le _ _ C L).
Qed.
Lemma lt_sub a b m : a < b <-> a - m < b - m.
Proof.
  split; intros H.
  - apply Qcnot_le_lt. intros L. apply (Qclt_not_le _ _ H).
    replace a with (a - m + m) by ring. replace b with (b - m + m) by ring. apply Qcplus_le_compat; [exact L|apply Qcle_refl].
  - apply Qcnot_le_lt. intros L. apply (Qclt_not_le _ _ H). apply Qcplus_le_compat; [exact L|apply Qcle_refl].
Qed.
Lemma shifted_varies l s : shifted l = Ok s -> (is_pos (qsum s) = true <-> varies l).
Proof.
  intros H. pose proof (shifted_nonneg _ _ H) as N. destruct (shifted_ok _ _ H) as [m [I [M ->]]]. rewrite is_posE, qsum_pos by exact N. split.
  - intros [v [V P]]. apply in_map_iff in V. destruct V as [a [<- A]]. exists m, a. split; [exact I|]. split; [exact A|].
    apply (lt_sub m a m). replace (m - m) with 0 by ring. exact P.
  - intros [a [b [A [B L]]]]. exists (b - m). split; [apply in_map_iff; eauto|]. replace 0 with (m - m) by ring. apply lt_sub.
    apply Qcle_lt_trans with a; auto.
Qed.
Lemma qsum_div l t : qsum (map (fun v => v / t) l) = qsum l / t.
Proof.
  induction l as [|x l IH]; [cbn [map qsum fold_right]; unfold Qcdiv; ring|]. change (qsum (map (fun v => v / t) (x :: l))) with (x / t + qsum (map (fun v => v / t) l)).
  change (qsum (x :: l)) with (x + qsum l). rewrite IH. unfold Qcdiv. ring.
Qed.
Lemma inv_pos t : 0 < t -> 0 < / t.
Proof.
  intros P. apply Qcnot_le_lt. intros L.
  assert (E : t * / t = 1) by (apply Qcmult_inv_r; intros ->; exact (Qclt_not_le _ _ P (Qcle_refl 0))).
  assert (H : t * / t <= 0 * t) by (rewrite Qcmult_comm; apply Qcmult_le_compat_r; [exact L|apply Qclt_le_weak; exact P]).
  rewrite E, Qcmult_0_l in H. revert H. apply Qclt_not_le. reflexivity.
Qed.
Lemma div_nonneg v t : 0 <= v -> 0 < t -> 0 <= v / t.
Proof. intros V P. unfold Qcdiv. rewrite <- (Qcmult_0_l (/ t)). apply Qcmult_le_compat_r; [exact V|apply Qclt_le_weak, inv_pos; exact P]. Qed.
Lemma div_lt a b t : 0 < t -> (a < b <-> a / t < b / t).
Proof.
  intros P. pose proof (inv_pos _ P) as Q. assert (N : t <> 0) by (intros ->; exact (Qclt_not_le _ _ P (Qcle_refl 0))). split; intros H.
  - apply Qcmult_lt_compat_r; auto.
  - apply Qcnot_le_lt. intros L. apply (Qclt_not_le _ _ H). unfold Qcdiv. apply Qcmult_le_compat_r; [exact L|apply Qclt_le_weak; exact Q].
Qed.
Lemma normalised_ok l s : shifted l = Ok s -> is_pos (qsum s) = true ->
  distribution (map (fun v => v / qsum s) s) /\ same_order l (map (fun v => v / qsum s) s).
Proof.
  intros H P. pose proof (shifted_nonneg _ _ H) as N. apply is_posE in P.
  assert (Z : qsum s <> 0) by (intros E; rewrite E in P; exact (Qclt_not_le _ _ P (Qcle_refl 0))). split.
  - split.
    + apply Forall_forall. intros v V. apply in_map_iff in V. destruct V as [a [<- A]]. apply div_nonneg; [|exact P].
      rewrite Forall_forall in N. auto.
    + change (total ?l) with (qsum l). rewrite qsum_div. unfold Qcdiv. apply Qcmult_inv_r. exact Z.
  - destruct (shifted_ok _ _ H) as [m [_ [_ E]]]. split; [rewrite map_length, E, map_length; reflexivity|].
    intros i j a b a' b' A B A' B'. rewrite nth_error_map in A', B'. rewrite E in A' at 1. rewrite E in B' at 1.
    rewrite nth_error_map in A', B'. rewrite A in A'. rewrite B in B'. cbn in A', B'. injection A' as <-. injection B' as <-.
    rewrite <- div_lt by exact P. apply lt_sub.
Qed.
Lemma mapM_shifted ms : (forall m, In m ms -> m <> []) -> exists xs, mapM shifted ms = Ok xs /\ Forall2 (fun m x => shifted m = Ok x) ms xs.
Proof.
  induction ms as [|m ms IH]; intros H; cbn; [exists []; split; constructor|].
  destruct (shifted_total m (H m (or_introl eq_refl))) as [s S]. rewrite S. cbn. destruct IH as [xs [E F]]; [intros; apply H; now right|].
  rewrite E. cbn. exists (s :: xs). split; [reflexivity|]. constructor; auto.
Qed.
Lemma mapM_shifted_inv ms xs : mapM shifted ms = Ok xs -> Forall2 (fun m x => shifted m = Ok x) ms xs.
Proof.
  revert xs. induction ms as [|m ms IH]; intros xs; cbn; [intros [= <-]; constructor|].
  destruct (shifted m) as [s|] eqn:S; [|discriminate]. cbn. destruct (mapM shifted ms) as [ys|] eqn:E; [|discriminate]. cbn. intros [= <-]. constructor; auto.
Qed.
