From Coq Require Import List Reals Arith Bool Lia Lra Permutation Sorted.
From Verif.Model Require Import Py ApsGraph Summary.
From Verif.Spec Require Import ApsGraph Summary.
From Verif.Proofs Require Import ApsGraph.
Import ListNotations.
Local Open Scope R_scope.

(** ** Sorting *)
Lemma insert_perm x l : Permutation (insert x l) (x :: l).
Proof.
  induction l as [|y l IH]; cbn; [reflexivity|]. destruct (Rle_dec x y); [reflexivity|].
  rewrite IH. apply perm_swap.
Qed.
Lemma sort_perm l : Permutation (sort l) l.
Proof. induction l as [|x l IH]; cbn; [reflexivity|]. rewrite insert_perm. now constructor. Qed.
Lemma insert_sorted x l : StronglySorted Rle l -> StronglySorted Rle (insert x l).
Proof.
  induction l as [|y l IH]; intros H; cbn; [repeat constructor|].
  inversion H as [|? ? Hl Hy]; subst. destruct (Rle_dec x y) as [Hxy|Hxy].
  - constructor; [exact H|]. constructor; [exact Hxy|]. eapply Forall_impl; [|exact Hy]. cbn. intros; lra.
  - constructor; [now apply IH|]. rewrite insert_perm. constructor; [lra|exact Hy].
Qed.
Lemma sort_sorted l : StronglySorted Rle (sort l).
Proof. induction l as [|x l IH]; cbn; [constructor|now apply insert_sorted]. Qed.
Lemma sorted_unique l l' : StronglySorted Rle l -> StronglySorted Rle l' -> Permutation l l' -> l = l'.
Proof.
  revert l'. induction l as [|x l IH]; intros l' Hl Hl' HP.
  - now apply Permutation_nil in HP.
  - destruct l' as [|y l']; [apply Permutation_sym, Permutation_nil in HP; discriminate|].
    inversion Hl as [|? ? Hs Hx]; inversion Hl' as [|? ? Hs' Hy]; subst.
    assert (Hxy : x = y).
    { assert (Hin : In x (y :: l')) by (apply (Permutation_in x HP); now left).
      assert (Hin' : In y (x :: l)) by (apply (Permutation_in y (Permutation_sym HP)); now left).
      destruct Hin as [H|Hin]; [now symmetry|]. destruct Hin' as [H|Hin']; [exact H|].
      rewrite Forall_forall in Hx, Hy. specialize (Hx y Hin'). specialize (Hy x Hin). lra. }
    subst y. f_equal. apply IH; [assumption..|]. now apply Permutation_cons_inv in HP.
Qed.
Lemma sort_length l : length (sort l) = length l.
Proof. apply Permutation_length, sort_perm. Qed.
Lemma sort_eq l l' : Permutation l l' -> sort l = sort l'.
Proof.
  intros H. apply sorted_unique; [apply sort_sorted..|]. now rewrite !sort_perm.
Qed.
Lemma sorted_nth s i j : StronglySorted Rle s -> (i <= j < length s)%nat -> nth i s 0 <= nth j s 0.
Proof.
  intros H. revert i j. induction H as [|x l Hl IH Hx]; intros i j Hij; cbn in Hij; [lia|].
  destruct i as [|i], j as [|j]; cbn; try lia; [lra| |apply IH; lia].
  rewrite Forall_forall in Hx. apply Hx. apply nth_In. lia.
Qed.

(** ** Medians *)
Lemma median_uniform l : median l = (nth ((length l - 1) / 2) (sort l) 0 + nth (length l / 2) (sort l) 0) / 2.
Proof.
  unfold median. rewrite sort_length. destruct (Nat.even (length l)) eqn:He.
  - destruct (length l) as [|n] eqn:Hn; [reflexivity|].
    apply Nat.even_spec in He. destruct He as [k Hk]. do 3 f_equal.
    replace (S n - 1)%nat with (1 + (k - 1) * 2)%nat by lia. replace (S n) with (k * 2)%nat by lia.
    rewrite Nat.div_mul, Nat.div_add by lia. reflexivity.
  - apply Nat.odd_spec in He || (assert (Ho : Nat.odd (length l) = true) by (now rewrite <- Nat.negb_even, He); apply Nat.odd_spec in Ho; destruct Ho as [k Hk]).
    rewrite Hk. replace (2 * k + 1 - 1)%nat with (k * 2)%nat by lia. replace (2 * k + 1)%nat with (1 + k * 2)%nat by lia.
    rewrite Nat.div_mul, Nat.div_add by lia. cbn [Nat.div Nat.divmod fst plus]. lra.
Qed.

Lemma count_perm p l l' : Permutation l l' -> count p l = count p l'.
Proof.
  unfold count. induction 1 as [|x l l' _ IH|x y l|]; cbn; try congruence.
  - destruct (p x); cbn; congruence.
  - destruct (p x), (p y); reflexivity.
Qed.
Lemma count_app p l l' : count p (l ++ l') = (count p l + count p l')%nat.
Proof. unfold count. now rewrite filter_app, app_length. Qed.
Lemma count_all p l : (forall x, In x l -> p x = true) -> count p l = length l.
Proof. unfold count. intros H. now rewrite filter_all. Qed.
Lemma count_none p l : (forall x, In x l -> p x = false) -> count p l = 0%nat.
Proof.
  unfold count. induction l as [|x l IH]; intros H; cbn; [reflexivity|]. rewrite H by (now left). apply IH.
  intros; apply H; now right.
Qed.
Lemma count_le p l : (count p l <= length l)%nat.
Proof. unfold count. induction l as [|x l IH]; cbn; [lia|]. destruct (p x); cbn; lia. Qed.
Lemma count_impl p q l : (forall x, In x l -> p x = true -> q x = true) -> (count p l <= count q l)%nat.
Proof.
  unfold count. induction l as [|x l IH]; intros H; cbn; [lia|].
  assert (IH' := IH (fun y Hy => H y (or_intror Hy))). specialize (H x (or_introl eq_refl)).
  destruct (p x); [rewrite H by reflexivity; cbn; lia|]. destruct (q x); cbn; lia.
Qed.
Lemma count_map f p l : count p (map f l) = count (fun x => p (f x)) l.
Proof. unfold count. induction l as [|x l IH]; cbn; [reflexivity|]. destruct (p (f x)); cbn; now rewrite IH. Qed.
Lemma leb_iff x y : leb x y = true <-> x <= y.
Proof. unfold leb. destruct (Rle_dec x y); split; intros; auto; discriminate || contradiction. Qed.

Lemma In_firstn_nth k s x : In x (firstn k s) -> exists i, (i < k)%nat /\ (i < length s)%nat /\ nth i s 0 = x.
Proof.
  revert s. induction k as [|k IH]; intros s H; [contradiction|]. destruct s as [|y s]; [contradiction|].
  destruct H as [<-|H]; [exists 0%nat; cbn; split; [lia|split; [lia|reflexivity]]|].
  apply IH in H. destruct H as (i & Hi & Hl & Hn). exists (S i). cbn. split; [lia|split; [lia|exact Hn]].
Qed.
Lemma In_skipn_nth k s x : In x (skipn k s) -> exists i, (k <= i < length s)%nat /\ nth i s 0 = x.
Proof.
  revert s. induction k as [|k IH]; intros s H.
  - apply (In_nth _ _ 0) in H. destruct H as (i & Hi & Hn). exists i. split; [cbn in Hi; lia|exact Hn].
  - destruct s as [|y s]; [contradiction|]. apply IH in H. destruct H as (i & Hi & Hn). exists (S i).
    cbn. split; [lia|exact Hn].
Qed.

Section Half.
  Variable l : list R.
  Hypothesis Hl : l <> [].
  Notation n := (length l).
  Notation s := (sort l).
  Lemma n_pos : (0 < n)%nat.
  Proof. destruct l; [congruence|cbn; lia]. Qed.
  Lemma mid_order : nth ((n - 1) / 2) s 0 <= nth (n / 2) s 0.
  Proof.
    apply sorted_nth; [apply sort_sorted|]. rewrite sort_length. pose proof n_pos.
    split; [apply Nat.div_le_mono; lia|apply Nat.div_lt; lia].
  Qed.
  Lemma below k u : (k < n)%nat -> nth k s 0 <= u -> (k + 1 <= count (at_most u) l)%nat.
  Proof.
    intros Hk Hu. rewrite <- (count_perm _ _ _ (sort_perm l)).
    rewrite <- (firstn_skipn (k + 1) s), count_app.
    rewrite (count_all _ (firstn (k + 1) s)).
    - rewrite firstn_length, sort_length. lia.
    - intros x Hx. apply In_firstn_nth in Hx. destruct Hx as (i & Hi & Hi' & <-). apply leb_iff.
      eapply Rle_trans; [|exact Hu]. apply sorted_nth; [apply sort_sorted|]. rewrite sort_length in *. lia.
  Qed.
  Lemma above k u : (k < n)%nat -> u <= nth k s 0 -> (n - k <= count (at_least u) l)%nat.
  Proof.
    intros Hk Hu. rewrite <- (count_perm _ _ _ (sort_perm l)).
    rewrite <- (firstn_skipn k s), count_app.
    rewrite (count_all _ (skipn k s)).
    - rewrite skipn_length, sort_length. lia.
    - intros x Hx. apply In_skipn_nth in Hx. destruct Hx as (i & Hi & <-). apply leb_iff.
      eapply Rle_trans; [exact Hu|]. apply sorted_nth; [apply sort_sorted|]. lia.
  Qed.
  Lemma median_half : (n <= 2 * count (at_most (median l)) l)%nat /\ (n <= 2 * count (at_least (median l)) l)%nat.
  Proof.
    pose proof mid_order as Hm. pose proof n_pos as Hn. pose proof (median_uniform l) as Hu.
    assert (H1 : ((n - 1) / 2 < n)%nat) by (apply Nat.div_lt_upper_bound; lia).
    assert (H2 : (n / 2 < n)%nat) by (apply Nat.div_lt; lia).
    pose proof (below ((n - 1) / 2) (median l) H1 ltac:(rewrite Hu; lra)) as Hb.
    pose proof (above (n / 2) (median l) H2 ltac:(rewrite Hu; lra)) as Ha.
    pose proof (Nat.div_mod (n - 1) 2 ltac:(lia)). pose proof (Nat.mod_upper_bound (n - 1) 2 ltac:(lia)).
    pose proof (Nat.div_mod n 2 ltac:(lia)). pose proof (Nat.mod_upper_bound n 2 ltac:(lia)). lia.
  Qed.
  (** Whatever the others, the median follows the majority. *)
  Lemma median_majority lo hi : (n < 2 * count (within lo hi) l)%nat -> lo <= median l <= hi.
  Proof.
    intros Hc. pose proof mid_order as Hm. pose proof n_pos as Hn. rewrite median_uniform.
    pose proof (Nat.div_mod (n - 1) 2 ltac:(lia)). pose proof (Nat.mod_upper_bound (n - 1) 2 ltac:(lia)).
    pose proof (Nat.div_mod n 2 ltac:(lia)). pose proof (Nat.mod_upper_bound n 2 ltac:(lia)).
    assert (Hk1 : ((n - 1) / 2 < n)%nat) by (apply Nat.div_lt_upper_bound; lia).
    assert (Hk2 : (n / 2 < n)%nat) by (apply Nat.div_lt; lia).
    rewrite <- (count_perm _ _ _ (sort_perm l)) in Hc.
    assert (Hlo : lo <= nth ((n - 1) / 2) s 0).
    { destruct (Rle_lt_dec lo (nth ((n - 1) / 2) s 0)) as [H'|H']; [exact H'|exfalso].
      rewrite <- (firstn_skipn ((n - 1) / 2 + 1) s), count_app in Hc.
      rewrite count_none in Hc.
      - pose proof (count_le (within lo hi) (skipn ((n - 1) / 2 + 1) s)) as Hle.
        rewrite skipn_length, sort_length in Hle. lia.
      - intros x Hx. apply In_firstn_nth in Hx. destruct Hx as (i & Hi & Hi' & <-).
        apply andb_false_iff. left. apply not_true_iff_false. rewrite leb_iff.
        assert (nth i s 0 <= nth ((n - 1) / 2) s 0); [|lra].
        apply sorted_nth; [apply sort_sorted|]. rewrite sort_length in *. lia. }
    assert (Hhi : nth (n / 2) s 0 <= hi).
    { destruct (Rle_lt_dec (nth (n / 2) s 0) hi) as [H'|H']; [exact H'|exfalso].
      rewrite <- (firstn_skipn (n / 2) s), count_app in Hc.
      rewrite (count_none _ (skipn (n / 2) s)) in Hc.
      - pose proof (count_le (within lo hi) (firstn (n / 2) s)) as Hle.
        rewrite firstn_length, sort_length in Hle. lia.
      - intros x Hx. apply In_skipn_nth in Hx. destruct Hx as (i & Hi & <-).
        apply andb_false_iff. right. apply not_true_iff_false. rewrite leb_iff.
        assert (nth (n / 2) s 0 <= nth i s 0); [|lra].
        apply sorted_nth; [apply sort_sorted|]. lia. }
    lra.
  Qed.
End Half.

Lemma median_perm l l' : Permutation l l' -> median l = median l'.
Proof. intros H. unfold median. now rewrite (sort_eq _ _ H). Qed.
Lemma mad_perm l l' : Permutation l l' -> mad l = mad l'.
Proof. intros H. unfold mad. rewrite (median_perm _ _ H). apply median_perm. now apply Permutation_map. Qed.

(** ** Affine maps *)
Lemma sorted_map_inc f l : (forall x y, x <= y -> f x <= f y) -> StronglySorted Rle l -> StronglySorted Rle (map f l).
Proof.
  intros Hf. induction 1 as [|x l Hl IH Hx]; cbn; constructor; [exact IH|].
  rewrite Forall_map. eapply Forall_impl; [|exact Hx]. cbn. auto.
Qed.
Lemma sorted_snoc l x : StronglySorted Rle l -> Forall (fun y => y <= x) l -> StronglySorted Rle (l ++ [x]).
Proof.
  induction 1 as [|y l Hl IH Hy]; intros HF; cbn; [repeat constructor|].
  inversion HF as [|? ? Hyx HF']; subst. constructor; [now apply IH|].
  apply Forall_app. split; [exact Hy|]. constructor; [exact Hyx|constructor].
Qed.
Lemma sorted_rev_dec f l : (forall x y, x <= y -> f y <= f x) -> StronglySorted Rle l -> StronglySorted Rle (rev (map f l)).
Proof.
  intros Hf. induction 1 as [|x l Hl IH Hx]; cbn; [constructor|].
  apply sorted_snoc; [exact IH|]. apply Forall_rev. rewrite Forall_map. eapply Forall_impl; [|exact Hx]. cbn. auto.
Qed.

Lemma median_inc f l : l <> [] -> (forall x y, x <= y -> f x <= f y) -> (forall x y, f ((x + y) / 2) = (f x + f y) / 2) ->
  median (map f l) = f (median l).
Proof.
  intros Hl Hf Hm. rewrite !median_uniform, map_length, Hm.
  assert (Hs : sort (map f l) = map f (sort l)).
  { apply sorted_unique; [apply sort_sorted|apply sorted_map_inc; [exact Hf|apply sort_sorted]|].
    rewrite sort_perm. apply Permutation_map, Permutation_sym, sort_perm. }
  rewrite Hs. pose proof (n_pos l Hl).
  rewrite !(nth_indep (map f (sort l)) 0 (f 0)).
  - rewrite !map_nth. reflexivity.
  - rewrite map_length, sort_length. apply Nat.div_lt; lia.
  - rewrite map_length, sort_length. apply Nat.div_lt_upper_bound; lia.
Qed.
Lemma median_dec f l : l <> [] -> (forall x y, x <= y -> f y <= f x) -> (forall x y, f ((x + y) / 2) = (f x + f y) / 2) ->
  median (map f l) = f (median l).
Proof.
  intros Hl Hf Hm. rewrite !median_uniform, map_length, Hm.
  assert (Hs : sort (map f l) = rev (map f (sort l))).
  { apply sorted_unique; [apply sort_sorted|apply sorted_rev_dec; [exact Hf|apply sort_sorted]|].
    rewrite sort_perm, <- Permutation_rev. apply Permutation_map, Permutation_sym, sort_perm. }
  rewrite Hs. pose proof (n_pos l Hl).
  assert (H1 : ((length l - 1) / 2 < length l)%nat) by (apply Nat.div_lt_upper_bound; lia).
  assert (H2 : (length l / 2 < length l)%nat) by (apply Nat.div_lt; lia).
  rewrite !(nth_indep (rev (map f (sort l))) 0 (f 0)) by (rewrite rev_length, map_length, sort_length; assumption).
  rewrite !rev_nth by (rewrite map_length, sort_length; assumption).
  rewrite map_length, sort_length, !map_nth.
  assert (E1 : (length l - S ((length l - 1) / 2) = length l / 2)%nat).
  { pose proof (Nat.div_mod (length l - 1) 2 ltac:(lia)). pose proof (Nat.mod_upper_bound (length l - 1) 2 ltac:(lia)).
    pose proof (Nat.div_mod (length l) 2 ltac:(lia)). pose proof (Nat.mod_upper_bound (length l) 2 ltac:(lia)). lia. }
  assert (E2 : (length l - S (length l / 2) = (length l - 1) / 2)%nat).
  { pose proof (Nat.div_mod (length l - 1) 2 ltac:(lia)). pose proof (Nat.mod_upper_bound (length l - 1) 2 ltac:(lia)).
    pose proof (Nat.div_mod (length l) 2 ltac:(lia)). pose proof (Nat.mod_upper_bound (length l) 2 ltac:(lia)). lia. }
  rewrite E1, E2. lra.
Qed.
Lemma median_affine a b l : l <> [] -> median (map (fun x => a * x + b) l) = a * median l + b.
Proof.
  intros Hl. destruct (Rle_lt_dec 0 a) as [Ha|Ha].
  - apply (median_inc (fun x => a * x + b)); [exact Hl| |intros; lra].
    intros x y Hxy. apply Rplus_le_compat_r. now apply Rmult_le_compat_l.
  - apply (median_dec (fun x => a * x + b)); [exact Hl| |intros; lra].
    intros x y Hxy. apply Rplus_le_compat_r. apply Rmult_le_compat_neg_l; lra.
Qed.
Lemma mad_affine a b l : l <> [] -> mad (map (fun x => a * x + b) l) = Rabs a * mad l.
Proof.
  intros Hl. unfold mad. rewrite median_affine by assumption. rewrite map_map.
  rewrite (map_ext _ (fun x => Rabs a * Rabs (x - median l) + 0)).
  - rewrite <- (map_map (fun x => Rabs (x - median l)) (fun y => Rabs a * y + 0)).
    rewrite median_affine; [lra|]. destruct l; [congruence|discriminate].
  - intros x. rewrite <- Rabs_mult, Rplus_0_r. f_equal. ring.
Qed.

(** ** Means *)
Lemma sumR_tot l : sumR l = total (fun x => x) l.
Proof. rewrite <- (map_id l) at 1. apply sumR_total. Qed.
Lemma mean_avg l : mean l = average (fun x => x) l.
Proof. unfold mean, average. now rewrite sumR_tot. Qed.
Lemma mean_perm l l' : Permutation l l' -> mean l = mean l'.
Proof. intros H. rewrite !mean_avg. unfold average. now rewrite (total_perm _ _ _ H), (Permutation_length H). Qed.
Lemma std_perm l l' : Permutation l l' -> std l = std l'.
Proof.
  intros H. unfold std. rewrite (mean_perm _ _ H). f_equal. apply mean_perm. now apply Permutation_map.
Qed.
Lemma INR_len (l : list R) : l <> [] -> 0 < INR (length l).
Proof. intros H. apply lt_0_INR. now apply n_pos. Qed.
Lemma mean_affine a b l : l <> [] -> mean (map (fun x => a * x + b) l) = a * mean l + b.
Proof.
  intros Hl. pose proof (INR_len l Hl). rewrite mean_average, mean_avg. unfold average.
  rewrite total_plus, total_scal, total_const. field. lra.
Qed.
Lemma std_affine a b l : l <> [] -> std (map (fun x => a * x + b) l) = Rabs a * std l.
Proof.
  intros Hl. unfold std. rewrite mean_affine, map_map by assumption.
  rewrite (map_ext _ (fun x => Rsqr a * ((x - mean l) * (x - mean l)) + 0)) by (intros; unfold Rsqr; ring).
  rewrite <- (map_map (fun x => (x - mean l) * (x - mean l)) (fun y => Rsqr a * y + 0)).
  rewrite mean_affine, Rplus_0_r by (destruct l; [congruence|discriminate]).
  rewrite sqrt_mult_alt by (apply Rle_0_sqr). now rewrite sqrt_Rsqr_abs.
Qed.

(** ** Maxima *)
Lemma rmax_spec l : l <> [] -> In (rmax l) l /\ forall x, In x l -> x <= rmax l.
Proof.
  destruct l as [|x l]; [congruence|]. intros _. cbn [rmax]. revert x.
  induction l as [|y l IH]; intros x; cbn [fold_left]; [split; [now left|intros z [<-|[]]; lra]|].
  destruct (IH (Rmax x y)) as [Hin Hle]. split.
  - destruct Hin as [H|H]; [|now right; right]. rewrite <- H. unfold Rmax. destruct (Rle_dec x y); [now right; left|now left].
  - intros z [<-|[<-|Hz]].
    + eapply Rle_trans; [apply Rmax_l|]. apply Hle. now left.
    + eapply Rle_trans; [apply Rmax_r|]. apply Hle. now left.
    + apply Hle. now right.
Qed.
Lemma rmin_spec l : l <> [] -> In (rmin l) l /\ forall x, In x l -> rmin l <= x.
Proof.
  destruct l as [|x l]; [congruence|]. intros _. cbn [rmin]. revert x.
  induction l as [|y l IH]; intros x; cbn [fold_left]; [split; [now left|intros z [<-|[]]; lra]|].
  destruct (IH (Rmin x y)) as [Hin Hle]. split.
  - destruct Hin as [H|H]; [|now right; right]. rewrite <- H. unfold Rmin. destruct (Rle_dec x y); [now left|now right; left].
  - intros z [<-|[<-|Hz]].
    + eapply Rle_trans; [|apply Rmin_l]. apply Hle. now left.
    + eapply Rle_trans; [|apply Rmin_r]. apply Hle. now left.
    + apply Hle. now right.
Qed.
Lemma rmax_unique l m : l <> [] -> In m l -> (forall x, In x l -> x <= m) -> rmax l = m.
Proof. intros Hl Hm Hle. destruct (rmax_spec l Hl) as [Hin H]. apply Rle_antisym; auto. Qed.
Lemma rmax_perm l l' : Permutation l l' -> rmax l = rmax l'.
Proof.
  intros H. destruct l as [|x l]; [apply Permutation_nil in H; now subst|].
  destruct (rmax_spec (x :: l)) as [Hin Hle]; [discriminate|]. symmetry. apply rmax_unique.
  - intros ->. apply Permutation_sym, Permutation_nil in H. discriminate.
  - exact (Permutation_in _ H Hin).
  - intros y Hy. apply Hle. exact (Permutation_in _ (Permutation_sym H) Hy).
Qed.
Lemma rmax_affine a b l : l <> [] -> 0 <= a -> rmax (map (fun x => a * x + b) l) = a * rmax l + b.
Proof.
  intros Hl Ha. destruct (rmax_spec l Hl) as [Hin Hle]. apply rmax_unique.
  - destruct l; [congruence|discriminate].
  - apply in_map_iff. now exists (rmax l).
  - intros y Hy. apply in_map_iff in Hy. destruct Hy as (x & <- & Hx). apply Rplus_le_compat_r.
    apply Rmult_le_compat_l; auto.
Qed.

(** ** Mean and median *)
Lemma total_le {A} (f g : A -> R) l : (forall x, In x l -> f x <= g x) -> total f l <= total g l.
Proof.
  induction l as [|x l IH]; intros H; cbn; [lra|]. assert (f x <= g x) by (apply H; now left).
  assert (total f l <= total g l) by (apply IH; intros; apply H; now right). lra.
Qed.
Lemma total_Rabs {A} (f : A -> R) l : Rabs (total f l) <= total (fun x => Rabs (f x)) l.
Proof.
  induction l as [|x l IH]; cbn; [rewrite Rabs_R0; lra|]. eapply Rle_trans; [apply Rabs_triang|]. lra.
Qed.
Lemma total_sign p l : total (fun x : R => if p x : bool then 1 else -1) l = 2 * INR (count p l) - INR (length l).
Proof.
  induction l as [|x l IH]; [cbn; lra|]. unfold count in *. cbn [total filter length].
  rewrite IH, S_INR. destruct (p x); cbn [length]; rewrite ?S_INR; lra.
Qed.
(** The median minimises the total absolute deviation. *)
Lemma median_minimises l c : l <> [] ->
  total (fun x => Rabs (x - median l)) l <= total (fun x => Rabs (x - c)) l.
Proof.
  intros Hl. destruct (median_half l Hl) as [Hlow Hhigh]. set (m := median l) in *.
  assert (Hkey : forall p, (length l <= 2 * count p l)%nat ->
            0 <= total (fun x : R => if p x : bool then 1 else -1) l).
  { intros p Hp. rewrite total_sign. apply le_INR in Hp. rewrite mult_INR in Hp. cbn in Hp. lra. }
  destruct (Rle_lt_dec m c) as [Hc|Hc].
  - apply Rle_trans with (total (fun x => Rabs (x - c) + - (c - m) * (if at_most m x then 1 else -1)) l).
    + apply total_le. intros x _. unfold at_most, leb. destruct (Rle_dec x m) as [Hx|Hx];
        unfold Rabs; repeat destruct (Rcase_abs _); lra.
    + rewrite total_plus, total_scal. specialize (Hkey _ Hlow).
      assert (0 <= (c - m) * total (fun x => if at_most m x then 1 else -1) l) by (apply Rmult_le_pos; lra). lra.
  - apply Rle_trans with (total (fun x => Rabs (x - c) + - (m - c) * (if at_least m x then 1 else -1)) l).
    + apply total_le. intros x _. unfold at_least, leb. destruct (Rle_dec m x) as [Hx|Hx];
        unfold Rabs; repeat destruct (Rcase_abs _); lra.
    + rewrite total_plus, total_scal. specialize (Hkey _ Hhigh).
      assert (0 <= (m - c) * total (fun x => if at_least m x then 1 else -1) l) by (apply Rmult_le_pos; lra). lra.
Qed.
(** The mean absolute deviation is at most the standard deviation. *)
Lemma jensen (y : R -> R) l : l <> [] -> average (fun x => Rabs (y x)) l <= sqrt (average (fun x => y x * y x) l).
Proof.
  intros Hl. pose proof (INR_len l Hl) as HN. set (a := average (fun x => Rabs (y x)) l).
  assert (Ha : 0 <= a).
  { unfold a, average. apply Rmult_le_pos; [apply total_nonneg; intros; apply Rabs_pos|].
    left. now apply Rinv_0_lt_compat. }
  rewrite <- (sqrt_Rsqr a Ha). apply sqrt_le_1_alt.
  assert (H : 0 <= total (fun x => (Rabs (y x) - a) * (Rabs (y x) - a)) l).
  { apply total_nonneg. intros x _. apply Rle_0_sqr. }
  assert (E : total (fun x => (Rabs (y x) - a) * (Rabs (y x) - a)) l =
              total (fun x => y x * y x) l - INR (length l) * (a * a)).
  { rewrite (total_ext _ (fun x => y x * y x + (- 2 * a * Rabs (y x) + a * a))).
    - rewrite !total_plus, total_scal, total_const.
      assert (E' : total (fun x => Rabs (y x)) l = INR (length l) * a) by (unfold a, average; field; lra).
      rewrite E'. ring.
    - intros x _. assert (Hsq : Rabs (y x) * Rabs (y x) = y x * y x).
      { rewrite <- Rabs_mult. apply Rabs_right. apply Rle_ge, Rle_0_sqr. }
      rewrite <- Hsq. ring. }
  unfold average, Rsqr. apply (Rmult_le_reg_l (INR (length l))); [exact HN|].
  replace (INR (length l) * (total (fun x => y x * y x) l / INR (length l))) with (total (fun x => y x * y x) l)
    by (field; lra). lra.
Qed.
Lemma mean_median l : l <> [] -> Rabs (mean l - median l) <= std l.
Proof.
  intros Hl. pose proof (INR_len l Hl) as HN.
  apply Rle_trans with (average (fun x => Rabs (x - median l)) l).
  - assert (E : mean l - median l = total (fun x => x - median l) l / INR (length l)).
    { rewrite mean_avg. unfold average, Rminus. rewrite total_plus, total_const. field. lra. }
    rewrite E. unfold Rdiv, average. rewrite Rabs_mult, (Rabs_right (/ _)).
    + apply Rmult_le_compat_r; [left; now apply Rinv_0_lt_compat|apply total_Rabs].
    + apply Rle_ge. left. now apply Rinv_0_lt_compat.
  - apply Rle_trans with (average (fun x => Rabs (x - mean l)) l).
    + unfold average. apply Rmult_le_compat_r; [left; now apply Rinv_0_lt_compat|now apply median_minimises].
    + unfold std. rewrite mean_average. now apply (jensen (fun x => x - mean l)).
Qed.
Lemma std_zero_iff l : l <> [] -> std l = 0 <-> forall x y, In x l -> In y l -> x = y.
Proof.
  intros Hl. pose proof (INR_len l Hl) as HN. unfold std. rewrite mean_average. unfold average.
  assert (Hnn : forall x, In x l -> 0 <= (x - mean l) * (x - mean l)) by (intros; apply Rle_0_sqr).
  split.
  - intros H. apply sqrt_eq_0 in H.
    2:{ apply Rmult_le_pos; [now apply total_nonneg|left; now apply Rinv_0_lt_compat]. }
    assert (H0 : total (fun x => (x - mean l) * (x - mean l)) l = 0).
    { apply (Rmult_eq_reg_r (/ INR (length l))); [|apply Rinv_neq_0_compat; lra].
      rewrite Rmult_0_l. exact H. }
    assert (Hx : forall x, In x l -> x = mean l).
    { intros x Hx. pose proof (total_zero _ _ Hnn H0 x Hx) as Hz. apply Rsqr_0_uniq in Hz. lra. }
    intros x y Hx' Hy'. now rewrite (Hx x Hx'), (Hx y Hy').
  - intros H. destruct l as [|z l']; [congruence|].
    assert (Hm : mean (z :: l') = z).
    { rewrite mean_avg. unfold average. rewrite (total_ext _ (fun _ => z)); [rewrite total_const; field; lra|].
      intros x Hx. apply H; [exact Hx|now left]. }
    rewrite (total_ext _ (fun _ => 0)); [rewrite total_const; unfold Rdiv; rewrite !Rmult_0_r, Rmult_0_l; apply sqrt_0|].
    intros x Hx. rewrite Hm, (H x z Hx) by (now left). ring.
Qed.
