From Coq Require Import String List Reals Arith Bool Lia Permutation Sorted.
From Verif.Model Require Import Py Result Dict Summary StatTable.
From Verif.Spec Require Import StatTable.
From Verif.Proofs Require Import Dict.
Import ListNotations.
Local Open Scope nat_scope.

Definition stat_of (t : string) (m : measures) : R :=
  if (t =? "mean")%string then m_mean m
  else if (t =? "std")%string then m_std m
  else if (t =? "median")%string then m_median m
  else if (t =? "mad")%string then m_mad m
  else if (t =? "max")%string then m_max m
  else if (t =? "auc")%string then m_auc m
  else m_fr m.
Definition cols (ms : list measures) : summary :=
  Columns (map m_mean ms) (map m_std ms) (map m_median ms) (map m_mad ms) (map m_max ms) (map m_auc ms) (map m_fr ms).

Lemma member_in s l : member s l = true <-> In s l.
Proof.
  unfold member. rewrite existsb_exists. split.
  - intros (x & Hx & E). apply String.eqb_eq in E. subst. exact Hx.
  - intros H. exists s. split; [exact H|apply String.eqb_refl].
Qed.
Lemma column_ok ms t : In t supported_types -> column (cols ms) t = Ok (map (stat_of t) ms).
Proof.
  intros H. cbn in H. intuition (subst; reflexivity).
Qed.
Lemma column_err ms t c : column (cols ms) t = Ok c -> In t supported_types.
Proof.
  cbn [column cols]. destruct (member t supported_types) eqn:E; cbn [negb]; [|discriminate]. intros _. apply member_in. exact E.
Qed.
Lemma stat_spec m t : In t supported_types -> statistic m t (stat_of t m).
Proof. intros H. cbn in H. intuition (subst; constructor). Qed.

Lemma fill_ok ms : forall types names data, length types = length names -> NoDup names ->
  (forall k, In k names -> dict_get k data = None) -> Forall (fun t => In t supported_types) types ->
  fill (cols ms) (combine types names) data = Ok (data ++ combine names (map (fun t => map (stat_of t) ms) types)).
Proof.
  induction types as [|t types IH]; intros [|n names] data L ND H F; try discriminate.
  - cbn. rewrite app_nil_r. reflexivity.
  - inversion F as [|? ? F1 F2]; subst. inversion ND as [|? ? N1 N2]; subst. cbn [combine fill map].
    rewrite column_ok by exact F1. cbn [bind]. rewrite set_new by (apply H; left; reflexivity).
    rewrite IH; auto.
    + rewrite <- app_assoc. reflexivity.
    + intros k Hk. rewrite get_app, (H k) by (right; exact Hk). cbn.
      destruct (String.eqb k n) eqn:E; [apply String.eqb_eq in E; subst; contradiction|reflexivity].
Qed.
Lemma fill_types ms : forall types names data out, length types = length names ->
  fill (cols ms) (combine types names) data = Ok out -> Forall (fun t => In t supported_types) types.
Proof.
  induction types as [|t types IH]; intros [|n names] data out L H; try discriminate; [constructor|].
  cbn [combine fill] in H. destruct (column (cols ms) t) as [c|] eqn:E; [|discriminate]. cbn [bind] in H.
  constructor; [eapply column_err; eauto|]. eapply IH; [|exact H]. cbn in L. lia.
Qed.

(** ** Sorting *)
Section Sort.
  Variable le : R -> R -> bool.
  Hypothesis total : forall x y, le x y = false -> le y x = true.
  Hypothesis trans : forall x y z, le x y = true -> le y z = true -> le x z = true.
  Lemma insert_perm k i l : Permutation (insert_pos le k i l) ((k, i) :: l).
  Proof.
    induction l as [|[k' i'] l IH]; cbn; [reflexivity|]. destruct (le k k'); [reflexivity|].
    rewrite IH. apply perm_swap.
  Qed.
  Lemma argsort_perm l : Permutation (argsort le l) l.
  Proof. induction l as [|[k i] l IH]; cbn; [reflexivity|]. rewrite insert_perm, IH. reflexivity. Qed.
  Notation lt := (fun a b : R * nat => le (fst a) (fst b) = true).
  Lemma insert_sorted k i l : StronglySorted lt l -> StronglySorted lt (insert_pos le k i l).
  Proof using total trans.
    induction l as [|[k' i'] l IH]; intros H; cbn.
    - constructor; constructor.
    - inversion H as [|? ? H1 H2]; subst. destruct (le k k') eqn:E.
      + constructor; [exact H|]. constructor; [exact E|]. eapply Forall_impl; [|exact H2]. cbn. intros a Ha. eapply trans; eauto.
      + constructor; [apply IH; exact H1|]. apply (Permutation_Forall (Permutation_sym (insert_perm k i l))).
        constructor; [apply total; exact E|exact H2].
  Qed.
  Lemma argsort_sorted l : StronglySorted lt (argsort le l).
  Proof using total trans. induction l as [|[k i] l IH]; cbn; [constructor|apply insert_sorted; exact IH]. Qed.
End Sort.

Lemma measures_of auc_fr errors ms : errors <> [] -> mapM (one_method auc_fr) errors = Ok ms ->
  compute_statistical_measures auc_fr (map Coll errors) = Ok (cols ms).
Proof.
  intros Hne H. destruct errors as [|l0 ls0]; [congruence|]. cbn [map compute_statistical_measures].
  change (Coll l0 :: map Coll ls0) with (map Coll (l0 :: ls0)).
  replace (mapM _ (map Coll (l0 :: ls0))) with (mapM (one_method auc_fr) (l0 :: ls0)).
  - rewrite H. reflexivity.
  - clear. generalize (l0 :: ls0). intros l. induction l as [|x l IH]; [reflexivity|]. cbn [map mapM]. rewrite IH. reflexivity.
Qed.
Lemma measures_inv auc_fr errors s : errors <> [] -> compute_statistical_measures auc_fr (map Coll errors) = Ok s ->
  exists ms, mapM (one_method auc_fr) errors = Ok ms /\ s = cols ms.
Proof.
  intros Hne. destruct errors as [|l0 ls0]; [congruence|]. cbn [map compute_statistical_measures].
  change (Coll l0 :: map Coll ls0) with (map Coll (l0 :: ls0)).
  replace (mapM _ (map Coll (l0 :: ls0))) with (mapM (one_method auc_fr) (l0 :: ls0)).
  - destruct (mapM (one_method auc_fr) (l0 :: ls0)) as [ms|] eqn:E; cbn [bind]; [|discriminate].
    intros H. injection H as <-. exists ms. split; reflexivity.
  - clear. generalize (l0 :: ls0). intros l. induction l as [|x l IH]; [reflexivity|]. cbn [map mapM]. rewrite IH. reflexivity.
Qed.
Lemma mapM_F2 {X Y} (f : X -> res Y) : forall l ys, mapM f l = Ok ys <-> Forall2 (fun x y => f x = Ok y) l ys.
Proof.
  induction l as [|x l IH]; intros ys; cbn [mapM].
  - split; intros H; [injection H as <-; constructor|inversion H; reflexivity].
  - split; intros H.
    + destruct (f x) as [y|] eqn:E; [|discriminate]. cbn [bind] in H. destruct (mapM f l) as [r|] eqn:M; [|discriminate].
      cbn [bind] in H. injection H as <-. constructor; [exact E|]. apply IH. reflexivity.
    + inversion H as [|? y ? r H1 H2]; subst. rewrite H1. cbn [bind]. apply IH in H2. rewrite H2. reflexivity.
Qed.
Lemma F2_len {X Y} (P : X -> Y -> Prop) l r : Forall2 P l r -> length l = length r.
Proof. induction 1; cbn; congruence. Qed.

(** The table before sorting, and its rows. *)
Definition plain (ms : list measures) (types names index : list string) : frame :=
  mkFrame index (combine names (map (fun t => map (stat_of t) ms) types)).
Definition stat_row (types : list string) (m : measures) : list R := map (fun t => stat_of t m) types.

Lemma combine_snd {X Y Z} (f : X * Y -> Z) (g : Y -> Z) : (forall c, f c = g (snd c)) ->
  forall (a : list X) b, length a = length b -> map f (combine a b) = map g b.
Proof.
  intros H. induction a as [|x a IH]; intros [|y b] L; try discriminate; [reflexivity|].
  cbn. rewrite H, IH by (cbn in L; lia). reflexivity.
Qed.
Lemma nth_map_lt {X} (f : X -> R) : forall l i d, i < length l -> nth i (map f l) 0%R = f (nth i l d).
Proof.
  induction l as [|x l IH]; intros [|i] d H; cbn in *; try lia; [reflexivity|]. apply IH. lia.
Qed.
Lemma plain_rows ms types names index : length types = length names -> length index = length ms ->
  rows (plain ms types names index) = combine index (map (stat_row types) ms).
Proof.
  intros L1 L2. unfold rows, row, plain. cbn [f_index f_cols].
  assert (E : forall i, map (fun c : string * list R => nth i (snd c) 0%R) (combine names (map (fun t => map (stat_of t) ms) types)) =
      map (fun t => nth i (map (stat_of t) ms) 0%R) types).
  { intros i. rewrite (combine_snd _ (fun b => nth i b 0%R)) by (auto; rewrite map_length; lia). rewrite map_map. reflexivity. }
  erewrite map_ext by (intros i; rewrite E; reflexivity). clear E L1 names.
  revert index L2. induction ms as [|m ms IH]; intros [|n index] L; try discriminate; [reflexivity|].
  cbn [length seq map combine nth]. f_equal. rewrite <- seq_shift, map_map. cbn [nth]. cbn in L. rewrite <- IH by lia. reflexivity.
Qed.

(** ** Sorting a frame *)
Definition sorted_order (le : R -> R -> bool) (keys : list R) : list nat := map snd (argsort le (combine keys (seq 0 (length keys)))).
Lemma order_perm le keys : Permutation (sorted_order le keys) (seq 0 (length keys)).
Proof.
  unfold sorted_order. rewrite (Permutation_map snd (argsort_perm le _)).
  replace (map snd (combine keys (seq 0 (length keys)))) with (seq 0 (length keys)); [reflexivity|].
  symmetry. rewrite (combine_snd _ (fun x => x)); [apply map_id|reflexivity|rewrite seq_length; reflexivity].
Qed.
Lemma order_keys le keys : map (fun i => nth i keys 0%R) (sorted_order le keys) = map fst (argsort le (combine keys (seq 0 (length keys)))).
Proof.
  unfold sorted_order. rewrite map_map. apply map_ext_in. intros [k i] H. apply (Permutation_in _ (argsort_perm le _)) in H. cbn.
  assert (G : forall keys o k i, In (k, i) (combine keys (seq o (length keys))) -> nth (i - o) keys 0%R = k /\ o <= i).
  { clear. induction keys as [|x keys IH]; intros o k i H; cbn in H; [contradiction|]. destruct H as [H|H].
    - injection H as -> ->. rewrite Nat.sub_diag. split; [reflexivity|lia].
    - apply IH in H. destruct H as [H1 H2]. replace (i - o) with (S (i - S o)) by lia. split; [exact H1|lia]. }
  apply G in H. rewrite Nat.sub_0_r in H. tauto.
Qed.
Definition permuted (t : frame) (order : list nat) : frame :=
  mkFrame (map (fun i => nth i (f_index t) EmptyString) order)
          (map (fun c => (fst c, map (fun i => nth i (snd c) 0%R) order)) (f_cols t)).
Lemma permuted_rows t order : rows (permuted t order) = map (row t) order.
Proof.
  unfold rows, permuted. cbn [f_index]. rewrite map_length.
  assert (E : forall i, i < length order -> row (permuted t order) i = row t (nth i order 0)).
  { intros i Hi. unfold row, permuted. cbn [f_index f_cols]. f_equal.
    - rewrite nth_indep with (d' := nth 0 (f_index t) EmptyString) by (rewrite map_length; exact Hi).
      rewrite (map_nth (fun i => nth i (f_index t) EmptyString)). reflexivity.
    - rewrite map_map. apply map_ext. intros [k c]. cbn. apply (nth_map_lt (fun i => nth i c 0%R)). exact Hi. }
  unfold permuted in E. clear -E. 
  assert (G : map (fun i => row t (nth i order 0)) (seq 0 (length order)) = map (row t) order).
  { clear. rewrite <- (map_map (fun i => nth i order 0) (row t)). f_equal.
    induction order as [|x o IH]; [reflexivity|]. cbn [length seq map nth]. f_equal. rewrite <- seq_shift, map_map. exact IH. }
  rewrite <- G. apply map_ext_in. intros i Hi. apply in_seq in Hi. apply E. lia.
Qed.
Lemma leb_le x y : leb x y = true <-> (x <= y)%R.
Proof. unfold leb. destruct (Rle_dec x y); split; intros; try discriminate; try contradiction; auto. Qed.

Definition le_of (asc : bool) : R -> R -> bool := if asc then leb else fun x y => leb y x.
Lemma le_total asc x y : le_of asc x y = false -> le_of asc y x = true.
Proof.
  destruct asc; cbn; intros H; apply leb_le; destruct (Rle_dec x y); destruct (Rle_dec y x); auto;
    unfold leb in H; repeat destruct (Rle_dec _ _); try discriminate; try contradiction; try (left; apply Rnot_le_lt; assumption).
Qed.
Lemma le_trans asc x y z : le_of asc x y = true -> le_of asc y z = true -> le_of asc x z = true.
Proof. destruct asc; cbn; rewrite !leb_le; intros; eapply Rle_trans; eauto. Qed.
Lemma sorted_map {A} (P : A -> A -> Prop) {B} (f : B -> A) l :
  StronglySorted (fun a b => P (f a) (f b)) l -> StronglySorted P (map f l).
Proof.
  induction 1 as [|a l H IH F]; cbn; constructor; [exact IH|]. apply Forall_map. exact F.
Qed.
Lemma sorted_impl {A} (P Q : A -> A -> Prop) l : (forall a b, P a b -> Q a b) -> StronglySorted P l -> StronglySorted Q l.
Proof. intros HI. induction 1; constructor; auto. eapply Forall_impl; [|eassumption]. auto. Qed.
Lemma keys_sorted k keys :
  StronglySorted (best_first k) (map (fun i => nth i keys 0%R) (sorted_order (le_of (negb (String.eqb k "auc"))) keys)).
Proof.
  rewrite order_keys. apply sorted_map. eapply sorted_impl; [|apply argsort_sorted].
  - intros [a i] [b j]. cbn. unfold best_first, le_of. destruct (String.eqb k "auc"); cbn; apply leb_le.
  - apply le_total.
  - apply le_trans.
Qed.

Lemma index_of_some x : forall l, In x l -> exists i, index_of x l = Some i /\ nth_error l i = Some x.
Proof.
  induction l as [|y l IH]; intros H; [destruct H|]. cbn [index_of]. destruct (String.eqb x y) eqn:E.
  - apply String.eqb_eq in E. subst. exists 0. split; reflexivity.
  - destruct H as [->|H]; [rewrite String.eqb_refl in E; discriminate|]. destruct (IH H) as (i & -> & Hi). exists (S i). split; [reflexivity|exact Hi].
Qed.
Lemma get_combine : forall names (cs : list (list R)) i n c, NoDup names -> nth_error names i = Some n -> nth_error cs i = Some c ->
  dict_get n (combine names cs) = Some c.
Proof.
  induction names as [|x names IH]; intros [|y cs] [|i] n c ND H1 H2; try discriminate; cbn in *.
  - injection H1 as ->. injection H2 as ->. rewrite String.eqb_refl. reflexivity.
  - inversion ND as [|? ? N1 N2]; subst. destruct (String.eqb n x) eqn:E.
    + apply String.eqb_eq in E. subst. apply nth_error_In in H1. contradiction.
    + eapply IH; eauto.
Qed.

Definition types_of (o : option (list string)) := match o with None => supported_types | Some l => l end.
Definition names_of (ty : list string) (o : option (list string)) := match o with None => ty | Some l => l end.

(** What the call computes. *)
Lemma table_eq auc_fr errors index st sn sort_by ms :
  let types := types_of st in let names := names_of types sn in
  errors <> [] -> mapM (one_method auc_fr) errors = Ok ms -> length types = length names -> NoDup names ->
  Forall (fun t => In t supported_types) types -> (types <> [] -> length index = length errors) ->
  (forall k, sort_by = Some k -> In k types) ->
  match sort_by with
  | None => statistics_table auc_fr (map Coll errors) index st sn None = Ok (plain ms types names index)
  | Some k => exists j, nth_error types j = Some k /\
      statistics_table auc_fr (map Coll errors) index st sn (Some k) =
      Ok (permuted (plain ms types names index) (sorted_order (le_of (negb (String.eqb k "auc"))) (map (stat_of k) ms)))
  end.
Proof.
  intros types names Hne HM L ND F HI HS.
  assert (B : forall sb, statistics_table auc_fr (map Coll errors) index st sn sb =
    match sb with None => Ok (plain ms types names index) | Some k =>
        if negb (member k types) then Err ValueError else
        match index_of k types with
        | None => Err ValueError
        | Some i => let? by_ := nth_res names i in sort_values by_ (negb (String.eqb k "auc")) (plain ms types names index)
        end end).
  { intros sb. unfold statistics_table.
    replace (as_lists (map Coll errors)) with (Ok (map Coll errors)) by (destruct errors; [congruence|reflexivity]).
    cbn [bind]. rewrite (measures_of auc_fr errors ms Hne HM). cbn [bind]. fold (types_of st). fold types. fold (names_of types sn). fold names.
    rewrite (proj2 (Nat.eqb_eq _ _) L). cbn [negb].
    rewrite (fill_ok ms types names [] L ND) by (auto). cbn [bind app]. unfold data_frame.
    replace (forallb _ _) with true; [reflexivity|]. symmetry. apply forallb_forall. intros [n c] Hc. cbn.
    pose proof (in_combine_r _ _ _ _ Hc) as H. apply in_map_iff in H. destruct H as (t & <- & Ht). rewrite map_length.
    apply Nat.eqb_eq. rewrite HI by (intros E; rewrite E in Ht; destruct Ht). apply mapM_F2, F2_len in HM. auto. }
  destruct sort_by as [k|]; [|apply B].
  specialize (HS k eq_refl). destruct (index_of_some k types HS) as (j & Hj & Hk). exists j. split; [exact Hk|].
  rewrite B, Hj. rewrite (proj2 (member_in k types) HS). cbn [negb].
  assert (Hn : exists n, nth_error names j = Some n).
  { destruct (nth_error names j) eqn:E; [eauto|]. apply nth_error_None in E. assert (j < length types) by (apply nth_error_Some; congruence). lia. }
  destruct Hn as [n Hn]. unfold nth_res. rewrite Hn. cbn [bind]. unfold sort_values. cbn [f_cols plain].
  unfold dict_at. rewrite (get_combine names _ j n (map (stat_of k) ms) ND Hn) by (rewrite nth_error_map, Hk; reflexivity).
  cbn [bind]. reflexivity.
Qed.

(** A call that returns had all it needs. *)
Lemma table_needs auc_fr errors index st sn sort_by t :
  let types := types_of st in let names := names_of types sn in
  errors <> [] -> NoDup names -> statistics_table auc_fr (map Coll errors) index st sn sort_by = Ok t ->
  (exists ms, mapM (one_method auc_fr) errors = Ok ms) /\ length types = length names /\
  Forall (fun t => In t supported_types) types /\ (types <> [] -> length index = length errors) /\
  (forall k, sort_by = Some k -> In k types).
Proof.
  intros types names Hne ND. unfold statistics_table.
  replace (as_lists (map Coll errors)) with (Ok (map Coll errors)) by (destruct errors; [congruence|reflexivity]).
  cbn [bind]. fold (types_of st). fold types. fold (names_of types sn). fold names.
  destruct (compute_statistical_measures auc_fr (map Coll errors)) as [s|] eqn:E; [|discriminate]. cbn [bind].
  destruct (measures_inv _ _ _ Hne E) as (ms & HM & ->).
  destruct (Nat.eqb (length types) (length names)) eqn:L; cbn [negb]; [|discriminate]. apply Nat.eqb_eq in L.
  destruct (fill (cols ms) (combine types names) []) as [data|] eqn:Fi; [|discriminate]. cbn [bind].
  pose proof (fill_types _ _ _ _ _ L Fi) as F. rewrite (fill_ok ms types names [] L ND) in Fi by auto. injection Fi as <-.
  unfold data_frame. destruct (forallb _ _) eqn:Fb; [|discriminate]. cbn [bind]. intros H.
  split; [exists ms; exact HM|]. split; [exact L|]. split; [exact F|]. split.
  - intros Ht. destruct types as [|ty types']; [congruence|]. destruct names as [|n names']; [discriminate|].
    cbn in Fb. apply andb_true_iff in Fb. destruct Fb as [Fb _]. apply Nat.eqb_eq in Fb. rewrite map_length in Fb.
    apply mapM_F2, F2_len in HM. lia.
  - intros k ->. destruct (member k types) eqn:M; [apply member_in; exact M|discriminate].
Qed.
