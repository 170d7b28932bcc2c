(** C94: tables of statistics. *)
From Coq Require Import String List Reals Arith Bool Lia Lra Permutation Sorted.
From Verif.Model Require Import Py Result Dict ApsGraph Summary StatTable.
From Verif.Spec Require Import StatTable.
From Verif.Proofs Require Import StatTable.
Import ListNotations.
Local Open Scope nat_scope.

(** With distinct column names, each row of the table carries a method's name and that method's own statistics, in the
    columns that were asked for; there is one row per method.  Unsorted, the rows are in the order of the methods.
    Sorted, they are the same rows with the best method first by the chosen statistic. *)
Theorem c94_table : forall auc_fr errors method_names stats_types stats_names sort_by t,
  let types := match stats_types with None => supported_types | Some l => l end in
  let names := match stats_names with None => types | Some l => l end in
  types <> [] -> NoDup names -> errors <> [] ->
  statistics_table auc_fr (map Coll errors) method_names stats_types stats_names sort_by = Ok t ->
  map fst (f_cols t) = names /\ length method_names = length errors /\
  exists entries,
    Forall2 (fun e r => exists m, one_method auc_fr e = Ok m /\ Forall2 (statistic m) types r) errors entries /\
    match sort_by with
    | None => rows t = combine method_names entries
    | Some k => Permutation (rows t) (combine method_names entries) /\
                exists j, nth_error types j = Some k /\
                  StronglySorted (fun x y => best_first k (nth j (snd x) 0%R) (nth j (snd y) 0%R)) (rows t)
    end.
Proof.
  intros auc_fr errors index st sn sb t types names Ht ND Hne H.
  fold (types_of st) in types. fold (names_of types sn) in names.
  destruct (table_needs auc_fr errors index st sn sb t Hne ND H) as ((ms & HM) & L & F & HI & HS).
  fold types in L, F, HI, HS. fold names in L. specialize (HI Ht).
  pose proof (table_eq auc_fr errors index st sn sb ms Hne HM L ND F (fun _ => HI) HS) as E.
  fold types in E. fold names in E.
  pose proof HM as HF. apply mapM_F2 in HF. pose proof (F2_len _ _ _ HF) as Lm.
  assert (HC : map fst (f_cols (plain ms types names index)) = names).
  { cbn. clear -L. clearbody names. clearbody types. revert names L. induction types as [|a l IH]; intros [|b n] L; try discriminate; [reflexivity|]. cbn. f_equal. apply IH. cbn in L. lia. }
  assert (HE : Forall2 (fun e r => exists m, one_method auc_fr e = Ok m /\ Forall2 (statistic m) types r) errors (map (stat_row types) ms)).
  { clear -HF F. induction HF as [|e m es ms H HF IH]; cbn [map]; constructor; [|exact IH]. exists m. split; [exact H|].
    clear -F. unfold stat_row. induction F as [|t l Ht F IH]; cbn [map]; constructor; [apply stat_spec; exact Ht|exact IH]. }
  destruct sb as [k|].
  - destruct E as (j & Hj & E). rewrite E in H. injection H as <-. split; [|split; [exact HI|]].
    + unfold permuted. cbn [f_cols]. rewrite map_map. exact HC.
    + exists (map (stat_row types) ms). split; [exact HE|]. rewrite permuted_rows.
      assert (LR : length (map (stat_of k) ms) = length index) by (rewrite map_length; lia).
      split.
      * rewrite (Permutation_map _ (order_perm _ _)), LR, <- (plain_rows ms types names index) by lia. reflexivity.
      * exists j. split; [exact Hj|]. 
        apply (sorted_map (fun x y => best_first k (nth j (snd x) 0%R) (nth j (snd y) 0%R))).
        pose proof (keys_sorted k (map (stat_of k) ms)) as KS.
        set (o := sorted_order _ _) in *.
        assert (KJ : forall i, In i o -> nth j (snd (row (plain ms types names index) i)) 0%R = nth i (map (stat_of k) ms) 0%R).
        { intros i _. unfold row, plain. cbn [f_cols snd]. rewrite (combine_snd _ (fun b => nth i b 0%R)) by (auto; rewrite map_length; lia).
          rewrite map_map. assert (Hlt : j < length types) by (apply nth_error_Some; congruence).
          rewrite (nth_map_lt (fun x => nth i (map (stat_of x) ms) 0%R) types j k Hlt). rewrite (nth_error_nth _ _ _ Hj). reflexivity. }
        clearbody o. clear -KS KJ. induction o as [|i o IH]; [constructor|]. cbn [map] in KS. inversion KS as [|? ? K1 K2]; subst.
        constructor; [apply IH; [exact K1|intros x Hx; apply KJ; right; exact Hx]|].
        apply Forall_forall. intros x Hx. rewrite !KJ by (auto using in_eq, in_cons).
        rewrite Forall_forall in K2. apply K2. apply (in_map (fun i => nth i (map (stat_of k) ms) 0%R)). exact Hx.
  - rewrite E in H. injection H as <-. split; [exact HC|]. split; [exact HI|].
    exists (map (stat_row types) ms). split; [exact HE|]. apply plain_rows; lia.
Qed.

(** The call succeeds exactly when each method can be summarised, the statistics asked for exist and have a name each,
    there is one method name per method, and the table is sorted by a statistic it shows. *)
Theorem c94_accepts : forall auc_fr errors method_names stats_types stats_names sort_by,
  let types := match stats_types with None => supported_types | Some l => l end in
  let names := match stats_names with None => types | Some l => l end in
  types <> [] -> NoDup names -> errors <> [] ->
  ((exists t, statistics_table auc_fr (map Coll errors) method_names stats_types stats_names sort_by = Ok t) <->
   Forall (fun e => exists m, one_method auc_fr e = Ok m) errors /\ length types = length names /\
   Forall (fun s => In s ["mean"; "std"; "median"; "mad"; "max"; "auc"; "fr"]%string) types /\
   length method_names = length errors /\
   match sort_by with None => True | Some k => In k types end).
Proof.
  intros auc_fr errors index st sn sb types names Ht ND Hne. fold (types_of st) in types. fold (names_of types sn) in names. split.
  - intros [t H]. destruct (table_needs auc_fr errors index st sn sb t Hne ND H) as ((ms & HM) & L & F & HI & HS).
    split; [|split; [exact L|split; [exact F|split; [exact (HI Ht)|]]]].
    + apply mapM_F2 in HM. clear -HM. induction HM; constructor; eauto.
    + destruct sb as [k|]; [apply HS; reflexivity|exact I].
  - intros (HF & L & F & HI & HS).
    assert (HM : exists ms, mapM (one_method auc_fr) errors = Ok ms).
    { clear -HF. induction HF as [|e es [m H] HF [ms IH]]; [exists []; reflexivity|]. exists (m :: ms). cbn [mapM]. rewrite H, IH. reflexivity. }
    destruct HM as [ms HM].
    pose proof (table_eq auc_fr errors index st sn sb ms Hne HM L ND F (fun _ => HI)) as E.
    destruct sb as [k|].
    + destruct E as (j & _ & E); [intros k' Hk; injection Hk as <-; exact HS|]. eauto.
    + eexists. apply E. intros k Hk. discriminate.
Qed.

(** One method: its errors may be given without the outer list. *)
Theorem c94_one_method : forall auc_fr x e method_names stats_types stats_names sort_by,
  statistics_table auc_fr (map Num (x :: e)) method_names stats_types stats_names sort_by =
  statistics_table auc_fr [Coll (x :: e)] method_names stats_types stats_names sort_by.
Proof.
  intros. unfold statistics_table.
  assert (E : as_lists (map Num (x :: e)) = Ok [Coll (x :: e)]).
  { unfold as_lists. cbn [map]. change (Num x :: map Num e) with (map Num (x :: e)).
    assert (G : forall l, mapM (fun i => match i with Num x => Ok x | Coll _ => Err ValueError end) (map Num l) = Ok l).
    { induction l as [|y l IH]; [reflexivity|]. cbn [map mapM]. rewrite IH. reflexivity. }
    rewrite G. reflexivity. }
  rewrite E. reflexivity.
Qed.

(** Without distinct names the columns overwrite each other: asked for the means and the maxima under one name and sorted
    by the mean, the table shows only the maxima, and puts the method with the larger mean first. *)
Definition two_methods : list (list R) := [[0; 4]; [3; 3]]%R.
Definition some_auc (e : list R) : res (R * R) := Ok (0, 0)%R.
Theorem c94_same_name_refuted : exists t,
  statistics_table some_auc (map Coll two_methods) ["a"; "b"]%string (Some ["mean"; "max"]%string) (Some ["e"; "e"]%string)
    (Some "mean"%string) = Ok t /\
  map fst (f_cols t) = ["e"%string] /\ map fst (rows t) = ["b"; "a"]%string /\
  (mean [0; 4] < mean [3; 3])%R.
Proof.
  eexists. split; [|split; [|split]].
  - unfold statistics_table, two_methods. cbn [as_lists map bind compute_statistical_measures mapM]. unfold one_method, some_auc.
    cbn. unfold sort_values. cbn. reflexivity.
  - reflexivity.
  - unfold leb. cbn. match goal with |- context [Rle_dec ?x ?y] => destruct (Rle_dec x y) as [G|G] end; [exfalso|reflexivity].
    cbn in G. unfold Rmax in G. repeat destruct (Rle_dec _ _) in G; lra.
  - unfold mean. cbn. lra.
Qed.

(** Two methods, sorted by the area under the curve. *)
Definition an_auc (e : list R) : res (R * R) := Ok (nth 0 e 0, 0)%R.
Example c94_sorted_by_auc : exists t,
  statistics_table an_auc (map Coll [[1; 2]; [3; 4]]%R) ["a"; "b"]%string (Some ["auc"; "mean"]%string) None (Some "auc"%string) = Ok t /\
  map fst (rows t) = ["b"; "a"]%string /\ map (fun r => nth 0 (snd r) 0%R) (rows t) = [3; 1]%R.
Proof.
  eexists. split; [|split].
  - unfold statistics_table. cbn [as_lists map bind compute_statistical_measures mapM]. unfold one_method, an_auc.
    cbn. unfold sort_values. cbn. reflexivity.
  - unfold leb. cbn. match goal with |- context [Rle_dec ?x ?y] => destruct (Rle_dec x y) as [G|G] end; [exfalso; cbn in G; lra|reflexivity].
  - unfold leb. cbn. match goal with |- context [Rle_dec ?x ?y] => destruct (Rle_dec x y) as [G|G] end; [exfalso; cbn in G; lra|reflexivity].
Qed.

Print Assumptions c94_table.
Print Assumptions c94_accepts.
Print Assumptions c94_one_method.
Print Assumptions c94_same_name_refuted.
