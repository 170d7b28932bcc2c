From Coq Require Import FinFun List ZArith Lia Arith Bool.
From Verif.Model Require Import Py Result.
From Verif.Spec Require Import Result.
Import ListNotations.
Local Open Scope nat_scope.

Lemma mapM_ok_map {A B} (f : A -> res B) (g : A -> B) l :
  (forall a, In a l -> f a = Ok (g a)) -> mapM f l = Ok (map g l).
Proof.
  induction l as [|a l IH]; intros H; [reflexivity|]. cbn [mapM map].
  rewrite H by (left; reflexivity). cbn [bind]. rewrite IH by (intros; apply H; right; auto).
  reflexivity.
Qed.

Lemma last_res_cons {A} (a : A) l : last_res (a :: l) = Ok (last l a).
Proof.
  unfold last_res, nth_res. destruct l as [|b l'] using rev_ind; [reflexivity|]. clear IHl'.
  rewrite last_last. rewrite app_comm_cons, rev_app_distr. reflexivity.
Qed.

Lemma nth_res_lt {A} (l : list A) i d : i < length l -> nth_res l i = Ok (nth i l d).
Proof. intros H. unfold nth_res. rewrite (nth_error_nth' l d H). reflexivity. Qed.

Section R.
  Context {Sh P A C : Type}.
  Notation run := (scale_run Sh P A C).
  Notation ires := (iresult Sh P A C).

  Lemma parametric_of_run gt (r : run) :
    parametric_result (s_shapes r) (s_params r) (s_app r) (s_initial r) gt (s_costs r) = Ok (of_run gt r).
  Proof.
    unfold parametric_result, nonparametric_result, s_shapes. cbn [nth_res nth_error bind].
    rewrite last_res_cons. cbn [bind r_final r_initial r_gt r_shapes r_n_iters r_costs]. f_equal.
    unfold of_run. f_equal. unfold s_iters. cbn [length]. lia.
  Qed.

  Lemma reconstructed_of_run gt (r : run) : reconstructed_initial_shape (of_run gt r) = Ok (s_first r).
  Proof. unfold reconstructed_initial_shape, of_run. cbn. destruct (s_initial r); reflexivity. Qed.

  (** *** Multi-scale *)
  Lemma mapM_index {X Y} (f : nat -> res Y) (g : nat -> X -> Y) : forall (l pre : list X),
    (forall i x, nth_error (pre ++ l) i = Some x -> f i = Ok (g i x)) ->
    mapM f (seq (length pre) (length l))
    = Ok (map (fun p => g (fst p) (snd p)) (combine (seq (length pre) (length l)) l)).
  Proof.
    induction l as [|x l IH]; intros pre H; [reflexivity|].
    cbn [length seq mapM combine map fst snd].
    rewrite (H (length pre) x) by (rewrite nth_error_app2, Nat.sub_diag by lia; reflexivity).
    cbn [bind]. specialize (IH (pre ++ [x])). rewrite app_length in IH. cbn [length] in IH.
    rewrite Nat.add_1_r in IH. rewrite IH; [reflexivity|].
    intros i y Hi. apply H. rewrite <- app_assoc in Hi. exact Hi.
  Qed.

  Lemma concat_attr_some {X} (ls : list (list X)) : ls <> [] ->
    concat_attr (map Some ls) = Ok (Some (concat ls)).
  Proof.
    intros H. unfold concat_attr. destruct ls as [|a ls]; [congruence|].
    cbn [map nth_res nth_error bind].
    change (Some a :: map Some ls) with (map Some (a :: ls)).
    assert (E : forall l : list (list X),
      mapM (fun o => match o with Some l => Ok l | None => Err TypeError end) (map Some l) = Ok l).
    { induction l as [|b l IHl]; [reflexivity|]. cbn [map mapM bind]. rewrite IHl. reflexivity. }
    rewrite E. reflexivity.
  Qed.

  Lemma concat_attr_none {X} (l : list (option (list X))) :
    concat_attr (None :: l) = Ok None.
  Proof. reflexivity. Qed.

  Lemma concat_attr_mixed {X} (a : list X) (l : list (option (list X))) :
    In None l -> concat_attr (Some a :: l) = Err TypeError.
  Proof.
    intros H. unfold concat_attr. cbn [nth_res nth_error bind mapM].
    assert (E : mapM (fun o => match o with Some l => Ok l | None => Err TypeError end) l
                = (Err TypeError : res (list (list X)))).
    { induction l as [|o l IH]; [destruct H|]. cbn [mapM]. destruct o as [b|]; [|reflexivity].
      cbn [bind]. destruct H as [H|H]; [discriminate|]. rewrite IH; auto. }
    rewrite E. reflexivity.
  Qed.

  Lemma concat_nonempty affine scale (runs : list run) : runs <> [] ->
    exists a l, concat (mapped affine scale runs) = a :: l.
  Proof.
    destruct runs as [|r runs]; [congruence|]. intros _. unfold mapped. cbn. eauto.
  Qed.

  Lemma total_lengths affine scale : forall (runs : list run),
    length (concat (mapped affine scale runs)) = total (map s_iters runs) + length runs.
  Proof.
    intros runs. unfold mapped. generalize 0. induction runs as [|r runs IH]; intros s; [reflexivity|].
    cbn [length seq combine map concat fst snd total fold_right].
    rewrite app_length, map_length, IH. unfold s_shapes, s_iters, total. cbn [length]. lia.
  Qed.

  Variable gt0 : run -> option Sh.

  Lemma last_res_app {X} (pre l : list X) : l <> [] -> last_res (pre ++ l) = last_res l.
  Proof.
    intros H. unfold last_res, nth_res. rewrite rev_app_distr.
    destruct (rev l) eqn:E; [|reflexivity].
    apply (f_equal (@rev X)) in E. rewrite rev_involutive in E. simpl in E. congruence.
  Qed.

  Lemma multi_nonparametric_gen (mk : run -> ires) affine scale gt (runs : list run) costs :
    (forall r, r_initial (mk r) = s_initial r) ->
    (forall r, r_shapes (mk r) = opt_list (s_initial r) ++ s_shapes r) ->
    (forall r, r_costs (mk r) = s_costs r) ->
    runs <> [] -> length runs <= length affine -> length runs <= length scale ->
    concat_attr (map s_costs runs) = Ok costs ->
    exists m,
    multi_nonparametric (map mk runs) (length runs) affine scale gt = Ok m /\
    last_res (concat (mapped affine scale runs)) = Ok (r_final (m_res m)) /\
    r_initial (m_res m) = mapped_initial affine scale runs /\
    r_gt (m_res m) = gt /\
    r_shapes (m_res m) = opt_list (mapped_initial affine scale runs) ++ concat (mapped affine scale runs) /\
    r_n_iters (m_res m) = Z.of_nat (total (map s_iters runs) + length runs) /\
    r_costs (m_res m) = costs /\
    m_n_iters_per_scale m = map (fun r => r_n_iters (mk r)) runs /\
    m_n_scales m = length runs.
  Proof.
    intros Hmi Hms Hmc Hne Ha Hs Hc. unfold multi_nonparametric. rewrite map_length, Nat.eqb_refl. cbn [negb].
    set (results := map mk runs).
    assert (E0 : exists r0, nth_res results 0 = Ok r0 /\
      (match r_initial r0 with
      | None => Ok None
      | Some i => let? a := nth_res affine 0 in let? s := nth_res scale 0 in
                  let? i' := nth_res (rescale_shapes [i] a s) 0 in Ok (Some i')
      end) = Ok (mapped_initial affine scale runs)).
    { destruct runs as [|r runs']; [congruence|]. exists (mk r). split; [reflexivity|].
      rewrite Hmi. cbn [mapped_initial]. destruct (s_initial r) as [i|]; [|reflexivity].
      destruct affine as [|a affine]; [simpl in Ha; lia|].
      destruct scale as [|sc scale]; [simpl in Hs; lia|]. reflexivity. }
    destruct E0 as (r0 & E0 & E1). rewrite E0. cbn [bind]. rewrite E1. cbn [bind].
    set (g := fun (i : nat) (r : run) => (r_n_iters (mk r), map (T affine scale i) (s_shapes r))).
    assert (Eloop : mapM (fun i =>
              let? r := nth_res results i in
              let? a := nth_res affine i in
              let? s := nth_res scale i in
              let shapes := match r_initial r with None => r_shapes r | Some _ => tl (r_shapes r) end in
              Ok (r_n_iters r, rescale_shapes shapes a s)) (seq 0 (length runs))
       = Ok (map (fun p => g (fst p) (snd p)) (combine (seq 0 (length runs)) runs))).
    { apply (mapM_index _ g runs []). intros i r Hi. cbn [app] in Hi.
      assert (Hlt : i < length runs) by (apply nth_error_Some; congruence).
      assert (Er : nth_res results i = Ok (mk r)).
      { unfold nth_res, results. rewrite nth_error_map, Hi. reflexivity. }
      rewrite Er. cbn [bind].
      rewrite (nth_res_lt affine i (fun y => y)) by lia.
      rewrite (nth_res_lt scale i (fun y => y)) by lia. cbn [bind].
      unfold g, T, rescale_shapes. rewrite Hmi, Hms.
      destruct (s_initial r); reflexivity. }
    cbn [bind] in Eloop. rewrite Eloop. cbn [bind]. rewrite map_map.
    assert (Em : map (fun x : nat * run => snd (g (fst x) (snd x))) (combine (seq 0 (length runs)) runs)
                 = mapped affine scale runs) by reflexivity.
    rewrite Em. unfold nonparametric_result.
    destruct (concat_nonempty affine scale runs Hne) as (a & l & Eal).
    assert (El : last_res (concat (mapped affine scale runs)) = Ok (last l a)) by (rewrite Eal; apply last_res_cons).
    rewrite El. cbn [bind].
    assert (Ec : map r_costs results = map s_costs runs).
    { unfold results. rewrite map_map. apply map_ext. exact Hmc. }
    rewrite Ec, Hc. cbn [bind r_final r_initial r_gt r_shapes r_n_iters r_costs].
    eexists. split; [reflexivity|]. cbn [m_res r_final r_initial r_gt r_shapes r_n_iters r_costs m_n_iters_per_scale m_n_scales].
    split; [reflexivity|]. split; [reflexivity|]. split; [reflexivity|].
    split; [destruct (mapped_initial affine scale runs); reflexivity|].
    split; [rewrite total_lengths; reflexivity|]. split; [reflexivity|]. split; [|reflexivity].
    rewrite map_map. unfold g. cbn [fst]. clear. generalize 0 as s0.
    induction runs as [|r runs IH]; intros s; [reflexivity|]. cbn [length seq combine map fst snd].
    f_equal. apply IH.
  Qed.

  Lemma multi_nonparametric_spec affine scale gt (runs : list run) costs :
    runs <> [] -> length runs <= length affine -> length runs <= length scale ->
    concat_attr (map s_costs runs) = Ok costs ->
    exists m,
    multi_nonparametric (map (fun r => of_run (gt0 r) r) runs) (length runs) affine scale gt = Ok m /\
    last_res (concat (mapped affine scale runs)) = Ok (r_final (m_res m)) /\
    r_initial (m_res m) = mapped_initial affine scale runs /\
    r_gt (m_res m) = gt /\
    r_shapes (m_res m) = opt_list (mapped_initial affine scale runs) ++ concat (mapped affine scale runs) /\
    r_n_iters (m_res m) = Z.of_nat (total (map s_iters runs) + length runs) /\
    r_costs (m_res m) = costs /\
    m_n_iters_per_scale m = map (fun r => Z.of_nat (s_iters r)) runs /\
    m_n_scales m = length runs.
  Proof.
    intros Hne Ha Hs Hc. apply (multi_nonparametric_gen (fun r => of_run (gt0 r) r)); auto.
    intros r. unfold of_run. cbn. destruct (s_initial r); reflexivity.
  Qed.

  (** *** Reconstruction indices *)
  Lemma reconstruction_nth : forall (ks : list nat) (start : nat) i, i < length ks ->
    nth_error (reconstruction_from (Z.of_nat start) (map Z.of_nat ks) (length ks)) i
    = Some (Z.of_nat (start + total (firstn i ks) + i)).
  Proof.
    induction ks as [|k ks IH]; intros start i Hi; [simpl in Hi; lia|].
    cbn [length map reconstruction_from]. destruct i as [|i].
    - cbn. do 2 f_equal. unfold total. simpl. lia.
    - cbn [nth_error]. replace (Z.of_nat start + Z.of_nat k + 1)%Z with (Z.of_nat (start + k + 1)) by lia.
      rewrite IH by (simpl in Hi; lia). cbn [firstn total fold_right]. unfold total. do 2 f_equal. lia.
  Qed.

  Lemma reconstruction_length : forall (ks : list nat) (start : Z),
    length (reconstruction_from start (map Z.of_nat ks) (length ks)) = length ks.
  Proof.
    induction ks as [|k ks IH]; intros start; [reflexivity|].
    cbn [length map reconstruction_from]. rewrite IH. reflexivity.
  Qed.

  Lemma reconstructed_shapes_gen affine scale : forall (runs : list run) s (pre : list Sh),
    mapM (fun i => nth_res (pre ++ concat
            (map (fun ir => map (T affine scale (fst ir)) (s_shapes (snd ir))) (combine (seq s (length runs)) runs)))
            (Z.to_nat i))
      (reconstruction_from (Z.of_nat (length pre)) (map (fun r => Z.of_nat (s_iters r)) runs) (length runs))
    = Ok (map (fun ir => T affine scale (fst ir) (s_first (snd ir))) (combine (seq s (length runs)) runs)).
  Proof.
    induction runs as [|r runs IH]; intros s pre; [reflexivity|].
    cbn [length seq combine map reconstruction_from mapM concat fst snd].
    rewrite Nat2Z.id. unfold nth_res at 1. rewrite nth_error_app2, Nat.sub_diag by lia.
    cbn [s_shapes map app nth_error bind].
    specialize (IH (S s) (pre ++ T affine scale s (s_first r) :: map (T affine scale s) (s_rest r))).
    rewrite app_length in IH. cbn [length] in IH. rewrite map_length in IH.
    replace (Z.of_nat (length pre) + Z.of_nat (s_iters r) + 1)%Z
      with (Z.of_nat (length pre + S (length (s_rest r)))) by (unfold s_iters; lia).
    rewrite <- app_assoc in IH. cbn [s_shapes map app] in IH. cbn [s_shapes map app].
    rewrite IH. reflexivity.
  Qed.

  Lemma multi_parametric_spec affine scale gt (runs : list run) costs :
    runs <> [] -> length runs <= length affine -> length runs <= length scale ->
    concat_attr (map s_costs runs) = Ok costs ->
    exists m,
    multi_parametric (map (fun r => of_run (gt0 r) r) runs) (length runs) affine scale gt = Ok m /\
    last_res (concat (mapped affine scale runs)) = Ok (r_final (m_res m)) /\
    r_initial (m_res m) = mapped_initial affine scale runs /\
    r_gt (m_res m) = gt /\
    r_shapes (m_res m) = opt_list (mapped_initial affine scale runs) ++ concat (mapped affine scale runs) /\
    r_n_iters (m_res m) = Z.of_nat (total (map s_iters runs)) /\
    r_costs (m_res m) = costs /\
    r_params (m_res m) = concat (map s_params runs) /\
    m_n_iters_per_scale m = map (fun r => Z.of_nat (s_iters r)) runs /\
    m_n_scales m = length runs /\
    reconstructed_initial_shapes m
      = Ok (map (fun ir => T affine scale (fst ir) (s_first (snd ir))) (combine (seq 0 (length runs)) runs)).
  Proof.
    intros Hne Ha Hs Hc.
    destruct (multi_nonparametric_spec affine scale gt runs costs Hne Ha Hs Hc)
      as (m & Em & Ef & Ei & Eg & Es & En & Eco & Ek & Ens).
    unfold multi_parametric. rewrite Em. cbn [bind]. eexists. split; [reflexivity|].
    cbn [m_res r_final r_initial r_gt r_shapes r_n_iters r_costs r_params m_n_iters_per_scale m_n_scales].
    repeat (split; [first [assumption | rewrite En; lia | rewrite map_map; reflexivity ]|]).
    unfold reconstructed_initial_shapes, reconstruction_indices.
    cbn [m_res r_initial r_shapes m_n_iters_per_scale m_n_scales]. rewrite Ei, Es, Ek, Ens.
    pose proof (reconstructed_shapes_gen affine scale runs 0 (opt_list (mapped_initial affine scale runs))) as H.
    destruct (mapped_initial affine scale runs); exact H.
  Qed.

  Lemma lucas_kanade_spec affine scale gt (runs : list run) costs :
    runs <> [] -> length runs <= length affine -> length runs <= length scale ->
    concat_attr (map s_costs runs) = Ok costs ->
    exists m,
    lucas_kanade_result (map (fun r => of_run (gt0 r) r) runs) (length runs) affine scale gt = Ok m /\
    m_n_iters_per_scale m = map (fun r => Z.of_nat (s_iters r)) runs /\
    r_n_iters (m_res m) = (Z.of_nat (total (map s_iters runs)) - Z.of_nat (length runs))%Z /\
    r_shapes (m_res m) = opt_list (mapped_initial affine scale runs) ++ concat (mapped affine scale runs) /\
    r_params (m_res m) = concat (map s_params runs).
  Proof.
    intros Hne Ha Hs Hc.
    destruct (multi_parametric_spec affine scale gt runs costs Hne Ha Hs Hc)
      as (m & Em & Ef & Ei & Eg & Es & En & Eco & Ep & Ek & Ens & _).
    unfold lucas_kanade_result. rewrite Em. cbn [bind]. eexists. split; [reflexivity|].
    cbn [m_res r_final r_initial r_gt r_shapes r_n_iters r_costs r_params m_n_iters_per_scale m_n_scales].
    rewrite En. auto.
  Qed.

  Lemma aam_result_app affine scale gt (runs : list run) costs app :
    runs <> [] -> length runs <= length affine -> length runs <= length scale ->
    concat_attr (map s_costs runs) = Ok costs -> concat_attr (map s_app runs) = Ok app ->
    exists m m',
    multi_parametric (map (fun r => of_run (gt0 r) r) runs) (length runs) affine scale gt = Ok m /\
    aam_result (map (fun r => of_run (gt0 r) r) runs) (length runs) affine scale gt = Ok m' /\
    r_shapes (m_res m') = r_shapes (m_res m) /\ r_n_iters (m_res m') = r_n_iters (m_res m) /\
    r_params (m_res m') = r_params (m_res m) /\ r_costs (m_res m') = r_costs (m_res m) /\
    r_app (m_res m') = app.
  Proof.
    intros Hne Ha Hs Hc Happ.
    destruct (multi_parametric_spec affine scale gt runs costs Hne Ha Hs Hc) as (m & Em & _).
    assert (E : map r_app (map (fun r => of_run (gt0 r) r) runs) = map s_app runs).
    { rewrite map_map. apply map_ext. reflexivity. }
    exists m. unfold aam_result. rewrite E, Happ, Em. cbn [bind]. eexists. split; [reflexivity|].
    split; [reflexivity|]. cbn. auto 6.
  Qed.

  Lemma aam_result_mixed affine scale gt r (runs : list run) costs l :
    length (r :: runs) <= length affine -> length (r :: runs) <= length scale ->
    concat_attr (map s_costs (r :: runs)) = Ok costs ->
    s_app r = Some l -> (exists r', In r' runs /\ s_app r' = None) ->
    aam_result (map (fun r => of_run (gt0 r) r) (r :: runs)) (length (r :: runs)) affine scale gt = Err TypeError.
  Proof.
    intros Ha Hs Hc Hr (r' & Hin & Hn).
    destruct (multi_parametric_spec affine scale gt (r :: runs) costs ltac:(discriminate) Ha Hs Hc) as (m & Em & _).
    unfold aam_result. rewrite Em. cbn [bind].
    assert (E : map r_app (map (fun r => of_run (gt0 r) r) (r :: runs)) = map s_app (r :: runs)).
    { rewrite map_map. apply map_ext. reflexivity. }
    rewrite E. cbn [map]. rewrite Hr, concat_attr_mixed; [reflexivity|].
    rewrite <- Hn. apply in_map. exact Hin.
  Qed.
End R.

(** ** Labels *)
Lemma total_app l1 l2 : total (l1 ++ l2) = total l1 + total l2.
Proof. unfold total. induction l1; simpl; lia. Qed.
Lemma total_firstn i l : total (firstn i l) <= total l.
Proof. rewrite <- (firstn_skipn i l) at 2. rewrite total_app. lia. Qed.

Lemma locate : forall ks p, p < total ks + length ks ->
  exists ks1 k ks2 q, ks = ks1 ++ k :: ks2 /\ q <= k /\ p = total ks1 + length ks1 + q.
Proof.
  induction ks as [|k ks IH]; intros p Hp; [cbn in Hp; lia|].
  destruct (le_lt_dec p k) as [H|H].
  - exists [], k, ks, p. cbn. auto.
  - cbn in Hp. fold (total ks) in Hp. destruct (IH (p - k - 1) ltac:(lia)) as (ks1 & k' & ks2 & q & -> & Hq & Ep).
    exists (k :: ks1), k', ks2, q. split; [reflexivity|]. split; [auto|]. cbn. fold (total ks1). lia.
Qed.

Definition id_at (b : nat) (ks : list nat) (i : nat) : nat := b + total (firstn i ks) + i.

Lemma id_at_le b ks1 k ks2 i q : q <= k -> i < length (ks1 ++ k :: ks2) ->
  (Z.of_nat (id_at b (ks1 ++ k :: ks2) i) <=? Z.of_nat (b + (total ks1 + length ks1 + q)))%Z
  = (i <=? length ks1).
Proof.
  intros Hq Hi. unfold id_at. destruct (i <=? length ks1) eqn:E.
  - apply Nat.leb_le in E. rewrite firstn_app.
    replace (i - length ks1) with 0 by lia. rewrite firstn_O, app_nil_r.
    pose proof (total_firstn i ks1). apply Z.leb_le. lia.
  - apply Nat.leb_gt in E. rewrite firstn_app, firstn_all2 by lia.
    destruct (i - length ks1) as [|d] eqn:Ed; [lia|]. cbn [firstn]. rewrite total_app. cbn [total fold_right].
    apply Z.leb_gt. lia.
Qed.

Lemma id_at_eq b ks1 k ks2 i q : q <= k -> i < length (ks1 ++ k :: ks2) ->
  id_at b (ks1 ++ k :: ks2) i = b + (total ks1 + length ks1 + q) -> i = length ks1 /\ q = 0.
Proof.
  intros Hq Hi. unfold id_at. destruct (le_lt_dec i (length ks1)) as [H|H].
  - rewrite firstn_app. replace (i - length ks1) with 0 by lia. rewrite firstn_O, app_nil_r.
    pose proof (total_firstn i ks1). lia.
  - rewrite firstn_app, firstn_all2 by lia.
    destruct (i - length ks1) as [|d] eqn:Ed; [lia|]. cbn [firstn]. rewrite total_app. cbn [total fold_right]. lia.
Qed.

Lemma filter_seq_le f m : forall n, m < n -> (forall i, i < n -> f i = (i <=? m)) ->
  filter f (seq 0 n) = seq 0 (S m).
Proof.
  induction n as [|n IH]; intros Hm Hf; [lia|].
  rewrite seq_S, filter_app. cbn [filter plus]. rewrite Hf by lia.
  destruct (Nat.eq_dec m n) as [->|Hne].
  - rewrite Nat.leb_refl. rewrite seq_S. cbn. f_equal.
    assert (E : forall l, (forall i, In i l -> f i = true) -> filter f l = l).
    { induction l as [|a l IHl]; intros H; [reflexivity|]. cbn. rewrite H by (left; reflexivity).
      f_equal. apply IHl. intros; apply H; right; auto. }
    apply E. intros i Hi. apply in_seq in Hi. rewrite Hf by lia. apply Nat.leb_le. lia.
  - replace (n <=? m) with false by (symmetry; apply Nat.leb_gt; lia).
    rewrite app_nil_r. apply IH; [lia|]. intros; apply Hf; lia.
Qed.

Lemma last_res_seq m : last_res (seq 0 (S m)) = Ok m.
Proof. rewrite seq_S. unfold last_res. rewrite rev_app_distr. reflexivity. Qed.

Lemma get_scale_block b ks1 k ks2 q : q <= k ->
  get_scale_of_iter (Z.of_nat (b + (total ks1 + length ks1 + q)))
    (reconstruction_from (Z.of_nat b) (map Z.of_nat (ks1 ++ k :: ks2)) (length (ks1 ++ k :: ks2)))
  = Ok (length ks1).
Proof.
  intros Hq. unfold get_scale_of_iter. rewrite reconstruction_length.
  rewrite (filter_seq_le _ (length ks1)).
  - apply last_res_seq.
  - rewrite app_length. cbn. lia.
  - intros i Hi. rewrite reconstruction_nth by exact Hi.
    rewrite <- (id_at_le b ks1 k ks2 i q Hq Hi). reflexivity.
Qed.

Lemma existsb_block b ks1 k ks2 q : q <= k ->
  existsb (Z.eqb (Z.of_nat (b + (total ks1 + length ks1 + q))))
    (reconstruction_from (Z.of_nat b) (map Z.of_nat (ks1 ++ k :: ks2)) (length (ks1 ++ k :: ks2)))
  = (q =? 0).
Proof.
  intros Hq. set (ids := reconstruction_from _ _ _). destruct (q =? 0) eqn:E.
  - apply Nat.eqb_eq in E. subst q. apply existsb_exists.
    exists (Z.of_nat (id_at b (ks1 ++ k :: ks2) (length ks1))). split.
    + apply nth_error_In with (length ks1). unfold ids. rewrite reconstruction_nth; [reflexivity|].
      rewrite app_length; cbn; lia.
    + apply Z.eqb_eq. unfold id_at. rewrite firstn_app, firstn_all, Nat.sub_diag, firstn_O, app_nil_r. lia.
  - apply not_true_iff_false. intros H. apply existsb_exists in H. destruct H as (z & Hin & Hz).
    apply Z.eqb_eq in Hz. apply In_nth_error in Hin. destruct Hin as (i & Hi).
    assert (Hlt : i < length ids) by (apply nth_error_Some; congruence).
    unfold ids in Hlt. rewrite reconstruction_length in Hlt.
    unfold ids in Hi. rewrite reconstruction_nth in Hi by exact Hlt. injection Hi as Hi.
    destruct (id_at_eq b ks1 k ks2 i q Hq Hlt) as [_ ->]; [unfold id_at; lia|discriminate].
Qed.

Lemma numbered_length c k : length (numbered c k) = k.
Proof. unfold numbered. rewrite map_length, seq_length. reflexivity. Qed.

Lemma scale_labels_length : forall ks c, length (scale_labels c ks) = total ks + length ks.
Proof.
  induction ks as [|k ks IH]; intros c; [reflexivity|].
  cbn [scale_labels length total fold_right]. rewrite app_length, numbered_length, IH. unfold total. lia.
Qed.

Lemma scale_labels_nth : forall ks1 k ks2 q c, q <= k ->
  nth_error (scale_labels c (ks1 ++ k :: ks2)) (total ks1 + length ks1 + q)
  = Some (if q =? 0 then Reconstruction else Iteration (Z.of_nat (c + total ks1 + q))).
Proof.
  induction ks1 as [|k1 ks1 IH]; intros k ks2 q c Hq.
  - cbn [app scale_labels total fold_right length plus]. destruct q as [|q]; [reflexivity|].
    cbn [nth_error Nat.eqb]. rewrite nth_error_app1 by (rewrite numbered_length; lia).
    unfold numbered. rewrite nth_error_map, (nth_error_nth' _ 0) by (rewrite seq_length; lia).
    rewrite seq_nth by lia. cbn. do 3 f_equal. lia.
  - cbn [app scale_labels total fold_right length]. fold (total ks1).
    replace (k1 + total ks1 + S (length ks1) + q) with (S (k1 + (total ks1 + length ks1 + q))) by lia.
    cbn [nth_error]. rewrite nth_error_app2 by (rewrite numbered_length; lia). rewrite numbered_length.
    replace (k1 + (total ks1 + length ks1 + q) - k1) with (total ks1 + length ks1 + q) by lia.
    rewrite IH by exact Hq. destruct (q =? 0); [reflexivity|]. do 3 f_equal. lia.
Qed.

Definition is_iteration (l : label) : bool := match l with Iteration _ => true | _ => false end.
Definition shift (d : Z) (l : label) : label :=
  match l with Iteration z => Iteration (z + d) | _ => l end.

Lemma name_final_nth l p x : nth_error l p = Some x ->
  nth_error (name_final l) p = Some (if (p =? length l - 1) && is_iteration x then Final else x).
Proof.
  intros H. assert (Hp : p < length l) by (apply nth_error_Some; congruence).
  unfold name_final. destruct l as [|y l' _] using rev_ind; [destruct p; discriminate|].
  rewrite rev_app_distr. cbn [rev app]. rewrite app_length in *. cbn [length] in *.
  destruct (Nat.eq_dec p (length l')) as [->|Hne].
  - rewrite nth_error_app2, Nat.sub_diag in H by lia. injection H as ->.
    replace (length l' =? length l' + 1 - 1) with true by (symmetry; apply Nat.eqb_eq; lia).
    destruct x; cbn [andb is_iteration]; try (rewrite nth_error_app2, Nat.sub_diag by lia; reflexivity).
    rewrite rev_involutive, nth_error_app2, Nat.sub_diag by lia. reflexivity.
  - replace (p =? length l' + 1 - 1) with false by (symmetry; apply Nat.eqb_neq; lia).
    cbn [andb]. rewrite nth_error_app1 in H by lia.
    destruct y; try (rewrite nth_error_app1 by lia; exact H).
    rewrite rev_involutive, nth_error_app1 by lia. exact H.
Qed.

Lemma last_res_nth {X} (l : list X) x : last_res l = Ok x -> nth_error l (length l - 1) = Some x.
Proof.
  unfold last_res, nth_res. destruct l as [|a l _] using rev_ind; [discriminate|].
  rewrite rev_app_distr. cbn. intros [= ->]. rewrite app_length. cbn [length].
  rewrite nth_error_app2 by lia. replace (length l + 1 - 1 - length l) with 0 by lia. reflexivity.
Qed.

Section Labels.
  Context {Sh P A C : Type}.

  Lemma label_with_spec (r : iresult Sh P A C) (b : nat) (ks : list nat) (offset : Z) :
    b = (if has_initial r then 1 else 0) ->
    (forall i, r_initial r = Some i -> nth_error (r_shapes r) 0 = Some i) ->
    length (r_shapes r) = b + (total ks + length ks) ->
    last_res (r_shapes r) = Ok (r_final r) ->
    forall j, j < length (r_shapes r) ->
    exists lab s,
      label_with offset (reconstruction_from (Z.of_nat b) (map Z.of_nat ks) (length ks)) r j = Ok (lab, s) /\
      nth_error (r_shapes r) j = Some s /\
      nth_error ((if has_initial r then [Initial] else [])
                 ++ name_final (map (shift (Z.of_nat b + offset)) (scale_labels 0 ks))) j = Some lab.
  Proof.
    intros Hb Hinit Hlen Hlast j Hj.
    assert (Hblock : forall p, j = b + p -> p < total ks + length ks ->
      (if j =? 0 then r_initial r else None) = None ->
      exists lab s,
      label_with offset (reconstruction_from (Z.of_nat b) (map Z.of_nat ks) (length ks)) r j = Ok (lab, s) /\
      nth_error (r_shapes r) j = Some s /\
      nth_error (name_final (map (shift (Z.of_nat b + offset)) (scale_labels 0 ks))) p = Some lab).
    { intros p -> Hp Hnone.
      destruct (nth_error (r_shapes r) (b + p)) as [s|] eqn:Es.
      2: { apply nth_error_None in Es. lia. }
      destruct (locate ks p Hp) as (ks1 & k & ks2 & q & -> & Hq & ->).
      unfold label_with. rewrite Hnone. rewrite existsb_block by exact Hq.
      assert (Enth : nth_error (map (shift (Z.of_nat b + offset)) (scale_labels 0 (ks1 ++ k :: ks2)))
                      (total ks1 + length ks1 + q)
                   = Some (if q =? 0 then Reconstruction
                           else Iteration (Z.of_nat (total ks1 + q) + (Z.of_nat b + offset)))).
      { rewrite nth_error_map, scale_labels_nth by exact Hq. destruct (q =? 0); reflexivity. }
      apply name_final_nth in Enth. rewrite map_length, scale_labels_length in Enth.
      unfold nth_res. rewrite Es. cbn [bind].
      replace (b + (total ks1 + length ks1 + q) =? length (r_shapes r) - 1)
        with (total ks1 + length ks1 + q =? total (ks1 ++ k :: ks2) + length (ks1 ++ k :: ks2) - 1).
      2: { rewrite Hlen. apply eq_true_iff_eq. rewrite !Nat.eqb_eq. lia. }
      destruct (q =? 0) eqn:Eq; cbn [is_iteration] in Enth.
      - rewrite andb_false_r in Enth. eexists _, _. split; [reflexivity|]. auto.
      - rewrite andb_true_r in Enth. clear Hnone.
        destruct (total ks1 + length ks1 + q =? total (ks1 ++ k :: ks2) + length (ks1 ++ k :: ks2) - 1) eqn:El.
        + apply Nat.eqb_eq in El. eexists _, _. split; [reflexivity|]. split; [|exact Enth].
          apply last_res_nth in Hlast. rewrite <- Hlast, <- Es. f_equal. lia.
        + rewrite get_scale_block by exact Hq. cbn [bind]. eexists _, _. split; [reflexivity|].
          split; [reflexivity|]. rewrite Enth. do 2 f_equal. lia. }
    unfold has_initial in *. destruct (r_initial r) as [i|] eqn:Ei.
    - destruct j as [|p].
      + exists Initial, i. split; [unfold label_with; rewrite Ei; reflexivity|]. split; [apply Hinit; reflexivity|reflexivity].
      + subst b. destruct (Hblock p eq_refl ltac:(lia)) as (lab & s & H1 & H2 & H3); [reflexivity|].
        exists lab, s. auto.
    - subst b. destruct (Hblock j eq_refl ltac:(lia)) as (lab & s & H1 & H2 & H3); [destruct (j =? 0); reflexivity|].
      exists lab, s. auto.
  Qed.
End Labels.

Section More.
  Context {Sh P A C : Type}.

  Lemma nonparametric_inv shapes initial gt costs (r : iresult Sh P A C) :
    nonparametric_result shapes initial gt costs = Ok r ->
    exists final, last_res shapes = Ok final /\
    r = {| r_final := final; r_initial := initial; r_gt := gt;
          r_shapes := match initial with Some i => i :: shapes | None => shapes end;
          r_n_iters := Z.of_nat (length shapes); r_costs := costs; r_params := []; r_app := None |}.
  Proof.
    unfold nonparametric_result. destruct (last_res shapes) as [f|]; cbn [bind]; [|discriminate].
    intros [= <-]. eauto.
  Qed.

  Lemma last_res_ne {X} (l : list X) x : last_res l = Ok x -> l <> [].
  Proof. intros H ->. discriminate. Qed.

  Lemma consistent_shapes final (initial : option Sh) shapes :
    last_res shapes = Ok final ->
    last_res (match initial with Some i => i :: shapes | None => shapes end) = Ok final.
  Proof.
    intros H. destruct initial as [i|]; auto.
    change (i :: shapes) with ([i] ++ shapes). rewrite last_res_app; [exact H|]. eapply last_res_ne; eauto.
  Qed.

  Lemma nonparametric_consistent shapes initial gt costs (r : iresult Sh P A C) :
    nonparametric_result shapes initial gt costs = Ok r -> consistent r.
  Proof.
    intros H. apply nonparametric_inv in H. destruct H as (f & Hf & ->). split; cbn.
    - apply consistent_shapes; auto.
    - intros i ->. reflexivity.
  Qed.

  Lemma parametric_inv shapes params app initial gt costs (r : iresult Sh P A C) :
    parametric_result shapes params app initial gt costs = Ok r ->
    exists final, last_res shapes = Ok final /\
    r = {| r_final := final; r_initial := initial; r_gt := gt;
          r_shapes := match initial with Some i => i :: shapes | None => shapes end;
          r_n_iters := Z.of_nat (length shapes) - 1; r_costs := costs; r_params := params; r_app := app |}.
  Proof.
    unfold parametric_result. destruct (nth_res shapes 0); cbn [bind]; [|discriminate].
    destruct (@nonparametric_result Sh P A C shapes initial gt costs) as [b|] eqn:E; cbn [bind]; [|discriminate].
    intros [= <-]. apply nonparametric_inv in E. destruct E as (f & Hf & ->). exists f. auto.
  Qed.

  Lemma parametric_consistent shapes params app initial gt costs (r : iresult Sh P A C) :
    parametric_result shapes params app initial gt costs = Ok r -> consistent r.
  Proof.
    intros H. apply parametric_inv in H. destruct H as (f & Hf & ->). split; cbn.
    - apply consistent_shapes; auto.
    - intros i ->. reflexivity.
  Qed.

  Lemma multi_nonparametric_consistent results n affine scale gt (m : mresult Sh P A C) :
    multi_nonparametric results n affine scale gt = Ok m -> consistent (m_res m).
  Proof.
    unfold multi_nonparametric. destruct (negb _); [discriminate|].
    destruct (nth_res results 0) as [r0|]; cbn [bind]; [|discriminate].
    match goal with |- context [bind ?x _ = _] => destruct x as [ini|]; cbn [bind]; [|discriminate] end.
    match goal with |- context [bind ?x _ = _] => destruct x as [ps|]; cbn [bind]; [|discriminate] end.
    match goal with |- context [bind ?x _ = _] => destruct x as [b|] eqn:Eb; cbn [bind]; [|discriminate] end.
    match goal with |- context [bind ?x _ = _] => destruct x as [c|]; cbn [bind]; [|discriminate] end.
    intros [= <-]. exact (nonparametric_consistent _ _ _ _ _ Eb).
  Qed.

  Lemma multi_parametric_consistent results n affine scale gt (m : mresult Sh P A C) :
    multi_parametric results n affine scale gt = Ok m -> consistent (m_res m).
  Proof.
    unfold multi_parametric.
    destruct (multi_nonparametric results n affine scale gt) as [b|] eqn:Eb; cbn [bind]; [|discriminate].
    intros [= <-]. exact (multi_nonparametric_consistent _ _ _ _ _ _ Eb).
  Qed.

  Lemma lucas_kanade_consistent results n affine scale gt (m : mresult Sh P A C) :
    lucas_kanade_result results n affine scale gt = Ok m -> consistent (m_res m).
  Proof.
    unfold lucas_kanade_result.
    destruct (multi_parametric results n affine scale gt) as [b|] eqn:Eb; cbn [bind]; [|discriminate].
    intros [= <-]. exact (multi_parametric_consistent _ _ _ _ _ _ Eb).
  Qed.

  Lemma aam_consistent results n affine scale gt (m : mresult Sh P A C) :
    aam_result results n affine scale gt = Ok m -> consistent (m_res m).
  Proof.
    unfold aam_result.
    destruct (multi_parametric results n affine scale gt) as [b|] eqn:Eb; cbn [bind]; [|discriminate].
    destruct (concat_attr _); cbn [bind]; [|discriminate].
    intros [= <-]. exact (multi_parametric_consistent _ _ _ _ _ _ Eb).
  Qed.

  (** *** Errors *)
  Lemma mapM_inv {X Y} (f : X -> res Y) : forall l ys, mapM f l = Ok ys ->
    length ys = length l /\ forall i x, nth_error l i = Some x ->
      exists y, f x = Ok y /\ nth_error ys i = Some y.
  Proof.
    induction l as [|x l IH]; intros ys; cbn [mapM].
    - intros [= <-]. split; [reflexivity|]. intros [|i] x; discriminate.
    - destruct (f x) as [y|] eqn:Ef; cbn [bind]; [|discriminate].
      destruct (mapM f l) as [ys'|] eqn:Em; cbn [bind]; [|discriminate].
      intros [= <-]. destruct (IH _ eq_refl) as [Hl Hn]. split; [simpl; congruence|].
      intros [|i] z; cbn [nth_error]; [intros [= <-]; eauto|apply Hn].
  Qed.

  Lemma errors_spec {Er} (ce : Sh -> Sh -> res Er) (r : iresult Sh P A C) es :
    consistent r -> errors ce r = Ok es ->
    length es = length (r_shapes r) /\
    (exists e, final_error ce r = Ok e /\ last_res es = Ok e) /\
    (r_initial r <> None -> exists e, initial_error ce r = Ok e /\ nth_error es 0 = Some e).
  Proof.
    intros [Hlast Hinit]. unfold errors, final_error, initial_error.
    destruct (r_gt r) as [gt|] eqn:Eg; [|discriminate]. intros H.
    apply mapM_inv in H. destruct H as [Hl Hn]. split; [exact Hl|]. split.
    - pose proof (last_res_nth _ _ Hlast) as H. destruct (Hn _ _ H) as (e & He & Hes). exists e. split; auto.
      rewrite <- Hl in Hes. unfold last_res, nth_res.
      destruct es as [|z es' _] using rev_ind; [discriminate|].
      rewrite rev_app_distr. cbn. rewrite app_length in Hes. cbn in Hes.
      rewrite nth_error_app2 in Hes by lia. replace (length es' + 1 - 1 - length es') with 0 in Hes by lia.
      cbn in Hes. congruence.
    - destruct (r_initial r) as [i|]; [|congruence]. intros _.
      destruct (Hn 0 i (Hinit i eq_refl)) as (e & He & Hes). exists e. auto.
  Qed.

  Lemma errors_no_gt {Er} (ce : Sh -> Sh -> res Er) (r : iresult Sh P A C) :
    r_gt r = None -> errors ce r = Err ValueError /\ final_error ce r = Err ValueError /\
    initial_error ce r = Err ValueError /\ reconstructed_initial_error ce r = Err ValueError.
  Proof.
    intros H. unfold errors, final_error, initial_error, reconstructed_initial_error. rewrite H.
    destruct (r_initial r); auto.
  Qed.

  Lemma errors_raise_iff {Er} (ce : Sh -> Sh -> res Er) (r : iresult Sh P A C) gt :
    r_gt r = Some gt -> (forall s, exists e, ce s gt = Ok e) -> exists es, errors ce r = Ok es.
  Proof.
    intros H Hc. unfold errors. rewrite H. induction (r_shapes r) as [|s l IH]; [eexists; reflexivity|].
    cbn [mapM]. destruct (Hc s) as [e ->]. destruct IH as [es ->]. cbn [bind]. eauto.
  Qed.

  Lemma displacements_spec {D} (dist : Sh -> Sh -> D) (r : iresult Sh P A C) :
    consistent r ->
    S (length (displacements dist r)) = length (r_shapes r) /\
    forall i a b, nth_error (r_shapes r) i = Some a -> nth_error (r_shapes r) (S i) = Some b ->
      nth_error (displacements dist r) i = Some (dist a b).
  Proof.
    intros [Hlast _]. unfold displacements. apply last_res_ne in Hlast.
    destruct (r_shapes r) as [|x l]; [congruence|]. split.
    - rewrite map_length, combine_length. cbn [length tl]. lia.
    - cbn [tl]. clear Hlast. revert x. induction l as [|y l IH]; intros x i a b Ha Hb.
      + destruct i; discriminate.
      + destruct i as [|i]; cbn in *; [congruence|]. apply (IH y i a b); auto.
  Qed.

  (** *** Labels of non-parametric results *)
  Lemma label_nonparametric_spec shapes initial gt costs (r : iresult Sh P A C) :
    nonparametric_result shapes initial gt costs = Ok r ->
    forall j, j < length (r_shapes r) ->
    exists lab s, label_nonparametric r j = Ok (lab, s) /\ nth_error (r_shapes r) j = Some s /\
      nth_error (match initial with Some _ => [Initial] | None => [] end
                 ++ name_final (numbered 0 (length shapes))) j = Some lab.
  Proof.
    intros H j Hj. pose proof (nonparametric_consistent _ _ _ _ _ H) as [Hlast Hinit].
    apply nonparametric_inv in H. destruct H as (f & Hf & ->). cbn [r_shapes r_initial r_final] in *.
    assert (Hnum : forall p, p < length shapes -> nth_error (numbered 0 (length shapes)) p = Some (Iteration (Z.of_nat (S p)))).
    { intros p Hp. unfold numbered. rewrite nth_error_map, (nth_error_nth' _ 0) by (rewrite seq_length; lia).
      rewrite seq_nth by lia. reflexivity. }
    unfold label_nonparametric. cbn [has_initial r_shapes r_initial r_final].
    destruct initial as [i|].
    - destruct j as [|p].
      + exists Initial, i. auto.
      + change (S p =? 0) with false. cbn [length] in Hj. unfold has_initial. cbn [r_initial].
        assert (Hp : p < length shapes) by lia.
        pose proof (name_final_nth _ _ _ (Hnum p Hp)) as En. rewrite numbered_length in En.
        cbn [is_iteration] in En. rewrite andb_true_r in En.
        cbn [length]. replace (S p =? S (length shapes) - 1) with (p =? length shapes - 1).
        2: { apply eq_true_iff_eq. rewrite !Nat.eqb_eq. lia. }
        destruct (p =? length shapes - 1) eqn:Ep.
        * apply Nat.eqb_eq in Ep. exists Final, f. split; [reflexivity|]. split; [|exact En].
          cbn. subst p. apply last_res_nth. exact Hf.
        * destruct (nth_error shapes p) as [s|] eqn:Es; [|apply nth_error_None in Es; lia].
          eexists _, s. unfold nth_res. cbn [nth_error]. rewrite Es. cbn [bind].
          split; [reflexivity|]. split; [reflexivity|]. cbn [app nth_error]. rewrite En. do 2 f_equal; lia.
    - replace (if j =? 0 then None else None) with (@None Sh) by (destruct (j =? 0); reflexivity).
      pose proof (name_final_nth _ _ _ (Hnum j Hj)) as En. rewrite numbered_length in En.
      cbn [is_iteration] in En. rewrite andb_true_r in En. cbn [app].
      destruct (j =? length shapes - 1) eqn:Ep.
      + apply Nat.eqb_eq in Ep. exists Final, f. split; [reflexivity|]. split; [|exact En].
        subst j. apply last_res_nth. exact Hf.
      + destruct (nth_error shapes j) as [s|] eqn:Es; [|apply nth_error_None in Es; lia].
        eexists _, s. unfold nth_res. rewrite Es. cbn [bind].
        split; [reflexivity|]. split; [reflexivity|]. rewrite En. cbn [has_initial r_initial]. do 2 f_equal. lia.
  Qed.

  (** Distinct names: every shape is shown. *)
  Lemma label_eqb_eq a b : label_eqb a b = true <-> a = b.
  Proof.
    destruct a, b; cbn; split; intros H; try reflexivity; try discriminate.
    - apply Z.eqb_eq in H. congruence.
    - injection H as ->. apply Z.eqb_refl.
  Qed.

  Lemma shown_none (assigned : list (label * Sh)) l : ~ In l (map fst assigned) -> shown assigned l = None.
  Proof.
    induction assigned as [|[l' s] r IH]; cbn; intros H; [reflexivity|].
    rewrite IH by tauto. destruct (label_eqb l l') eqn:E; [|reflexivity].
    apply label_eqb_eq in E. subst. tauto.
  Qed.

  Lemma shown_distinct (assigned : list (label * Sh)) l s :
    NoDup (map fst assigned) -> In (l, s) assigned -> shown assigned l = Some s.
  Proof.
    induction assigned as [|[l' s'] r IH]; cbn; intros Hnd Hin; [tauto|].
    inversion Hnd; subst. destruct Hin as [[= -> ->]|Hin].
    - rewrite shown_none by auto. replace (label_eqb l l) with true; [reflexivity|].
      symmetry. apply label_eqb_eq. reflexivity.
    - rewrite IH by auto. reflexivity.
  Qed.

  Lemma numbered_NoDup c k : NoDup (numbered c k).
  Proof.
    unfold numbered. apply FinFun.Injective_map_NoDup; [|apply seq_NoDup]. intros a b [= H]. lia.
  Qed.

  Lemma name_final_numbered_NoDup k : NoDup (name_final (numbered 0 k)) /\ ~ In Initial (name_final (numbered 0 k)).
  Proof.
    destruct k as [|k].
    - cbn. split; [constructor|auto].
    - assert (E : numbered 0 (S k) = numbered 0 k ++ [Iteration (Z.of_nat (S k))]).
      { unfold numbered. rewrite seq_S, map_app. reflexivity. }
      unfold name_final. rewrite E, rev_app_distr. cbn [rev app]. rewrite rev_involutive.
      assert (Hf : forall x, In x (numbered 0 k) -> is_iteration x = true).
      { intros x Hx. unfold numbered in Hx. apply in_map_iff in Hx. destruct Hx as (i & <- & _). reflexivity. }
      split.
      + idtac.
        assert (Hgen : forall l, NoDup l -> (forall x, In x l -> is_iteration x = true) -> NoDup (l ++ [Final])).
        { induction l as [|x l IH]; cbn; intros Hnd H; [constructor; [auto|constructor]|].
          inversion Hnd; subst. constructor.
          - rewrite in_app_iff. intros [Hi|[Hi|[]]]; auto. subst x. specialize (H Final (or_introl eq_refl)). discriminate.
          - apply IH; auto. }
        apply Hgen; auto. apply numbered_NoDup.
      + rewrite in_app_iff. intros [Hi|[Hi|[]]]; [|discriminate]. apply Hf in Hi. discriminate.
  Qed.

  (** Naming every shape of a non-parametric result: all names differ and each shows its shape. *)
  Lemma nonparametric_all_shown shapes initial gt costs (r : iresult Sh P A C) :
    nonparametric_result shapes initial gt costs = Ok r ->
    exists assigned, mapM (label_nonparametric r) (parse_iters None (length (r_shapes r))) = Ok assigned /\
      map snd assigned = r_shapes r /\ NoDup (map fst assigned) /\
      forall l s, In (l, s) assigned -> shown assigned l = Some s.
  Proof.
    intros H.
    set (names := match initial with Some _ => [Initial] | None => [] end ++ name_final (numbered 0 (length shapes))).
    assert (Hlen : length names = length (r_shapes r)).
    { pose proof H as H'. apply nonparametric_inv in H'. destruct H' as (f & _ & ->). unfold names.
      assert (E : length (name_final (numbered 0 (length shapes))) = length shapes).
      { unfold name_final. destruct (rev (numbered 0 (length shapes))) as [|[| | |z] l] eqn:E;
          try (rewrite numbered_length; reflexivity).
        apply (f_equal (@length _)) in E. rewrite rev_length, numbered_length in E. cbn in E.
        rewrite app_length, rev_length. cbn. lia. }
      rewrite app_length, E. destruct initial; reflexivity. }
    exists (combine names (r_shapes r)). 
    assert (E : mapM (label_nonparametric r) (parse_iters None (length (r_shapes r))) = Ok (combine names (r_shapes r))).
    { unfold parse_iters. rewrite <- Hlen.
      assert (G : forall l1 l2 pre1 pre2 : list label, True) by auto. clear G.
      pose proof (label_nonparametric_spec _ _ _ _ _ H) as Hl. fold names in Hl.
      assert (G : forall (ns : list label) (ss : list Sh) s,
         length ns = length ss ->
         (forall i n x, nth_error ns i = Some n -> nth_error ss i = Some x -> label_nonparametric r (s + i) = Ok (n, x)) ->
         mapM (label_nonparametric r) (seq s (length ns)) = Ok (combine ns ss)).
      { induction ns as [|n ns IH]; intros [|x ss] s Hls Hns; try discriminate; [reflexivity|].
        cbn [length seq mapM combine]. pose proof (Hns 0 n x eq_refl eq_refl) as E0.
        rewrite Nat.add_0_r in E0. rewrite E0. cbn [bind].
        rewrite (IH ss (S s)); [reflexivity| |].
        - cbn in Hls. lia.
        - intros i m y Hm Hy. pose proof (Hns (S i) m y Hm Hy) as Ei. rewrite Nat.add_succ_r in Ei. exact Ei. }
      apply G; auto. intros i n x Hn Hx. cbn [plus].
      assert (Hi : i < length (r_shapes r)) by (apply nth_error_Some; congruence).
      destruct (Hl i Hi) as (lab & s & E1 & E2 & E3). rewrite E1. congruence. }
    split; [exact E|].
    assert (Efst : map fst (combine names (r_shapes r)) = names).
    { clear - Hlen. revert Hlen. generalize (r_shapes r) as ss. induction names as [|n ns IH]; intros [|x ss] Hl; try discriminate; [reflexivity|].
      cbn. f_equal. apply IH. cbn in Hl. lia. }
    assert (Esnd : map snd (combine names (r_shapes r)) = r_shapes r).
    { clear - Hlen. revert Hlen. generalize (r_shapes r) as ss. induction names as [|n ns IH]; intros [|x ss] Hl; try discriminate; [reflexivity|].
      cbn. f_equal. apply IH. cbn in Hl. lia. }
    assert (Hnd : NoDup (map fst (combine names (r_shapes r)))).
    { rewrite Efst. unfold names. destruct (name_final_numbered_NoDup (length shapes)) as [Hn Hi].
      destruct initial; cbn; [constructor|]; auto. }
    split; [exact Esnd|]. split; [exact Hnd|]. intros l s Hin. apply shown_distinct; auto.
  Qed.

  (** *** Labels of parametric results *)
  Lemma label_parametric_spec shapes params app initial gt costs (r : iresult Sh P A C) :
    parametric_result shapes params app initial gt costs = Ok r ->
    forall j, j < length (r_shapes r) ->
    exists lab s, label_parametric r j = Ok (lab, s) /\ nth_error (r_shapes r) j = Some s /\
      nth_error (match initial with Some _ => [Initial] | None => [] end
                 ++ name_final (map (shift (match initial with Some _ => 2 | None => 0 end))
                                    (scale_labels 0 [length shapes - 1]))) j = Some lab.
  Proof.
    intros H j Hj. pose proof (parametric_consistent _ _ _ _ _ _ _ H) as [Hlast Hinit].
    pose proof H as H0. apply parametric_inv in H0. destruct H0 as (f & Hf & ->).
    assert (Hne : length shapes <> 0) by (destruct shapes; [discriminate|cbn; lia]).
    unfold label_parametric. destruct initial as [i|].
    - match goal with |- context [label_with _ _ ?r] => set (r0 := r) in * end.
      destruct (label_with_spec r0 1 [length shapes - 1] 1%Z eq_refl Hinit ltac:(cbn; lia) Hlast j Hj)
        as (lab & s & E1 & E2 & E3). exists lab, s. split; [exact E1|]. split; auto.
    - match goal with |- context [label_with _ _ ?r] => set (r0 := r) in * end.
      destruct (label_with_spec r0 0 [length shapes - 1] 0%Z eq_refl Hinit ltac:(cbn; lia) Hlast j Hj)
        as (lab & s & E1 & E2 & E3). exists lab, s. split; [exact E1|]. split; auto.
  Qed.

  Lemma map_shift_0 l : map (shift 0) l = l.
  Proof. rewrite <- (map_id l) at 2. apply map_ext. intros [| | |z]; cbn; auto. f_equal. lia. Qed.

  Lemma label_multi_spec (gt0 : scale_run Sh P A C -> option Sh) affine scale gt runs costs m :
    runs <> [] -> length runs <= length affine -> length runs <= length scale ->
    concat_attr (map s_costs runs) = Ok costs ->
    multi_parametric (map (fun r => of_run (gt0 r) r) runs) (length runs) affine scale gt = Ok m ->
    forall j, j < length (r_shapes (m_res m)) ->
    exists lab s, label_multi m j = Ok (lab, s) /\ nth_error (r_shapes (m_res m)) j = Some s /\
      nth_error (match mapped_initial affine scale runs with Some _ => [Initial] | None => [] end
                 ++ name_final (map (shift (match mapped_initial affine scale runs with Some _ => 0 | None => -2 end))
                                    (scale_labels 0 (map s_iters runs)))) j = Some lab.
  Proof.
    intros Hne Ha Hs Hc Em j Hj. pose proof (multi_parametric_consistent _ _ _ _ _ _ Em) as [Hlast Hinit].
    destruct (multi_parametric_spec gt0 affine scale gt runs costs Hne Ha Hs Hc)
      as (m' & Em' & Ef & Ei & Eg & Es & En & Eco & Ep & Ek & Ens & _).
    rewrite Em in Em'. injection Em' as <-.
    assert (Hlen : length (r_shapes (m_res m)) = (match mapped_initial affine scale runs with Some _ => 1 | None => 0 end)
              + (total (map s_iters runs) + length (map s_iters runs))).
    { rewrite Es, app_length, total_lengths, map_length. destruct (mapped_initial affine scale runs); reflexivity. }
    assert (Hids : map (fun r => Z.of_nat (s_iters r)) runs = map Z.of_nat (map s_iters runs)) by (rewrite map_map; reflexivity).
    unfold label_multi, reconstruction_indices, has_initial. rewrite Ek, Ens, Hids, Ei.
    rewrite <- (map_length s_iters runs).
    destruct (mapped_initial affine scale runs) as [i|] eqn:E.
    - assert (Hb : 1 = if has_initial (m_res m) then 1 else 0) by (unfold has_initial; rewrite Ei; reflexivity).
      destruct (label_with_spec (m_res m) 1 (map s_iters runs) (-1)%Z Hb Hinit Hlen Hlast j Hj)
        as (lab & s & E1 & E2 & E3). exists lab, s. split; [exact E1|]. split; auto.
      unfold has_initial in E3. rewrite Ei in E3. exact E3.
    - assert (Hb : 0 = if has_initial (m_res m) then 1 else 0) by (unfold has_initial; rewrite Ei; reflexivity).
      destruct (label_with_spec (m_res m) 0 (map s_iters runs) (-2)%Z Hb Hinit Hlen Hlast j Hj)
        as (lab & s & E1 & E2 & E3). exists lab, s. split; [exact E1|]. split; auto.
      unfold has_initial in E3. rewrite Ei in E3. exact E3.
  Qed.
End More.

Section Arbitrary.
  Context {Sh P A C : Type}.
  Implicit Type results : list (iresult Sh P A C).

  Definition body (r : iresult Sh P A C) : list Sh :=
    match r_initial r with None => r_shapes r | Some _ => tl (r_shapes r) end.

  Lemma mapM_index_inv {X Y} (f : nat -> res Y) (g : nat -> X -> Y) : forall (l pre : list X) ys,
    (forall i x y, nth_error (pre ++ l) i = Some x -> f i = Ok y -> y = g i x) ->
    mapM f (seq (length pre) (length l)) = Ok ys ->
    ys = map (fun p => g (fst p) (snd p)) (combine (seq (length pre) (length l)) l).
  Proof.
    induction l as [|x l IH]; intros pre ys H Hm; cbn [length seq mapM combine map] in *.
    - congruence.
    - destruct (f (length pre)) as [y|] eqn:Ef; cbn [bind] in Hm; [|discriminate].
      destruct (mapM f (seq (S (length pre)) (length l))) as [ys'|] eqn:Em; cbn [bind] in Hm; [|discriminate].
      injection Hm as <-. cbn [fst snd]. f_equal.
      + eapply H; [|exact Ef]. rewrite nth_error_app2, Nat.sub_diag by lia. reflexivity.
      + specialize (IH (pre ++ [x]) ys'). rewrite app_length in IH. cbn [length] in IH.
        rewrite Nat.add_1_r in IH. apply IH; [|exact Em].
        intros i z w Hi Hw. apply H; [|exact Hw]. rewrite <- app_assoc in Hi. exact Hi.
  Qed.

  Lemma nth_res_nth {X} (l : list X) i x d : nth_res l i = Ok x -> nth i l d = x.
  Proof.
    unfold nth_res. destruct (nth_error l i) as [y|] eqn:E; [|discriminate]. intros [= ->].
    apply nth_error_nth. exact E.
  Qed.

  Lemma multi_nonparametric_inv results n affine scale gt m :
    multi_nonparametric results n affine scale gt = Ok m ->
    length results = n /\
    r_initial (m_res m) = match results with r :: _ => option_map (T affine scale 0) (r_initial r) | [] => None end /\
    r_shapes (m_res m) = opt_list (r_initial (m_res m)) ++
      concat (map (fun ir => map (T affine scale (fst ir)) (body (snd ir))) (combine (seq 0 n) results)) /\
    last_res (concat (map (fun ir => map (T affine scale (fst ir)) (body (snd ir))) (combine (seq 0 n) results)))
      = Ok (r_final (m_res m)) /\
    r_gt (m_res m) = gt.
  Proof.
    unfold multi_nonparametric. destruct (negb (length results =? n)) eqn:En; [discriminate|].
    apply negb_false_iff, Nat.eqb_eq in En. subst n.
    destruct (nth_res results 0) as [r0|] eqn:E0; cbn [bind]; [|discriminate].
    match goal with |- context [bind ?x _ = _] => destruct x as [ini|] eqn:Ei; cbn [bind]; [|discriminate] end.
    match goal with |- context [bind ?x _ = _] => destruct x as [ps|] eqn:Eps; cbn [bind]; [|discriminate] end.
    match goal with |- context [bind ?x _ = _] => destruct x as [b|] eqn:Eb; cbn [bind]; [|discriminate] end.
    match goal with |- context [bind ?x _ = _] => destruct x as [c|] eqn:Ec; cbn [bind]; [|discriminate] end.
    intros [= <-]. cbn [m_res r_initial r_shapes r_final r_gt].
    apply (mapM_index_inv _ (fun i r => (r_n_iters r, map (T affine scale i) (body r))) results []) in Eps.
    2: { intros i x y Hx Hy. cbn [app] in Hx. unfold nth_res at 1 in Hy. rewrite Hx in Hy. cbn [bind] in Hy.
         destruct (nth_res affine i) as [a|] eqn:Ea; cbn [bind] in Hy; [|discriminate].
         destruct (nth_res scale i) as [s|] eqn:Es; cbn [bind] in Hy; [|discriminate].
         injection Hy as <-. unfold T, body, rescale_shapes.
         rewrite (nth_res_nth _ _ _ (fun y => y) Ea), (nth_res_nth _ _ _ (fun y => y) Es). reflexivity. }
    apply nonparametric_inv in Eb. destruct Eb as (f & Hf & ->). cbn [r_initial r_shapes r_final r_gt].
    assert (Esnd : map snd ps = map (fun ir => map (T affine scale (fst ir)) (body (snd ir)))
                                    (combine (seq 0 (length results)) results)).
    { rewrite Eps, map_map. reflexivity. }
    rewrite Esnd in *. split; [reflexivity|]. split.
    - destruct results as [|r results]; [discriminate|]. injection E0 as <-.
      destruct (r_initial r) as [i|]; [|injection Ei as <-; reflexivity].
      destruct (nth_res affine 0) as [a|] eqn:Ea; cbn [bind] in Ei; [|discriminate].
      destruct (nth_res scale 0) as [s|] eqn:Es; cbn [bind] in Ei; [|discriminate].
      cbn in Ei. injection Ei as <-. cbn [option_map]. unfold T.
      rewrite (nth_res_nth _ _ _ (fun y => y) Ea), (nth_res_nth _ _ _ (fun y => y) Es). reflexivity.
    - split; [destruct ini; reflexivity|]. split; [exact Hf|reflexivity].
  Qed.
End Arbitrary.
