(** C89: the default deformation tree of active pictorial structures. *)
From Coq Require Import List Reals Arith Bool Lia Lra Permutation.
From Verif.Model Require Import Py Result ApsGraph.
From Verif.Spec Require Import ApsGraph.
From Verif.Proofs Require ApsGraph.
Import ListNotations.
Local Open Scope R_scope.

(** No pair of landmarks is missing from the graph. *)
Definition complete (n : nat) (g : graph) : Prop := forall i j, (i < j < n)%nat -> In (i, j) (map fst g).

Lemma complete_clean n shapes g : annotated n shapes -> (2 <= length shapes)%nat ->
  complete_graph shapes = Ok g -> complete n g -> ApsGraph.clean n shapes.
Proof.
  intros Ha HN Hg Hc.
  assert (Hs : forall i j, (i < j < n)%nat -> spread shapes i j <> 0).
  { intros i j Hij H0. unfold complete_graph in Hg.
    rewrite (ApsGraph.all_weights_err n shapes Ha HN i j Hij H0) in Hg.
    destruct (nth_res shapes 0); discriminate. }
  intros i j Hij. split; [now apply Hs|]. intro Hw.
  unfold complete_graph in Hg. rewrite (ApsGraph.all_weights_ok n shapes Ha HN Hs) in Hg.
  destruct (nth_res shapes 0) as [s|]; [cbn [bind] in Hg|discriminate].
  destruct (isolated _ _); [discriminate|]. injection Hg as <-.
  specialize (Hc i j Hij). apply in_map_iff in Hc. destruct Hc as ([e w] & He & Hin). cbn [fst] in He. subst e.
  apply filter_In in Hin. destruct Hin as [Hin Hp]. apply in_map_iff in Hin. destruct Hin as ([i' j'] & Hx & _).
  injection Hx as -> -> <-. cbn [fst snd] in Hp. unfold present in Hp. cbn [snd] in Hp.
  destruct (Req_EM_T _ 0); [discriminate|contradiction].
Qed.

(** The tree is one of those with the least product of spreads, whatever the number of images. *)
Theorem c89_least_spread : forall n shapes g t,
  annotated n shapes -> (2 <= length shapes)%nat -> (2 <= n)%nat ->
  complete_graph shapes = Ok g -> complete n g ->
  (minimum_spanning_tree n g t <->
   spanning n t /\ forall t', spanning n t' -> product (spread shapes) t <= product (spread shapes) t').
Proof.
  intros n shapes g t Ha HN Hn Hg Hc.
  exact (ApsGraph.tree_iff n shapes Ha HN t (complete_clean _ _ _ Ha HN Hg Hc) Hn g Hg).
Qed.

(** Without images, with one image, and exactly when it fails with more. *)
Theorem c89_no_image : complete_graph [] = Err IndexError.
Proof. reflexivity. Qed.

Theorem c89_one_image : forall n s, length s = n -> (2 <= n)%nat -> complete_graph [s] = Err ValueError.
Proof.
  intros n s Hl Hn. unfold complete_graph, all_weights. cbn [nth_res nth_error bind].
  rewrite ApsGraph.mapM_err with (e := ValueError); [reflexivity| |].
  - rewrite Hl. intro H. assert (Hin : In (0, 1)%nat (pairs n)) by (apply ApsGraph.pairs_iff; lia).
    rewrite H in Hin. contradiction.
  - intros [i j] Hij. rewrite Hl in Hij. apply ApsGraph.pairs_iff in Hij. unfold weight. cbn [fst snd].
    rewrite (ApsGraph.diffs_ok n) by (lia || (intros x [<-|[]]; exact Hl)). reflexivity.
Qed.

Theorem c89_singular_iff : forall n shapes, annotated n shapes -> (2 <= length shapes)%nat ->
  complete_graph shapes = Err LinAlgError <-> exists i j, (i < j < n)%nat /\ on_a_line shapes i j.
Proof.
  intros n shapes Ha HN. unfold complete_graph. split.
  - intro H.
    destruct (nth_res shapes 0) as [s|e] eqn:Hs;
      [cbn [bind] in H|destruct (ApsGraph.first_shape n shapes Ha HN) as (? & ? & _); congruence].
    destruct (all_weights shapes) as [ws|e] eqn:Hw; cbn [bind] in H; [destruct (isolated _ _); discriminate|].
    assert (Hd : forall l, (forall e0, In e0 l -> (fst e0 < snd e0 < n)%nat) ->
       (exists i j, In (i, j) l /\ spread shapes i j = 0) \/ (forall i j, In (i, j) l -> spread shapes i j <> 0)).
    { clear. induction l as [|[i j] l IH]; intros Hl; [right; intros ? ? []|].
      destruct (Req_EM_T (spread shapes i j) 0) as [H0|H0]; [left; exists i, j; split; [now left|exact H0]|].
      destruct IH as [(i' & j' & Hin & H')|H']; [intros; apply Hl; now right|left; exists i', j'; split; [now right|exact H']|].
      right. intros i' j' [[= <- <-]|Hin]; [exact H0|now apply H']. }
    destruct (Hd (pairs n)) as [(i & j & Hin & H0)|H0].
    { intros [i j] Hij. now apply ApsGraph.pairs_iff in Hij. }
    + exists i, j. split; [now apply ApsGraph.pairs_iff|]. now apply ApsGraph.spread_zero_iff.
    + rewrite (ApsGraph.all_weights_ok n shapes Ha HN) in Hw; [discriminate|].
      intros i j Hij. apply H0. now apply ApsGraph.pairs_iff.
  - intros (i & j & Hij & Hl). apply ApsGraph.spread_zero_iff in Hl; [|exact HN].
    rewrite (ApsGraph.all_weights_err n shapes Ha HN i j Hij Hl).
    destruct (ApsGraph.first_shape n shapes Ha HN) as (s & Hs0 & _). rewrite Hs0. reflexivity.
Qed.

(** Two images never suffice. *)
Theorem c89_two_images_refuted : forall n s s', length s = n -> length s' = n -> (2 <= n)%nat ->
  complete_graph [s; s'] = Err LinAlgError.
Proof.
  intros n s s' Hs Hs' Hn. apply (c89_singular_iff n).
  - intros x [<-|[<-|[]]]; assumption.
  - cbn. lia.
  - exists 0%nat, 1%nat. split; [lia|].
    destruct (Req_EM_T (fst (rel s 0 1)) (fst (rel s' 0 1))) as [Hx|Hx].
    + exists 1, 0, (fst (rel s 0 1)). split; [left; lra|]. intros x [<-|[<-|[]]]; lra.
    + exists (snd (rel s 0 1) - snd (rel s' 0 1)), (fst (rel s' 0 1) - fst (rel s 0 1)),
             (fst (rel s' 0 1) * snd (rel s 0 1) - fst (rel s 0 1) * snd (rel s' 0 1)).
      split; [right; lra|]. intros x [<-|[<-|[]]]; ring.
Qed.

(** Neither the order of the images, nor where each face lies in its image, nor the common units, rotation or
    skew of all images matter. *)
Theorem c89_order : forall n shapes shapes' g g' t,
  annotated n shapes -> (2 <= length shapes)%nat -> (2 <= n)%nat -> Permutation shapes shapes' ->
  complete_graph shapes = Ok g -> complete n g -> complete_graph shapes' = Ok g' -> complete n g' ->
  (minimum_spanning_tree n g t <-> minimum_spanning_tree n g' t).
Proof.
  intros n shapes shapes' g g' t Ha HN Hn HP Hg Hc Hg' Hc'.
  assert (Ha' : annotated n shapes') by (intros s Hs; apply Ha; now apply Permutation_sym in HP; apply (Permutation_in s HP)).
  rewrite (c89_least_spread n shapes g) by assumption.
  rewrite (c89_least_spread n shapes' g') by (rewrite <- ?(Permutation_length HP); assumption).
  assert (Hp : forall t, product (spread shapes') t = product (spread shapes) t).
  { intro t0. induction t0 as [|[i j] t0 IH]; cbn [product]; [reflexivity|].
    cbn [fst snd]. now rewrite IH, (ApsGraph.spread_perm _ _ i j HP). }
  split; intros [Ht Hm]; (split; [exact Ht|]); intros t' Ht'; specialize (Hm t' Ht'); rewrite !Hp in *; exact Hm.
Qed.

Theorem c89_units : forall n a b c d shapes shapes' g g' t,
  annotated n shapes -> (2 <= length shapes)%nat -> (2 <= n)%nat ->
  a * d - b * c <> 0 -> Forall2 (moved_as a b c d) shapes shapes' ->
  complete_graph shapes = Ok g -> complete n g -> complete_graph shapes' = Ok g' -> complete n g' ->
  (minimum_spanning_tree n g t <-> minimum_spanning_tree n g' t).
Proof.
  intros n a b c d shapes shapes' g g' t Ha HN Hn Hdet HF Hg Hc Hg' Hc'.
  assert (Ha' : annotated n shapes').
  { intros s' Hs'. clear - Ha HF Hs'. induction HF as [|s s1 l l' (u & v & ->) HF IH]; [contradiction|].
    destruct Hs' as [<-|Hs']; [rewrite map_length; apply Ha; now left|].
    apply IH; [|exact Hs']. intros x Hx. apply Ha. now right. }
  assert (HN' : (2 <= length shapes')%nat).
  { clear - HN HF. replace (length shapes') with (length shapes); [exact HN|]. clear HN. induction HF; cbn; congruence. }
  rewrite (c89_least_spread n shapes g), (c89_least_spread n shapes' g') by assumption.
  assert (Hp : forall t, spanning n t ->
            product (spread shapes') t = ((a * d - b * c) * (a * d - b * c)) ^ (n - 1) * product (spread shapes) t).
  { intros t0 (Hl & Hi & _). rewrite <- Hl. apply ApsGraph.product_scaled.
    intros i j Hij. apply Hi in Hij. apply (ApsGraph.spread_moved a b c d n); auto; try lia.
    intros ->. cbn in HN. lia. }
  assert (Hk : 0 < ((a * d - b * c) * (a * d - b * c)) ^ (n - 1)).
  { apply pow_lt. exact (Rsqr_pos_lt _ Hdet). }
  split; intros [Ht Hm]; (split; [exact Ht|]); intros t' Ht'; specialize (Hm t' Ht').
  - rewrite !Hp by assumption. apply Rmult_le_compat_l; lra.
  - rewrite !Hp in Hm by assumption. exact (Rmult_le_reg_l _ _ _ Hk Hm).
Qed.

(** Graphs that were given are kept; the others become the tree of the first batch, whatever follows. *)
Theorem c89_first_batch : forall (G : Type) (mst : list rshape -> res G) graphs b bs r,
  after_batches mst graphs (b :: bs) = Ok r ->
  length r = length graphs /\
  forall j, (forall given, nth_error graphs j = Some (Some given) -> nth_error r j = Some (Some given)) /\
            (nth_error graphs j = Some None -> exists t, mst b = Ok t /\ nth_error r j = Some (Some t)).
Proof.
  intros G mst graphs b bs r H. cbn [after_batches] in H.
  assert (Hkeep : forall gs bs, (forall g, In g gs -> g <> None) -> after_batches mst gs bs = Ok gs).
  { clear. intros gs bs Hg. induction bs as [|b bs IH]; [reflexivity|]. cbn [after_batches]. unfold deformation_graphs.
    destruct (existsb _ gs) eqn:He; [|exact IH]. exfalso. apply existsb_exists in He.
    destruct He as ([g|] & Hin & He); [discriminate|]. exact (Hg None Hin eq_refl). }
  unfold deformation_graphs in H. destruct (existsb _ graphs) eqn:He.
  - destruct (mst b) as [t|e]; cbn [bind] in H; [|discriminate].
    rewrite Hkeep in H.
    2:{ intros g Hg. apply in_map_iff in Hg. destruct Hg as ([x|] & <- & _); discriminate. }
    injection H as <-. split; [apply map_length|]. intro j. rewrite nth_error_map. split.
    + intros given Hj. rewrite Hj. reflexivity.
    + intros Hj. rewrite Hj. exists t. split; reflexivity.
  - assert (Hn : forall g, In g graphs -> g <> None).
    { intros g Hg ->. rewrite <- not_true_iff_false in He. apply He. apply existsb_exists. exists None. auto. }
    cbn [bind] in H. rewrite Hkeep in H by assumption. injection H as <-. split; [reflexivity|]. intro j.
    split; [auto|]. intros Hj. apply nth_error_In in Hj. now apply Hn in Hj.
Qed.

(** *** Instances: landmark 1 in the origin, the relative positions of three images in the corners of a
    right-angled triangle. *)
Definition face (x01 y01 x12 y12 : R) : rshape := [(x01, y01); (0, 0); (- x12, - y12)].
Definition three (k l : R) : list rshape := [face 0 0 0 0; face k 0 l 0; face 0 k 0 l].

Lemma three_spread01 k l : spread (three k l) 0 1 = k ^ 4 / 12.
Proof. unfold spread, covar, average. cbn [total rel at_ nth fst snd three face length INR]. field. Qed.
Lemma three_spread12 k l : spread (three k l) 1 2 = l ^ 4 / 12.
Proof. unfold spread, covar, average. cbn [total rel at_ nth fst snd three face length INR]. field. Qed.
Lemma three_spread02 k l : spread (three k l) 0 2 = (k + l) ^ 4 / 12.
Proof. unfold spread, covar, average. cbn [total rel at_ nth fst snd three face length INR]. field. Qed.

Lemma three_annotated k l : annotated 3 (three k l).
Proof. intros s [<-|[<-|[<-|[]]]]; reflexivity. Qed.

Lemma large_spread_clean n shapes : (2 <= length shapes)%nat ->
  (forall i j, (i < j < n)%nat -> 1 <= spread shapes i j) -> ApsGraph.clean n shapes.
Proof.
  intros HN H i j Hij. specialize (H i j Hij). split; [lra|].
  pose proof (ApsGraph.two_images_INR _ HN) as H1. unfold ApsGraph.weight_of.
  assert (H2 : 0 <= ln (spread shapes i j)).
  { rewrite <- ln_1. destruct H as [H| <-]; [left; apply ln_increasing; lra|right; reflexivity]. }
  assert (H3 : 0 < ln (2 * PI)).
  { rewrite <- ln_1. apply ln_increasing; [lra|]. generalize PI2_1. lra. }
  assert (0 < INR (length shapes) * ln (2 * PI)) by (apply Rmult_lt_0_compat; lra).
  assert (0 <= INR (length shapes) / 2 * ln (spread shapes i j)) by (apply Rmult_le_pos; lra). lra.
Qed.

Lemma large_spread_graph n shapes : annotated n shapes -> (2 <= length shapes)%nat -> (2 <= n)%nat ->
  (forall i j, (i < j < n)%nat -> 1 <= spread shapes i j) ->
  exists g, complete_graph shapes = Ok g /\ complete n g.
Proof.
  intros Ha HN Hn H. pose proof (large_spread_clean n shapes HN H) as Hc.
  eexists. split.
  - apply (ApsGraph.complete_graph_ok n shapes Ha HN Hn); intros; now apply Hc.
  - intros i j Hij. rewrite map_map. cbn [fst]. rewrite map_id. now apply ApsGraph.pairs_iff.
Qed.

Lemma pairs3 i j : (i < j < 3)%nat -> (i, j) = (0, 1)%nat \/ (i, j) = (1, 2)%nat \/ (i, j) = (0, 2)%nat.
Proof.
  intros H. destruct i as [|[|[|i]]]; try lia; destruct j as [|[|[|j]]]; try lia; auto.
Qed.

Lemma chain_spans : spanning 3 [(0, 1); (1, 2)]%nat.
Proof.
  split; [reflexivity|]. split.
  - intros i j [[= <- <-]|[[= <- <-]|[]]]; lia.
  - assert (H0 : linked [(0, 1); (1, 2)]%nat 0) by constructor.
    assert (H1 : linked [(0, 1); (1, 2)]%nat 1) by (apply (linked_up _ 0 1); [now left|exact H0]).
    assert (H2 : linked [(0, 1); (1, 2)]%nat 2) by (apply (linked_up _ 1 2); [now (right; left)|exact H1]).
    intros v Hv. destruct v as [|[|[|v]]]; [assumption..|lia].
Qed.
Lemma star_spans : spanning 3 [(0, 1); (0, 2)]%nat.
Proof.
  split; [reflexivity|]. split.
  - intros i j [[= <- <-]|[[= <- <-]|[]]]; lia.
  - assert (H0 : linked [(0, 1); (0, 2)]%nat 0) by constructor.
    assert (H1 : linked [(0, 1); (0, 2)]%nat 1) by (apply (linked_up _ 0 1); [now left|exact H0]).
    assert (H2 : linked [(0, 1); (0, 2)]%nat 2) by (apply (linked_up _ 0 2); [now (right; left)|exact H0]).
    intros v Hv. destruct v as [|[|[|v]]]; [assumption..|lia].
Qed.

Lemma pair_edges_differ e e' : spanning 3 [e; e'] -> e <> e'.
Proof.
  intros (_ & Hi & Hl) <-. destruct e as [i j]. specialize (Hi i j (or_introl eq_refl)).
  assert (H : forall v, linked [(i, j); (i, j)] v -> v = 0%nat \/ i = 0%nat /\ v = j).
  { induction 1 as [|a b Hin Hl' IH|a b Hin Hl' IH]; [now left|..];
      destruct Hin as [[= -> ->]|[[= -> ->]|[]]]; destruct IH as [IH|IH]; lia. }
  assert (H1 := H 1%nat (Hl 1%nat ltac:(lia))). assert (H2 := H 2%nat (Hl 2%nat ltac:(lia))). lia.
Qed.

(** Of three faces whose chin (2) follows the nose (1) closely and whose eye (0) does less, the tree is the
    chain eye - nose - chin. *)
Lemma chain_least : forall t', spanning 3 t' -> product (spread (three 6 2)) [(0, 1); (1, 2)]%nat <= product (spread (three 6 2)) t'.
Proof.
  intros t' Ht'. pose proof Ht' as (Hl & Hi & _). destruct t' as [|[i j] [|[i' j'] [|]]]; try discriminate.
  pose proof (pair_edges_differ _ _ Ht') as Hne.
  destruct (pairs3 i j) as [[= -> ->]|[[= -> ->]|[= -> ->]]]; [apply Hi; now left|..];
  destruct (pairs3 i' j') as [[= -> ->]|[[= -> ->]|[= -> ->]]]; try (apply Hi; now right; left); try congruence;
  cbn [product fst snd]; rewrite ?three_spread01, ?three_spread12, ?three_spread02; lra.
Qed.

Lemma three_large i j : (i < j < 3)%nat -> 1 <= spread (three 6 2) i j.
Proof.
  intros H. destruct (pairs3 i j H) as [[= -> ->]|[[= -> ->]|[= -> ->]]];
    rewrite ?three_spread01, ?three_spread12, ?three_spread02; lra.
Qed.

Example c89_ex : exists g, complete_graph (three 6 2) = Ok g /\ complete 3 g /\
  minimum_spanning_tree 3 g [(0, 1); (1, 2)]%nat.
Proof.
  destruct (large_spread_graph 3 (three 6 2)) as (g & Hg & Hc);
    [apply three_annotated|cbn; lia|lia|apply three_large|].
  exists g. split; [exact Hg|]. split; [exact Hc|].
  apply (c89_least_spread 3 (three 6 2) g); [apply three_annotated|cbn; lia|lia|exact Hg|exact Hc|].
  split; [exact chain_spans|exact chain_least].
Qed.

(** *** Findings *)

(** Trained in two batches, the tree is not the one of the whole training set. *)
Theorem c89_batches_refuted : exists b b' g g' t,
  complete_graph b = Ok g /\ minimum_spanning_tree 3 g t /\
  complete_graph (b ++ b') = Ok g' /\ complete 3 g' /\ ~ minimum_spanning_tree 3 g' t.
Proof.
  set (all := three 6 2 ++ three 20 (-20)).
  assert (Ha : annotated 3 all).
  { intros s Hs. apply in_app_or in Hs. destruct Hs as [Hs|Hs]; exact (three_annotated _ _ s Hs). }
  assert (H01 : spread all 0 1 = 275552 / 75).
  { unfold all, spread, covar, average. cbn [total rel at_ nth fst snd three face length app INR]. field. }
  assert (H12 : spread all 1 2 = 119584 / 25).
  { unfold all, spread, covar, average. cbn [total rel at_ nth fst snd three face length app INR]. field. }
  assert (H02 : spread all 0 2 = 8192 / 75).
  { unfold all, spread, covar, average. cbn [total rel at_ nth fst snd three face length app INR]. field. }
  destruct c89_ex as (g & Hg & _ & Ht).
  destruct (large_spread_graph 3 all) as (g' & Hg' & Hc'); [exact Ha|cbn; lia|lia| |].
  { intros i j H. destruct (pairs3 i j H) as [[= -> ->]|[[= -> ->]|[= -> ->]]]; rewrite ?H01, ?H12, ?H02; lra. }
  exists (three 6 2), (three 20 (-20)), g, g', [(0, 1); (1, 2)]%nat.
  split; [exact Hg|]. split; [exact Ht|]. split; [exact Hg'|]. split; [exact Hc'|].
  intro H. apply (c89_least_spread 3 all g') in H; [|exact Ha|cbn; lia|lia|exact Hg'|exact Hc'].
  destruct H as [_ H]. specialize (H _ star_spans). cbn [product fst snd] in H.
  rewrite H01, H12, H02 in H. lra.
Qed.

(** The units do matter when a weight happens to be exactly zero: the pair then counts as unconnected. *)
Definition two_points (k : R) : list rshape := [[(0, 0); (0, 0)]; [(k, 0); (0, 0)]; [(0, k); (0, 0)]].
Theorem c89_zero_weight_refuted : exists shapes,
  annotated 2 shapes /\ ~ on_a_line shapes 0 1 /\
  complete_graph shapes = Err ValueError /\
  exists g k, complete_graph (map (map (fun p => (k * fst p, k * snd p))) shapes) = Ok g /\ complete 2 g.
Proof.
  assert (Hspread : forall k, spread (two_points k) 0 1 = k ^ 4 / 12).
  { intro k. unfold spread, covar, average. cbn [total rel at_ nth fst snd two_points length INR]. field. }
  set (v := exp (- (4 / 3) - 2 * ln (2 * PI))).
  set (k := exp (/ 4 * ln (12 * v))).
  assert (Hv : 0 < v) by apply exp_pos.
  assert (Hk4 : k ^ 4 = 12 * v).
  { transitivity (exp (ln (12 * v))).
    - replace (ln (12 * v)) with (/ 4 * ln (12 * v) + / 4 * ln (12 * v) + / 4 * ln (12 * v) + / 4 * ln (12 * v)) by field.
      rewrite !exp_plus. fold k. ring.
    - apply exp_ln. lra. }
  assert (Hk : 0 < k) by apply exp_pos.
  assert (Ha : annotated 2 (two_points k)) by (intros s [<-|[<-|[<-|[]]]]; reflexivity).
  assert (HN : (2 <= length (two_points k))%nat) by (cbn; lia).
  assert (Hs : spread (two_points k) 0 1 = v) by (rewrite Hspread, Hk4; field).
  assert (Hs0 : forall i j, (i < j < 2)%nat -> spread (two_points k) i j <> 0).
  { intros i j Hij. assert (i = 0 /\ j = 1)%nat as [-> ->] by lia. rewrite Hs. lra. }
  exists (two_points k). split; [exact Ha|]. split; [|split].
  - intro H. apply ApsGraph.spread_zero_iff in H; [|exact HN]. rewrite Hs in H. lra.
  - unfold complete_graph. rewrite (ApsGraph.all_weights_ok 2 _ Ha HN Hs0).
    cbn [nth_res nth_error two_points bind length pairs seq Nat.sub flat_map map app filter fst snd].
    assert (Hw : ApsGraph.weight_of (two_points k) 0 1 = 0).
    { unfold ApsGraph.weight_of. rewrite Hs. unfold v. rewrite ln_exp. cbn [two_points length INR]. field. }
    unfold present. cbn [snd fst]. fold (two_points k).
    destruct (Req_EM_T _ 0) as [_|H]; [reflexivity|contradiction].
  - assert (Hk2 : map (map (fun p => (2 / k * fst p, 2 / k * snd p))) (two_points k) = two_points 2).
    { unfold two_points. cbn [map fst snd]. repeat (f_equal; try (field; lra)). }
    destruct (large_spread_graph 2 (two_points 2)) as (g & Hg & Hc).
    + intros s [<-|[<-|[<-|[]]]]; reflexivity.
    + cbn; lia.
    + lia.
    + intros i j Hij. assert (i = 0 /\ j = 1)%nat as [-> ->] by lia. rewrite Hspread. lra.
    + exists g, (2 / k). rewrite Hk2. split; assumption.
Qed.

Print Assumptions c89_least_spread.
Print Assumptions c89_no_image.
Print Assumptions c89_one_image.
Print Assumptions c89_singular_iff.
Print Assumptions c89_two_images_refuted.
Print Assumptions c89_order.
Print Assumptions c89_units.
Print Assumptions c89_first_batch.
Print Assumptions c89_batches_refuted.
Print Assumptions c89_zero_weight_refuted.
