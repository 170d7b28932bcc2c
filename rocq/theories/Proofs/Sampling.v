From Coq Require Import List ZArith Bool Lia Sorting.Sorted.
From Verif.Model Require Import Py Sampling.
From Verif.Spec Require Import Sampling.
Import ListNotations.
Local Open Scope nat_scope.

Lemma nonzero_from_shift l : forall o, nonzero_from o l = map (fun i => o + i) (nonzero l).
Proof.
  unfold nonzero. induction l as [|b l IH]; intros o; [reflexivity|]. cbn [nonzero_from]. rewrite (IH (S o)), (IH 1).
  assert (X : map (fun i => S o + i) (nonzero_from 0 l) = map (fun i => o + i) (map (fun i => 1 + i) (nonzero_from 0 l))).
  { rewrite map_map. apply map_ext. intros; lia. }
  destruct b; cbn [map]; rewrite X; [rewrite Nat.add_0_r|]; reflexivity.
Qed.
Lemma nonzero_app a b : nonzero (a ++ b) = nonzero a ++ map (fun i => length a + i) (nonzero b).
Proof.
  unfold nonzero. assert (X : forall o, nonzero_from o (a ++ b) = nonzero_from o a ++ nonzero_from (o + length a) b).
  { induction a as [|x a IH]; intros o; cbn [nonzero_from app length]; [rewrite Nat.add_0_r; reflexivity|]. rewrite IH.
    replace (S o + length a) with (o + S (length a)) by lia. destruct x; reflexivity. }
  rewrite X. f_equal. apply nonzero_from_shift.
Qed.
Lemma nonzero_spec l : positions l (nonzero l).
Proof.
  induction l as [|b l [S P]] using rev_ind; [split; [constructor|]; intros i; split; [intros []|destruct i; discriminate]|].
  rewrite nonzero_app. assert (L : forall i, In i (nonzero l) -> i < length l) by (intros i Hi; apply P in Hi; apply nth_error_Some; congruence).
  split.
  - destruct b; cbn [nonzero nonzero_from map]; [|rewrite app_nil_r; exact S]. rewrite Nat.add_0_r.
    clear P. induction S as [|x r SR IH F]; cbn [app]; [constructor; constructor|]. constructor.
    + apply IH. intros i Hi. apply L. now right.
    + apply Forall_app. split; [exact F|]. constructor; [apply L; now left|constructor].
  - intros i. rewrite in_app_iff, P. destruct (Nat.lt_trichotomy i (length l)) as [H|[->|H]].
    + rewrite nth_error_app1 by exact H. split; [intros [H1|H1]; [exact H1|]|auto]. destruct b; cbn in H1; [|contradiction]. destruct H1 as [H1|[]]. lia.
    + rewrite nth_error_app2, Nat.sub_diag by lia. assert (N : nth_error l (length l) = None) by (apply nth_error_None; lia). rewrite N. cbn [nth_error].
      destruct b; cbn; (split; intros H); [reflexivity|right; left; lia|destruct H as [H|[]]; discriminate|discriminate].
    + assert (N : nth_error l i = None) by (apply nth_error_None; lia). rewrite N. rewrite (proj2 (nth_error_None (l ++ [b]) i)) by (rewrite app_length; cbn; lia).
      split; [|discriminate]. intros [H1|H1]; [discriminate|]. destruct b; cbn in H1; [|contradiction]. destruct H1 as [H1|[]]. lia.
Qed.
Lemma positions_unique m a b : positions m a -> positions m b -> a = b.
Proof.
  intros [Sa Pa] [Sb Pb]. assert (E : forall i, In i a <-> In i b) by (intros; rewrite Pa, Pb; reflexivity). clear Pa Pb. revert b Sb E.
  induction Sa as [|x a Sa IH F]; intros b Sb E.
  - destruct b as [|y b]; [reflexivity|]. exfalso. apply (E y). now left.
  - destruct Sb as [|y b Sb G]; [exfalso; apply (E x); now left|]. rewrite Forall_forall in F, G.
    assert (XY : x = y).
    { destruct (proj1 (E x) (or_introl eq_refl)) as [H|H]; [auto|]. destruct (proj2 (E y) (or_introl eq_refl)) as [H'|H']; [auto|].
      specialize (F _ H'). specialize (G _ H). lia. }
    subst y. f_equal. apply IH; [exact Sb|]. intros i. split; intros H.
    + destruct (proj1 (E i) (or_intror H)) as [<-|H']; [|exact H']. specialize (F _ H). lia.
    + destruct (proj2 (E i) (or_intror H)) as [<-|H']; [|exact H']. specialize (G _ H). lia.
Qed.
Lemma set_nth_length i : forall l, length (set_nth i l) = length l.
Proof. induction i as [|i IH]; intros [|b l]; cbn; auto. Qed.
Lemma set_nth_get i : forall l j, nth_error (set_nth i l) j = if Nat.eqb i j then (if j <? length l then Some true else None) else nth_error l j.
Proof.
  induction i as [|i IH]; intros [|b l] [|j]; cbn; auto.
  - destruct (i =? j); reflexivity.
  - rewrite IH. destruct (i =? j) eqn:E; [|reflexivity]. unfold Nat.ltb. cbn. reflexivity.
Qed.
Lemma mask_of_length n idx : length (mask_of n idx) = n.
Proof.
  unfold mask_of. rewrite <- (repeat_length false n) at 2. generalize (repeat false n). induction idx as [|i idx IH]; intros m; cbn [fold_left]; [reflexivity|].
  rewrite IH. apply set_nth_length.
Qed.
Lemma mask_of_get n idx j : nth_error (mask_of n idx) j = Some true <-> j < n /\ In j idx.
Proof.
  unfold mask_of. assert (X : forall m, nth_error (fold_left (fun m i => set_nth i m) idx m) j = Some true <-> nth_error m j = Some true \/ (j < length m /\ In j idx)).
  { induction idx as [|i idx IH]; intros m; cbn [fold_left]; [cbn; tauto|]. rewrite IH, set_nth_length, set_nth_get. destruct (Nat.eqb_spec i j) as [->|N].
    - destruct (Nat.ltb_spec j (length m)); cbn [In]; split; intros H0; try tauto.
      + destruct H0 as [H0|H0]; [discriminate|lia].
      + exfalso. destruct H0 as [H0|[H0 _]]; [|lia]. assert (nth_error m j = None) by (apply nth_error_None; lia). congruence.
    - cbn [In]. split; intros H0; [tauto|]. destruct H0 as [H0|[H0 [H1|H1]]]; tauto. }
  rewrite X, repeat_length. split; [intros [H|H]; [|exact H]|now right]. exfalso.
  assert (j < n) by (rewrite <- (repeat_length false n); apply nth_error_Some; congruence). rewrite nth_error_repeat in H by exact H0. discriminate.
Qed.
Lemma range_spec n step r : py_range n step = Ok r -> (0 < step)%Z -> forall i, In i r <-> i < n /\ i mod Z.to_nat step = 0.
Proof.
  unfold py_range. destruct (Z.eqb_spec step 0); [discriminate|]. destruct (Z.ltb_spec step 0); [intros _ ?; lia|]. cbn zeta. intros E P. injection E as <-.
  set (k := Z.to_nat step). assert (K : k > 0) by (unfold k; lia). intros i. rewrite in_map_iff. split.
  - intros [x [<- H1]]. apply in_seq in H1. split; [|apply Nat.mod_mul; lia].
    assert (H2 : x < (n + k - 1) / k) by lia. pose proof (Nat.mul_div_le (n + k - 1) k). nia.
  - intros [L M]. exists (i / k). pose proof (Nat.div_mod i k). split; [lia|]. apply in_seq. split; [lia|]. cbn.
    apply Nat.div_le_lower_bound; [lia|]. rewrite Nat.mul_succ_r. lia.
Qed.
Lemma nonzero_tile k m : nonzero (tile k m) = flat_map (fun c => map (fun i => c * length m + i) (nonzero m)) (seq 0 k).
Proof.
  unfold tile. assert (X : forall o, map (fun i => o * length m + i) (nonzero (concat (repeat m k))) = flat_map (fun c => map (fun i => c * length m + i) (nonzero m)) (seq o k)).
  { induction k as [|k IH]; intros o; [reflexivity|]. cbn [repeat concat seq flat_map]. rewrite nonzero_app, map_app, map_map. f_equal. rewrite <- IH, <- map_ext with (f := fun i => S o * length m + i); [reflexivity|].
    intros i. cbn. lia. }
  rewrite <- X. cbn. rewrite map_id. reflexivity.
Qed.
Lemma nonzero_widen p m : nonzero (concat (map (fun b => repeat b p) m)) = flat_map (fun i => map (fun q => i * p + q) (seq 0 p)) (nonzero m).
Proof.
  assert (T : nonzero (repeat true p) = seq 0 p).
  { unfold nonzero. generalize 0. induction p as [|p IH]; intros o; cbn; [reflexivity|]. rewrite IH. reflexivity. }
  assert (Fa : forall p, nonzero (repeat false p) = []).
  { intros q. unfold nonzero. generalize 0. induction q as [|q IH]; intros o; cbn; auto. }
  induction m as [|b m IH] using rev_ind; [reflexivity|].
  assert (LC : length (concat (map (fun b => repeat b p) m)) = length m * p).
  { clear. induction m as [|b m IH]; cbn; [reflexivity|]. rewrite app_length, repeat_length, IH. reflexivity. }
  rewrite map_app, concat_app, !nonzero_app, IH, flat_map_app. f_equal. cbn [map concat]. rewrite app_nil_r, LC.
  destruct b; [rewrite T|rewrite Fa]; cbn; [rewrite Nat.add_0_r, app_nil_r|]; reflexivity.
Qed.
Lemma flat_map_length {A B} (f : A -> list B) n l : (forall x, In x l -> length (f x) = n) -> length (flat_map f l) = length l * n.
Proof. intros H. induction l as [|x l IH]; cbn; [reflexivity|]. rewrite app_length, H by now left. rewrite IH; [reflexivity|]. intros; apply H; now right. Qed.
Lemma nth_flat_map {A B} (f : A -> list B) n l c k x d : (forall x, In x l -> length (f x) = n) -> nth_error l c = Some x -> k < n ->
  nth (c * n + k) (flat_map f l) d = nth k (f x) d.
Proof.
  revert c. induction l as [|y l IH]; intros [|c] H E K; try discriminate; cbn [nth_error] in E.
  - injection E as ->. cbn [flat_map]. rewrite app_nth1 by (rewrite H by (now left); lia). reflexivity.
  - cbn [flat_map]. rewrite app_nth2 by (rewrite H by (now left); nia). rewrite (H y (or_introl eq_refl)). replace (S c * n + k - n) with (c * n + k) by lia.
    apply IH; auto. intros; apply H; now right.
Qed.
Lemma seq_nth_error n c : c < n -> nth_error (seq 0 n) c = Some c.
Proof. intros H. rewrite (nth_error_nth' _ 0) by (rewrite seq_length; exact H). rewrite seq_nth by exact H. reflexivity. Qed.
Lemma nth_map0 {A B} (f : A -> B) l k d d' : k < length l -> nth k (map f l) d = f (nth k l d').
Proof. intros H. rewrite (nth_indep _ d (f d')) by (rewrite map_length; exact H). apply map_nth. Qed.

Section Use.
  Context {R : Type} (zero : R) (add mul : R -> R -> R).
  Variable m : list bool.
  Notation N := (length m).
  Notation K := (length (nonzero m)).
  Notation px k := (nth k (nonzero m) 0).
  Lemma gather_length (v : list R) idx : length (gather zero v idx) = length idx.
  Proof. apply map_length. Qed.
  Lemma i_mask_nth C c k : c < C -> k < K -> nth (c * K + k) (i_mask C m) 0 = c * N + px k.
  Proof.
    intros HC HK. unfold i_mask. rewrite nonzero_tile. rewrite (nth_flat_map _ K _ c k c 0); [|intros; apply map_length|apply seq_nth_error; exact HC|exact HK].
    rewrite (nth_map0 _ _ _ _ 0) by exact HK. reflexivity.
  Qed.
  Lemma i_mask_length C : length (i_mask C m) = C * K.
  Proof. unfold i_mask. rewrite nonzero_tile, (flat_map_length _ K), seq_length; [reflexivity|]. intros; apply map_length. Qed.
  Lemma tile_length k l : length (tile k l) = k * length l.
  Proof. unfold tile. induction k; cbn; [reflexivity|]. rewrite app_length, IHk. reflexivity. Qed.
  Lemma nabla_nth C d c k (v : list R) : d < 2 -> c < C -> k < K ->
    at3 zero C K (gather zero v (nabla_mask C m)) d c k = at3 zero C N v d c (px k).
  Proof.
    intros HD HC HK. unfold at3, gather, nabla_mask. rewrite nonzero_tile. fold (i_mask C m).
    assert (L : (d * C + c) * K + k = d * (C * K) + (c * K + k)) by lia. rewrite L. assert (B : c * K + k < C * K) by nia.
    rewrite (nth_map0 _ _ _ _ 0).
    - rewrite (nth_flat_map _ (C * K) _ d (c * K + k) d 0); [|intros; rewrite map_length; apply i_mask_length|apply seq_nth_error; exact HD|exact B].
      rewrite (nth_map0 _ _ _ _ 0) by (rewrite i_mask_length; exact B). rewrite i_mask_nth by auto. rewrite tile_length. f_equal. lia.
    - rewrite (flat_map_length _ (C * K)); [rewrite seq_length; nia|]. intros; rewrite map_length. apply i_mask_length.
  Qed.
  Lemma dW_nth P d k p (v : list R) : d < 2 -> k < K -> p < P ->
    at3 zero K P (gather zero v (dW_dp_mask P m)) d k p = at3 zero N P v d (px k) p.
  Proof.
    intros HD HK HP. unfold at3, gather, dW_dp_mask. rewrite nonzero_tile, nonzero_widen.
    set (rows := flat_map (fun i => map (fun q => i * P + q) (seq 0 P)) (nonzero m)).
    assert (RL : length rows = K * P) by (unfold rows; rewrite (flat_map_length _ P); [reflexivity|]; intros; rewrite map_length, seq_length; reflexivity).
    assert (LC : length (concat (map (fun b => repeat b P) m)) = N * P).
    { clear. induction m as [|b l IH]; cbn; [reflexivity|]. rewrite app_length, repeat_length, IH. reflexivity. }
    rewrite LC. assert (L : (d * K + k) * P + p = d * (K * P) + (k * P + p)) by lia. rewrite L. assert (B : k * P + p < K * P) by nia.
    rewrite (nth_map0 _ _ _ _ 0).
    - rewrite (nth_flat_map _ (K * P) _ d (k * P + p) d 0); [|intros; rewrite map_length; exact RL|apply seq_nth_error; exact HD|exact B].
      rewrite (nth_map0 _ _ _ _ 0) by (rewrite RL; exact B). unfold rows.
      rewrite (nth_flat_map _ P _ k p (px k) 0); [|intros; rewrite map_length, seq_length; reflexivity|apply nth_error_nth'; exact HK|exact HP].
      rewrite (nth_map0 _ _ _ _ 0) by (rewrite seq_length; exact HP). rewrite seq_nth by exact HP. f_equal. lia.
    - rewrite (flat_map_length _ (K * P)); [rewrite seq_length; nia|]. intros; rewrite map_length. exact RL.
  Qed.
  Lemma sdi_nth C P nabla dW c k p : c < C -> k < K -> p < P ->
    nth p (nth (c * K + k) (sdi zero add mul C P m nabla (warp_jacobian zero P m dW)) []) zero =
    add (add zero (mul (at3 zero C N nabla 0 c (px k)) (at3 zero N P dW 0 (px k) p))) (mul (at3 zero C N nabla 1 c (px k)) (at3 zero N P dW 1 (px k) p)).
  Proof.
    intros HC HK HP. unfold sdi. rewrite (nth_flat_map _ K _ c k c []); [|intros; rewrite map_length, seq_length; reflexivity|apply seq_nth_error; exact HC|exact HK].
    rewrite (nth_map0 _ _ _ _ 0) by (rewrite seq_length; exact HK). rewrite seq_nth by exact HK.
    rewrite (nth_map0 _ _ _ _ 0) by (rewrite seq_length; exact HP). rewrite seq_nth by exact HP. cbn [Nat.add]. unfold warp_jacobian.
    rewrite !nabla_nth, !dW_nth by (auto; lia). reflexivity.
  Qed.
  Lemma sdi_length C P nabla dW : length (sdi zero add mul C P m nabla dW) = C * K.
  Proof. unfold sdi. rewrite (flat_map_length _ K), seq_length; [reflexivity|]. intros; rewrite map_length, seq_length. reflexivity. Qed.
End Use.

(** *** rank *)
Lemma nonzero_nth_rank m i : nth_error m i = Some true -> nth (rank m i) (nonzero m) 0 = i /\ rank m i < length (nonzero m).
Proof.
  intros H. destruct (nth_error_split m i H) as (a & b & -> & L). unfold rank. rewrite firstn_app, L, Nat.sub_diag, <- L, firstn_all. cbn [firstn]. rewrite app_nil_r.
  assert (E : length (filter (fun b => b) a) = length (nonzero a)).
  { clear. induction a as [|x a IH]; [reflexivity|]. change (x :: a) with ([x] ++ a). rewrite nonzero_app. rewrite filter_app, !app_length, map_length, IH. destruct x; reflexivity. }
  rewrite E, nonzero_app. split.
  - rewrite app_nth2, Nat.sub_diag by lia. cbn. lia.
  - rewrite app_length, map_length. cbn. lia.
Qed.
Lemma sorted_nth_lt l : StronglySorted lt l -> forall i j, i < j -> j < length l -> nth i l 0 < nth j l 0.
Proof.
  induction 1 as [|x l S IH F]; intros i j H J; [cbn in J; lia|]. destruct j as [|j]; [lia|]. cbn in J. destruct i as [|i]; cbn.
  - rewrite Forall_forall in F. apply F. apply nth_In. lia.
  - apply IH; lia.
Qed.
Lemma nonzero_nth_inj m i j : i < length (nonzero m) -> j < length (nonzero m) -> nth i (nonzero m) 0 = nth j (nonzero m) 0 -> i = j.
Proof.
  intros I J E. destruct (nonzero_spec m) as [S _]. destruct (Nat.lt_trichotomy i j) as [H|[H|H]]; [|exact H|].
  - pose proof (sorted_nth_lt _ S i j H J). lia.
  - pose proof (sorted_nth_lt _ S j i H I). lia.
Qed.
