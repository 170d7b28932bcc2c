(** C44: sampling masks. *)
From Coq Require Import List ZArith Bool Lia Sorting.Sorted.
From Verif.Model Require Import Py Sampling.
From Verif.Spec Require Import Sampling.
From Verif.Proofs Require Sampling.
Import ListNotations.
Local Open Scope nat_scope.

(** Which pixels a sampling given by the user selects, out of n: all of them, every k-th one, the ones marked, or the ones
    listed (negative indices count from the end). *)
Definition selects (n : nat) (s : sampling) (i : nat) : Prop :=
  match s with
  | SNone => True
  | SStep k => i mod Z.to_nat k = 0
  | SBool l => nth_error l i = Some true
  | SIndex l => In (Z.of_nat i) l \/ In (Z.of_nat i - Z.of_nat n)%Z l
  end.
Definition admissible (n : nat) (s : sampling) : Prop :=
  match s with
  | SNone => True | SStep k => (0 < k)%Z | SBool l => length l = n
  | SIndex l => forall i, In i l -> (- Z.of_nat n <= i < Z.of_nat n)%Z
  end.
Theorem c44_mask : forall n s, admissible n s ->
  exists m, sampling_mask n s = Ok m /\ length m = n /\ forall i, i < n -> (nth_error m i = Some true <-> selects n s i).
Proof.
  intros n s A. destruct s as [|k|l|l]; cbn [sampling_mask admissible selects] in *.
  - destruct (py_range n 1) as [r|] eqn:E; [|discriminate]. cbn [bind]. eexists. split; [reflexivity|]. split; [apply Proofs.Sampling.mask_of_length|].
    intros i I. rewrite Proofs.Sampling.mask_of_get, (Proofs.Sampling.range_spec _ _ _ E ltac:(lia)). cbn. rewrite Nat.mod_1_r. tauto.
  - destruct (py_range n k) as [r|] eqn:E; [|unfold py_range in E; destruct (Z.eqb_spec k 0); [lia|]; destruct (Z.ltb_spec k 0); [lia|discriminate]].
    cbn [bind]. eexists. split; [reflexivity|]. split; [apply Proofs.Sampling.mask_of_length|].
    intros i I. rewrite Proofs.Sampling.mask_of_get, (Proofs.Sampling.range_spec _ _ _ E A). tauto.
  - rewrite A, Nat.eqb_refl. exists l. split; [reflexivity|]. split; [exact A|]. tauto.
  - assert (X : exists r, mapM (norm_index n) l = Ok r /\ forall i, i < n -> (In i r <-> In (Z.of_nat i) l \/ In (Z.of_nat i - Z.of_nat n)%Z l)).
    { induction l as [|z l IH]; cbn [mapM]; [exists []; split; [reflexivity|]; cbn; tauto|].
      destruct IH as (r & E & H); [intros; apply A; now right|]. specialize (A z (or_introl eq_refl)). unfold norm_index at 1.
      replace ((- Z.of_nat n <=? z) && (z <? Z.of_nat n))%Z with true by (symmetry; apply andb_true_iff; split; [apply Z.leb_le|apply Z.ltb_lt]; lia).
      cbn [bind]. rewrite E. cbn [bind]. eexists. split; [reflexivity|]. intros i I. cbn [In]. rewrite H by exact I.
      destruct (Z.ltb_spec z 0) as [L|L]; intuition (try lia). }
    destruct X as (r & E & H). rewrite E. cbn [bind]. eexists. split; [reflexivity|]. split; [apply Proofs.Sampling.mask_of_length|].
    intros i I. rewrite Proofs.Sampling.mask_of_get, H by exact I. tauto.
Qed.
(** Anything else is refused, except that a negative step selects nothing. *)
Theorem c44_refused : forall n s m, sampling_mask n s = Ok m -> admissible n s \/ exists k, s = SStep k /\ (k < 0)%Z /\ m = repeat false n.
Proof.
  intros n s m H. destruct s as [|k|l|l]; cbn [sampling_mask admissible] in *; [now left| | |].
  - unfold py_range in H. destruct (Z.eqb_spec k 0); [discriminate|]. destruct (Z.ltb_spec k 0); [|left; lia].
    right. exists k. cbn [bind] in H. injection H as <-. auto.
  - left. destruct (Nat.eqb_spec (length l) n); [assumption|discriminate].
  - left. destruct (mapM (norm_index n) l) as [r|] eqn:E; [|discriminate]. clear H. revert r E.
    induction l as [|z l IH]; intros r E i I; [destruct I|]. cbn [mapM] in E. unfold norm_index at 1 in E.
    destruct ((- Z.of_nat n <=? z) && (z <? Z.of_nat n))%Z eqn:B; [|discriminate]. cbn [bind] in E.
    destruct (mapM (norm_index n) l) as [r'|] eqn:E'; [|discriminate]. apply andb_true_iff in B. destruct B as [B1 B2].
    apply Z.leb_le in B1. apply Z.ltb_lt in B2. destruct I as [<-|I]; [lia|]. eapply IH; eauto.
Qed.
(** The sampled positions of the image vector, for any number of channels: the selected pixels of the first channel, then those
    of the second, ..., increasing and inside the vector. *)
Theorem c44_positions : forall n_channels m,
  StronglySorted lt (i_mask n_channels m) /\
  forall q, In q (i_mask n_channels m) <-> exists c i, c < n_channels /\ nth_error m i = Some true /\ q = c * length m + i.
Proof.
  intros C m. split; [apply Proofs.Sampling.nonzero_spec|]. intros q. unfold i_mask. rewrite Proofs.Sampling.nonzero_tile, in_flat_map. split.
  - intros (c & Hc & Hq). apply in_seq in Hc. apply in_map_iff in Hq. destruct Hq as (i & <- & Hi). exists c, i. split; [lia|]. split; [|reflexivity].
    apply (Proofs.Sampling.nonzero_spec m). exact Hi.
  - intros (c & i & Hc & Hi & ->). exists c. split; [apply in_seq; lia|]. apply in_map_iff. exists i. split; [reflexivity|]. apply (Proofs.Sampling.nonzero_spec m). exact Hi.
Qed.
(** Everything an iteration uses refers to the same pixels in the same order: with px k the k-th selected pixel, entry
    c n + k of the sampled image vector is pixel px k of channel c, and row c n + k of the steepest descent images is the
    gradient of channel c at px k times the warp Jacobian at px k. *)
Theorem c44_consistent : forall (R : Type) (zero : R) (add mul : R -> R -> R) (n_channels n_parameters : nat) (m : list bool) (image nabla dW : list R),
  exists px, positions m px /\
    length (gather zero image (i_mask n_channels m)) = n_channels * length px /\
    length (sdi zero add mul n_channels n_parameters m nabla (warp_jacobian zero n_parameters m dW)) = n_channels * length px /\
    forall c k i, c < n_channels -> nth_error px k = Some i ->
      nth (c * length px + k) (gather zero image (i_mask n_channels m)) zero = nth (c * length m + i) image zero /\
      forall p, p < n_parameters ->
        nth p (nth (c * length px + k) (sdi zero add mul n_channels n_parameters m nabla (warp_jacobian zero n_parameters m dW)) []) zero =
        add (add zero (mul (at3 zero n_channels (length m) nabla 0 c i) (at3 zero (length m) n_parameters dW 0 i p)))
            (mul (at3 zero n_channels (length m) nabla 1 c i) (at3 zero (length m) n_parameters dW 1 i p)).
Proof.
  intros R zero add mul C P m image nabla dW. exists (nonzero m). split; [apply Proofs.Sampling.nonzero_spec|].
  split; [rewrite Proofs.Sampling.gather_length; apply Proofs.Sampling.i_mask_length|]. split; [apply Proofs.Sampling.sdi_length|].
  intros c k i Hc Hk. assert (K : k < length (nonzero m)) by (apply nth_error_Some; congruence). assert (E : nth k (nonzero m) 0 = i) by (apply nth_error_nth; exact Hk). split.
  - unfold gather. rewrite (Proofs.Sampling.nth_map0 _ _ _ _ 0) by (rewrite Proofs.Sampling.i_mask_length; nia). rewrite Proofs.Sampling.i_mask_nth, E by auto. reflexivity.
  - intros p Hp. rewrite Proofs.Sampling.sdi_nth, E by auto. reflexivity.
Qed.
(** The same for patches: entry ((part, offset and channel), k) of the sampled image vector is pixel px k of that patch, and the
    row of the same number is the gradient there times the Jacobian of that part's landmark. *)
Theorem c44_patch_consistent : forall (R : Type) (zero : R) (add mul : R -> R -> R) (parts n_oc n_parameters : nat) (m : list bool) (image nabla dS : list R),
  exists px, positions m px /\
    length (gather zero image (i_mask (parts * n_oc) m)) = parts * n_oc * length px /\
    length (patch_sdi zero add mul parts n_oc n_parameters m nabla dS) = parts * n_oc * length px /\
    forall part oc k i, part < parts -> oc < n_oc -> nth_error px k = Some i ->
      nth ((part * n_oc + oc) * length px + k) (gather zero image (i_mask (parts * n_oc) m)) zero =
        nth ((part * n_oc + oc) * length m + i) image zero /\
      forall p, p < n_parameters ->
        nth p (nth ((part * n_oc + oc) * length px + k) (patch_sdi zero add mul parts n_oc n_parameters m nabla dS) []) zero =
        add (add zero (mul (at3 zero (parts * n_oc) (length m) nabla 0 (part * n_oc + oc) i) (at3 zero parts n_parameters dS 0 part p)))
            (mul (at3 zero (parts * n_oc) (length m) nabla 1 (part * n_oc + oc) i) (at3 zero parts n_parameters dS 1 part p)).
Proof.
  intros R zero add mul parts oc_ P m image nabla dS. exists (nonzero m). split; [apply Proofs.Sampling.nonzero_spec|].
  split; [rewrite Proofs.Sampling.gather_length; apply Proofs.Sampling.i_mask_length|].
  assert (LK : forall part x, In x (seq 0 oc_) -> length (map (fun k => map (fun p =>
      add (add zero (mul (at3 zero (parts * oc_) (length (nonzero m)) (gather zero nabla (nabla_mask (parts * oc_) m)) 0 (part * oc_ + x) k) (at3 zero parts P dS 0 part p)))
        (mul (at3 zero (parts * oc_) (length (nonzero m)) (gather zero nabla (nabla_mask (parts * oc_) m)) 1 (part * oc_ + x) k) (at3 zero parts P dS 1 part p)))
      (seq 0 P)) (seq 0 (length (nonzero m)))) = length (nonzero m)) by (intros; rewrite map_length, seq_length; reflexivity).
  assert (LO : forall x, In x (seq 0 parts) -> length (flat_map (fun oc => map (fun k => map (fun p =>
      add (add zero (mul (at3 zero (parts * oc_) (length (nonzero m)) (gather zero nabla (nabla_mask (parts * oc_) m)) 0 (x * oc_ + oc) k) (at3 zero parts P dS 0 x p)))
        (mul (at3 zero (parts * oc_) (length (nonzero m)) (gather zero nabla (nabla_mask (parts * oc_) m)) 1 (x * oc_ + oc) k) (at3 zero parts P dS 1 x p)))
      (seq 0 P)) (seq 0 (length (nonzero m)))) (seq 0 oc_)) = oc_ * length (nonzero m)).
  { intros x _. rewrite (Proofs.Sampling.flat_map_length _ (length (nonzero m))), seq_length; [reflexivity|apply LK]. }
  split.
  { unfold patch_sdi. rewrite (Proofs.Sampling.flat_map_length _ (oc_ * length (nonzero m))), seq_length; [lia|exact LO]. }
  intros part o k i Hp Ho Hk. assert (K : k < length (nonzero m)) by (apply nth_error_Some; congruence).
  assert (E : nth k (nonzero m) 0 = i) by (apply nth_error_nth; exact Hk).
  assert (B : part * oc_ + o < parts * oc_) by nia. split.
  - unfold gather. rewrite (Proofs.Sampling.nth_map0 _ _ _ _ 0) by (rewrite Proofs.Sampling.i_mask_length; nia).
    rewrite Proofs.Sampling.i_mask_nth, E by auto. reflexivity.
  - intros p HP. unfold patch_sdi.
    replace ((part * oc_ + o) * length (nonzero m) + k) with (part * (oc_ * length (nonzero m)) + (o * length (nonzero m) + k)) by lia.
    rewrite (Proofs.Sampling.nth_flat_map _ (oc_ * length (nonzero m)) _ part (o * length (nonzero m) + k) part []);
      [|exact LO|apply Proofs.Sampling.seq_nth_error; exact Hp|nia].
    rewrite (Proofs.Sampling.nth_flat_map _ (length (nonzero m)) _ o k o []); [|apply LK|apply Proofs.Sampling.seq_nth_error; exact Ho|exact K].
    rewrite (Proofs.Sampling.nth_map0 _ _ _ _ 0) by (rewrite seq_length; exact K). rewrite seq_nth by exact K.
    rewrite (Proofs.Sampling.nth_map0 _ _ _ _ 0) by (rewrite seq_length; exact HP). rewrite seq_nth by exact HP. cbn [Nat.add].
    rewrite !Proofs.Sampling.nabla_nth, E by (auto; lia). reflexivity.
Qed.
(** holistic_sampling_from_step: the positions are every step-th of the n_true pixels of the mask, and the returned mask holds
    exactly these pixels. *)
Theorem c44_from_step : forall mask step, (0 < step)%Z ->
  exists tp mm, holistic_sampling_from_step mask step = Ok (tp, mm) /\ length mm = length mask /\
    length tp = rank mask (length mask) /\
    (forall k, k < length tp -> (nth_error tp k = Some true <-> k mod Z.to_nat step = 0)) /\
    (forall i, nth_error mm i = Some true <-> nth_error mask i = Some true /\ rank mask i mod Z.to_nat step = 0).
Proof.
  intros mask step P. unfold holistic_sampling_from_step.
  destruct (py_range (length (nonzero mask)) step) as [r|] eqn:E.
  2: { unfold py_range in E. destruct (Z.eqb_spec step 0); [lia|]. destruct (Z.ltb_spec step 0); [lia|discriminate]. }
  cbn [bind]. eexists. eexists. split; [reflexivity|]. split; [apply Proofs.Sampling.mask_of_length|]. rewrite Proofs.Sampling.mask_of_length. split; [|split].
  - unfold rank. rewrite firstn_all. clear. induction mask as [|b m IH]; [reflexivity|]. change (b :: m) with ([b] ++ m).
    rewrite Proofs.Sampling.nonzero_app, filter_app, !app_length, map_length, IH. destruct b; reflexivity.
  - intros k K. rewrite Proofs.Sampling.mask_of_get, (Proofs.Sampling.range_spec _ _ _ E P). tauto.
  - intros i. rewrite Proofs.Sampling.mask_of_get, in_map_iff. split.
    + intros (L & k & <- & Hk). apply (Proofs.Sampling.range_spec _ _ _ E P) in Hk. destruct Hk as [K M].
      assert (T : nth_error mask (nth k (nonzero mask) 0) = Some true) by (apply (Proofs.Sampling.nonzero_spec mask), nth_In; exact K).
      split; [exact T|]. destruct (Proofs.Sampling.nonzero_nth_rank _ _ T) as [RE RL]. rewrite (Proofs.Sampling.nonzero_nth_inj mask _ _ RL K RE). exact M.
    + intros [T M]. split; [apply nth_error_Some; congruence|]. destruct (Proofs.Sampling.nonzero_nth_rank _ _ T) as [RE RL]. exists (rank mask i).
      split; [exact RE|]. apply (Proofs.Sampling.range_spec _ _ _ E P). auto.
Qed.
(** Giving these positions to a fitter samples exactly the pixels of the returned mask. *)
Theorem c44_from_step_used : forall mask step tp mm n_channels, (0 < step)%Z -> holistic_sampling_from_step mask step = Ok (tp, mm) ->
  sampling_mask (length (nonzero mask)) (SBool tp) = Ok tp /\
  map (fun k => nth k (nonzero mask) 0) (i_mask 1 tp) = nonzero mm /\ length (i_mask n_channels tp) = n_channels * length (nonzero mm).
Proof.
  intros mask step tp mm C P H. destruct (c44_from_step mask step P) as (tp' & mm' & H' & LM & LT & A & B). rewrite H in H'. injection H' as <- <-.
  assert (L : length tp = length (nonzero mask)).
  { unfold holistic_sampling_from_step in H. destruct (py_range _ step); [|discriminate]. cbn [bind] in H. injection H as <- _. apply Proofs.Sampling.mask_of_length. }
  assert (M : map (fun k => nth k (nonzero mask) 0) (nonzero tp) = nonzero mm).
  { apply (Proofs.Sampling.positions_unique mm); [|apply Proofs.Sampling.nonzero_spec]. destruct (Proofs.Sampling.nonzero_spec tp) as [S1 P1]. destruct (Proofs.Sampling.nonzero_spec mask) as [S2 P2].
    assert (BD : forall k, In k (nonzero tp) -> k < length (nonzero mask)) by (intros k K; rewrite <- L; apply P1 in K; apply nth_error_Some; congruence). split.
    - clear - S1 S2 BD. induction S1 as [|x l S1 IH F]; cbn; constructor; [apply IH; intros; apply BD; now right|]. apply Forall_forall. intros y Y. apply in_map_iff in Y.
      destruct Y as [k [<- K]]. apply Proofs.Sampling.sorted_nth_lt; [exact S2| |apply BD; now right]. rewrite Forall_forall in F. auto.
    - intros i. rewrite in_map_iff, B. split.
      + intros (k & <- & K). pose proof (BD k K) as KL. assert (T : nth_error mask (nth k (nonzero mask) 0) = Some true) by (apply P2, nth_In; exact KL).
        split; [exact T|]. destruct (Proofs.Sampling.nonzero_nth_rank _ _ T) as [RE RL]. rewrite (Proofs.Sampling.nonzero_nth_inj mask _ _ RL KL RE).
        apply A; [lia|]. apply P1. exact K.
      + intros [T M]. destruct (Proofs.Sampling.nonzero_nth_rank _ _ T) as [RE RL]. exists (rank mask i). split; [exact RE|]. apply P1. apply A; [lia|exact M]. }
  split; [cbn [sampling_mask]; rewrite L, Nat.eqb_refl; reflexivity|]. split.
  - unfold i_mask, tile. cbn [repeat concat]. rewrite app_nil_r. exact M.
  - rewrite Proofs.Sampling.i_mask_length, <- M, map_length. reflexivity.
Qed.
(** holistic_sampling_from_scale: the positions are those pixels of the mask onto which a pixel of the rescaled reference
    falls... *)
Theorem c44_from_scale : forall mask new_indices, (forall i, In i new_indices -> i < length mask) ->
  let '(tp, mm) := holistic_sampling_from_scale mask new_indices in
  StronglySorted lt tp /\ (forall i, nth_error mm i = Some true <-> In i new_indices) /\
  forall i, nth_error mask i = Some true -> (In (rank mask i) tp <-> In i new_indices).
Proof.
  intros mask idx B. unfold holistic_sampling_from_scale.
  assert (G : forall i, nth_error (mask_of (length mask) idx) i = Some true <-> In i idx).
  { intros i. rewrite Proofs.Sampling.mask_of_get. split; [tauto|]. auto. }
  split; [apply Proofs.Sampling.nonzero_spec|]. split; [exact G|]. intros i T. rewrite <- G.
  destruct (Proofs.Sampling.nonzero_nth_rank _ _ T) as [RE RL].
  destruct (Proofs.Sampling.nonzero_spec (map (fun i => nth i (mask_of (length mask) idx) false) (nonzero mask))) as [_ PP]. rewrite PP, nth_error_map.
  rewrite (nth_error_nth' _ 0) by exact RL. rewrite RE. cbn [option_map].
  assert (LI : i < length (mask_of (length mask) idx)) by (rewrite Proofs.Sampling.mask_of_length; apply nth_error_Some; congruence).
  rewrite (nth_error_nth' _ false LI). tauto.
Qed.
(** ... but the returned mask may hold pixels outside the reference mask, so that it has more pixels than positions. *)
Theorem c44_from_scale_refuted : exists mask new_indices tp mm, (forall i, In i new_indices -> i < length mask) /\
  holistic_sampling_from_scale mask new_indices = (tp, mm) /\ length (nonzero mm) = 2 /\ length tp = 1.
Proof. exists [true; false], [0; 1]. eexists. eexists. split; [intros i [<-|[<-|[]]]; cbn; lia|]. split; [reflexivity|]. split; reflexivity. Qed.

(** Patches: a boolean patch of the right size selects the same pixels in every part, offset and channel, for the image and for
    the gradient. *)
Theorem c44_patches_partial : forall lead h w l, length l = h * w ->
  patch_i_mask lead h w (SBool l) = Ok (i_mask lead l) /\
  (0 < lead -> 0 < h * w -> exists g, patch_gradient_mask lead h w (SBool l) = Ok g /\ map (fun q => fst q * (h * w) + snd q) g = i_mask lead l /\
     Forall (fun q => fst q < lead /\ nth_error l (snd q) = Some true) g).
Proof.
  intros lead h w l L. split; [reflexivity|]. intros P Q. unfold patch_gradient_mask. cbn [patch_mask bind]. rewrite Proofs.Sampling.tile_length, Nat.mul_comm, Nat.div_mul, L by lia.
  eexists. split; [reflexivity|]. split.
  - rewrite map_map. rewrite <- (map_id (i_mask lead l)). apply map_ext. intros i. cbn [fst snd]. rewrite (Nat.mul_comm (i / _)). symmetry. apply Nat.div_mod. lia.
  - apply Forall_forall. intros q H. apply in_map_iff in H. destruct H as (i & <- & Hi). cbn [fst snd].
    fold (i_mask lead l) in Hi. apply (c44_positions lead l) in Hi. destruct Hi as (c & j & Hc & Hj & ->). assert (J : j < h * w) by (rewrite <- L; apply nth_error_Some; congruence).
    rewrite L. rewrite (Nat.add_comm (c * _)), Nat.div_add, Nat.mod_add, Nat.div_small, Nat.mod_small by lia. auto.
Qed.
(** An integer step is accepted for patches, but it is not a step: the image is sampled at the first [lead] entries of its
    vector - pixels of the first patch - and the gradient at the first pixel of every patch. *)
Theorem c44_patch_step_refuted : forall lead h w k, (k <> 0)%Z -> 0 < lead ->
  patch_i_mask lead h w (SStep k) = Ok (seq 0 lead) /\ patch_gradient_mask lead h w (SStep k) = Ok (map (fun i => (i, 0)) (seq 0 lead)).
Proof.
  intros lead h w k K P. assert (T : nonzero (repeat true lead) = seq 0 lead).
  { clear. unfold nonzero. generalize 0. induction lead as [|p IH]; intros o; cbn; [reflexivity|]. rewrite IH. reflexivity. }
  assert (E : negb (k =? 0)%Z = true) by (destruct (Z.eqb_spec k 0); [contradiction|reflexivity]).
  unfold patch_i_mask, patch_gradient_mask. cbn [patch_mask bind]. rewrite E, T. split; [reflexivity|]. rewrite repeat_length, Nat.div_same by lia.
  f_equal. apply map_ext. intros i. rewrite Nat.div_1_r, Nat.mod_1_r. reflexivity.
Qed.

Example c44_example : admissible 5 (SIndex [0; -1]%Z) /\ sampling_mask 5 (SIndex [0; -1]%Z) = Ok [true; false; false; false; true] /\
  i_mask 2 [true; false; false; false; true] = [0; 4; 5; 9] /\
  holistic_sampling_from_step [true; false; true; true; true] 2 = Ok ([true; false; true; false], [true; false; false; true; false]).
Proof. split; [intros i [<-|[<-|[]]]; lia|]. repeat split; reflexivity. Qed.
Print Assumptions c44_mask.
Print Assumptions c44_refused.
Print Assumptions c44_positions.
Print Assumptions c44_consistent.
Print Assumptions c44_from_step.
Print Assumptions c44_from_step_used.
Print Assumptions c44_from_scale.
Print Assumptions c44_from_scale_refuted.
Print Assumptions c44_patches_partial.
Print Assumptions c44_patch_step_refuted.
Print Assumptions c44_patch_consistent.
Example c44_patch_ex :
  patch_sdi 0%Z Z.add Z.mul 2 1 1 [true; false] [1; 2; 3; 4; 5; 6; 7; 8]%Z [10; 20; 30; 40]%Z = [[160]; [340]]%Z /\
  gather 0%Z [11; 12; 13; 14]%Z (i_mask 2 [true; false]) = [11; 13]%Z.
Proof. split; reflexivity. Qed.
