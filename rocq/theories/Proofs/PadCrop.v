From Coq Require Import List ZArith Bool Lia.
From Verif.Model Require Import Py PadCrop.
From Verif.Spec Require Import PadCrop.
From Verif.Proofs Require Recon Result.
Import ListNotations.
Local Open Scope Z_scope.

Lemma margins size ext : exists m r, ext - size = 2 * m + r /\ (r = 0 \/ r = 1) /\ pad_margins size ext = (m + r, m).
Proof.
  exists ((ext - size) / 2), ((ext - size) mod 2). pose proof (Z.div_mod (ext - size) 2 ltac:(lia)) as D.
  pose proof (Z.mod_pos_bound (ext - size) 2 ltac:(lia)) as B. split; [exact D|]. split; [lia|].
  unfold pad_margins. destruct (size + 2 * ((ext - size) / 2) <? ext) eqn:E.
  - apply Z.ltb_lt in E. f_equal. lia.
  - apply Z.ltb_ge in E. f_equal. lia.
Qed.
Lemma bounds size shape : exists m r, size - shape = 2 * m + r /\ (r = 0 \/ r = 1) /\ crop_bounds size shape = (m + r, - m).
Proof.
  exists ((size - shape) / 2), ((size - shape) mod 2). pose proof (Z.div_mod (size - shape) 2 ltac:(lia)) as D.
  pose proof (Z.mod_pos_bound (size - shape) 2 ltac:(lia)) as B. split; [exact D|]. split; [lia|].
  unfold crop_bounds. destruct ((size - shape) mod 2 =? 0) eqn:E.
  - apply Z.eqb_eq in E. f_equal. lia.
  - apply Z.eqb_neq in E. f_equal. lia.
Qed.
(** The two computations agree on the same pair of sizes. *)
Lemma bounds_margins small big : crop_bounds big small = (fst (pad_margins small big), - snd (pad_margins small big)).
Proof.
  destruct (margins small big) as (m & r & D & B & E). destruct (bounds big small) as (m' & r' & D' & B' & E').
  rewrite E, E'. cbn [fst snd]. f_equal; lia.
Qed.

Lemma slice_length {A} (l : list A) a b : Z.of_nat (length (py_slice a b l)) =
  Z.max 0 (norm_index (Z.of_nat (length l)) b - norm_index (Z.of_nat (length l)) a).
Proof.
  unfold py_slice. set (n := Z.of_nat (length l)).
  assert (H : forall i, 0 <= norm_index n i <= n) by (intros i; unfold norm_index; destruct (i <? 0); lia).
  pose proof (H a). pose proof (H b). rewrite firstn_length, skipn_length. lia.
Qed.

(** The crop of a list of [n] elements has the requested length exactly when at least two are dropped (or none is
    wanted); otherwise at most ... elements are left. *)
Lemma crop_length {A} (l : list A) shape : 0 <= shape ->
  let n := Z.of_nat (length l) in
  let c := Z.of_nat (length (py_slice (fst (crop_bounds n shape)) (snd (crop_bounds n shape)) l)) in
  (shape + 2 <= n -> c = shape) /\ (n - 1 <= shape <= n -> c = 0) /\ (n < shape -> c < shape).
Proof.
  intros Hs n c. destruct (bounds n shape) as (m & r & D & B & E). unfold c. rewrite E. cbn [fst snd]. rewrite slice_length. fold n.
  assert (Hn : 0 <= n) by (unfold n; lia).
  split; [|split].
  - intros H. unfold norm_index. destruct (- m <? 0) eqn:E1, (m + r <? 0) eqn:E2; try apply Z.ltb_lt in E1; try apply Z.ltb_ge in E1; try apply Z.ltb_lt in E2; try apply Z.ltb_ge in E2; lia.
  - intros H. assert (m = 0) by lia. subst m. unfold norm_index. cbn [Z.opp Z.ltb Z.compare]. destruct (0 + r <? 0) eqn:E2; [apply Z.ltb_lt in E2; lia|]. lia.
  - intros H. unfold norm_index. destruct (- m <? 0) eqn:E1, (m + r <? 0) eqn:E2; try apply Z.ltb_lt in E1; try apply Z.ltb_ge in E1; try apply Z.ltb_lt in E2; try apply Z.ltb_ge in E2; lia.
Qed.

(** Cropping what was added restores the list, when at least two elements were added. *)
Lemma crop_pad1 {A} (fill : A) (l : list A) ext p :
  Z.of_nat (length l) + 2 <= ext -> np_pad fill (pad_margins (Z.of_nat (length l)) ext) l = Ok p ->
  py_slice (fst (crop_bounds ext (Z.of_nat (length l)))) (snd (crop_bounds ext (Z.of_nat (length l)))) p = l.
Proof.
  intros H Hp. rewrite bounds_margins. destruct (margins (Z.of_nat (length l)) ext) as (m & r & D & B & E). rewrite E in *. cbn [fst snd] in *.
  unfold np_pad in Hp. cbn [fst snd] in Hp.
  assert (E1 : (m + r <? 0) = false) by (apply Z.ltb_ge; lia). assert (E2 : (m <? 0) = false) by (apply Z.ltb_ge; lia). rewrite E1, E2 in Hp. cbn [orb] in Hp.
  assert (Ep : p = repeat fill (Z.to_nat (m + r)) ++ l ++ repeat fill (Z.to_nat m)) by congruence. subst p. clear Hp.
  assert (L : Z.of_nat (length (repeat fill (Z.to_nat (m + r)) ++ l ++ repeat fill (Z.to_nat m))) = ext) by (rewrite !app_length, !repeat_length; lia).
  unfold py_slice. rewrite L. unfold norm_index. rewrite E1. assert (E3 : (- m <? 0) = true) by (apply Z.ltb_lt; lia). rewrite E3.
  replace (Z.to_nat (Z.max 0 (Z.min ext (- m + ext)) - Z.max 0 (Z.min ext (m + r)))) with (length l) by lia.
  replace (Z.to_nat (Z.max 0 (Z.min ext (m + r)))) with (Z.to_nat (m + r)) by lia.
  rewrite skipn_app, repeat_length, Nat.sub_diag, skipn_all2 by (rewrite repeat_length; lia). cbn [app skipn].
  rewrite firstn_app, Nat.sub_diag, firstn_all. cbn [firstn]. apply app_nil_r.
Qed.

Lemma np_pad_ok {A} (fill : A) (l : list A) w : 0 <= fst w -> 0 <= snd w ->
  np_pad fill w l = Ok (repeat fill (Z.to_nat (fst w)) ++ l ++ repeat fill (Z.to_nat (snd w))).
Proof. intros H1 H2. unfold np_pad. apply Z.ltb_ge in H1, H2. rewrite H1, H2. reflexivity. Qed.
Lemma np_pad_inv {A} (fill : A) (l : list A) w p : np_pad fill w l = Ok p ->
  0 <= fst w /\ 0 <= snd w /\ p = repeat fill (Z.to_nat (fst w)) ++ l ++ repeat fill (Z.to_nat (snd w)).
Proof.
  unfold np_pad. destruct (fst w <? 0) eqn:E1; [discriminate|]. destruct (snd w <? 0) eqn:E2; [discriminate|]. cbn [orb].
  apply Z.ltb_ge in E1, E2. intros H. repeat split; try assumption. congruence.
Qed.
Lemma mapM_pad {A} (fill : A) w rows : 0 <= fst w -> 0 <= snd w ->
  mapM (np_pad fill w) rows = Ok (map (fun l => repeat fill (Z.to_nat (fst w)) ++ l ++ repeat fill (Z.to_nat (snd w))) rows).
Proof.
  intros H1 H2. induction rows as [|x rows IH]; [reflexivity|]. cbn [mapM map]. rewrite np_pad_ok by assumption. cbn [bind]. rewrite IH. reflexivity.
Qed.
Lemma margins_nonneg size ext : size <= ext <-> 0 <= fst (pad_margins size ext) /\ 0 <= snd (pad_margins size ext).
Proof. destruct (margins size ext) as (m & r & D & B & E). rewrite E. cbn [fst snd]. lia. Qed.
Lemma margins_fst size ext : size <= ext -> 0 <= fst (pad_margins size ext). Proof. intros H. exact (proj1 (proj1 (margins_nonneg size ext) H)). Qed.
Lemma margins_snd size ext : size <= ext -> 0 <= snd (pad_margins size ext). Proof. intros H. exact (proj2 (proj1 (margins_nonneg size ext) H)). Qed.

Section Two.
  Context {A : Type} (zero : A).
  Definition padded (x : image A) (hm wm : Z * Z) : image A :=
    let row l := repeat zero (Z.to_nat (fst wm)) ++ l ++ repeat zero (Z.to_nat (snd wm)) in
    mk_image (length (row (repeat zero (im_w x))))
      (repeat (row (repeat zero (im_w x))) (Z.to_nat (fst hm)) ++ map row (im_rows x) ++ repeat (row (repeat zero (im_w x))) (Z.to_nat (snd hm))).
  Lemma pad_ok x ext : Z.of_nat (im_h x) <= fst ext -> Z.of_nat (im_w x) <= snd ext ->
    pad zero x ext = Ok (padded x (pad_margins (Z.of_nat (im_h x)) (fst ext)) (pad_margins (Z.of_nat (im_w x)) (snd ext))).
  Proof.
    intros H1 H2. apply margins_nonneg in H1. apply margins_nonneg in H2. destruct H1 as [H1 H1'], H2 as [H2 H2'].
    unfold pad. pose proof H1 as K1. pose proof H1' as K2. apply Z.ltb_ge in K1, K2. rewrite K1, K2. cbn [orb].
    rewrite mapM_pad by assumption. cbn [bind]. rewrite !np_pad_ok by assumption. cbn [bind]. rewrite np_pad_ok by assumption. reflexivity.
  Qed.
  Lemma pad_err x ext : Z.of_nat (im_h x) > fst ext \/ (Z.of_nat (im_w x) > snd ext) -> pad zero x ext = Err ValueError.
  Proof.
    intros H. unfold pad.
    destruct ((fst (pad_margins (Z.of_nat (im_h x)) (fst ext)) <? 0) || (snd (pad_margins (Z.of_nat (im_h x)) (fst ext)) <? 0)) eqn:E; [reflexivity|].
    apply orb_false_iff in E. destruct E as [E1 E2]. apply Z.ltb_ge in E1, E2.
    destruct H as [H|H]; [exfalso; pose proof (proj2 (margins_nonneg (Z.of_nat (im_h x)) (fst ext)) (conj E1 E2)); lia|].
    assert (N : ~ Z.of_nat (im_w x) <= snd ext) by lia. rewrite margins_nonneg in N.
    assert (P : forall l : list A, np_pad zero (pad_margins (Z.of_nat (im_w x)) (snd ext)) l = Err ValueError).
    { intros l. unfold np_pad.
      destruct (fst (pad_margins (Z.of_nat (im_w x)) (snd ext)) <? 0) eqn:E3; [reflexivity|].
      destruct (snd (pad_margins (Z.of_nat (im_w x)) (snd ext)) <? 0) eqn:E4; [reflexivity|]. apply Z.ltb_ge in E3, E4. exfalso. apply N. auto. }
    destruct (im_rows x) as [|r rows]; cbn [mapM bind]; rewrite P; reflexivity.
  Qed.
  Definition wf (x : image A) : Prop := Forall (fun r => length r = im_w x) (im_rows x).

  Lemma padded_size_ok x ext : wf x -> Z.of_nat (im_h x) <= fst ext -> Z.of_nat (im_w x) <= snd ext -> forall p, pad zero x ext = Ok p ->
    wf p /\ Z.of_nat (im_h p) = fst ext /\ Z.of_nat (im_w p) = snd ext.
  Proof.
    intros Hw H1 H2 p Hp. rewrite pad_ok in Hp by assumption.
    assert (Ep : p = padded x (pad_margins (Z.of_nat (im_h x)) (fst ext)) (pad_margins (Z.of_nat (im_w x)) (snd ext))) by congruence. subst p.
    destruct (margins (Z.of_nat (im_h x)) (fst ext)) as (m & r & D & B & E). destruct (margins (Z.of_nat (im_w x)) (snd ext)) as (m' & r' & D' & B' & E').
    rewrite E, E'. unfold padded, wf, im_h. cbn [im_w im_rows fst snd]. rewrite !app_length, !repeat_length, map_length.
    unfold im_h in *. split; [|split; lia].
    rewrite !Forall_app. repeat split; apply Forall_forall; intros l Hl.
    - apply repeat_spec in Hl. subst l. rewrite !app_length, !repeat_length. reflexivity.
    - apply in_map_iff in Hl. destruct Hl as (r0 & <- & Hr). unfold wf in Hw. rewrite Forall_forall in Hw. rewrite !app_length, !repeat_length, (Hw r0 Hr). reflexivity.
    - apply repeat_spec in Hl. subst l. rewrite !app_length, !repeat_length. reflexivity.
  Qed.

  Lemma crop_pad x ext p : wf x -> Z.of_nat (im_h x) + 2 <= fst ext -> Z.of_nat (im_w x) + 2 <= snd ext ->
    pad zero x ext = Ok p -> crop zero p (Z.of_nat (im_h x), Z.of_nat (im_w x)) = x.
  Proof.
    intros Hw H1 H2 Hp. destruct (padded_size_ok x ext Hw ltac:(lia) ltac:(lia) p Hp) as (Hwp & Lh & Lw).
    rewrite pad_ok in Hp by lia.
    assert (Ep : p = padded x (pad_margins (Z.of_nat (im_h x)) (fst ext)) (pad_margins (Z.of_nat (im_w x)) (snd ext))) by congruence.
    assert (W : forall l : list A, length l = im_w x ->
      py_slice (fst (crop_bounds (snd ext) (Z.of_nat (im_w x)))) (snd (crop_bounds (snd ext) (Z.of_nat (im_w x))))
       (repeat zero (Z.to_nat (fst (pad_margins (Z.of_nat (im_w x)) (snd ext)))) ++ l ++ repeat zero (Z.to_nat (snd (pad_margins (Z.of_nat (im_w x)) (snd ext))))) = l).
    { intros l Hl. rewrite <- Hl. apply (crop_pad1 zero); [lia|]. apply np_pad_ok; [apply margins_fst|apply margins_snd]; lia. }
    assert (Hz : forall q : list A, length q = im_w p -> length (py_slice (fst (crop_bounds (snd ext) (Z.of_nat (im_w x)))) (snd (crop_bounds (snd ext) (Z.of_nat (im_w x)))) q) = im_w x).
    { intros q Hq. destruct (crop_length q (Z.of_nat (im_w x)) ltac:(lia)) as [K _]. rewrite Hq, Lw in K. lia. }
    unfold crop. cbn [fst snd]. rewrite Lh, Lw. destruct x as [w rows]. f_equal.
    - cbn [im_w] in *. rewrite Hz by apply repeat_length. reflexivity.
    - cbn [im_h im_rows im_w] in *. rewrite Ep at 1. unfold padded. cbn [im_rows im_w].
      set (blank := repeat zero (Z.to_nat (fst (pad_margins (Z.of_nat w) (snd ext)))) ++ repeat zero w ++ repeat zero (Z.to_nat (snd (pad_margins (Z.of_nat w) (snd ext))))).
      unfold im_h. cbn [im_rows].
      set (rows' := map (fun l => repeat zero (Z.to_nat (fst (pad_margins (Z.of_nat w) (snd ext)))) ++ l ++ repeat zero (Z.to_nat (snd (pad_margins (Z.of_nat w) (snd ext))))) rows).
      assert (L : length rows' = length rows) by apply map_length. rewrite <- L.
      rewrite (crop_pad1 blank rows' (fst ext)).
      + unfold rows'. rewrite map_map. unfold wf in Hw. cbn [im_rows im_w] in Hw. clear - W Hw. induction Hw as [|r rows Hr H IH]; [reflexivity|].
        cbn [map]. rewrite W by exact Hr. rewrite IH. reflexivity.
      + rewrite L. unfold im_h in H1. cbn [im_rows] in H1. lia.
      + rewrite L. apply np_pad_ok; [apply margins_fst|apply margins_snd]; unfold im_h in H1; cbn [im_rows] in H1; lia.
  Qed.

  (** Size of a crop. *)
  Lemma crop_size x shape : wf x -> 0 <= fst shape -> 0 <= snd shape ->
    wf (crop zero x shape) /\
    (fst shape + 2 <= Z.of_nat (im_h x) -> Z.of_nat (im_h (crop zero x shape)) = fst shape) /\
    (snd shape + 2 <= Z.of_nat (im_w x) -> Z.of_nat (im_w (crop zero x shape)) = snd shape) /\
    (Z.of_nat (im_h x) - 1 <= fst shape <= Z.of_nat (im_h x) -> im_h (crop zero x shape) = 0%nat) /\
    (Z.of_nat (im_w x) - 1 <= snd shape <= Z.of_nat (im_w x) -> im_w (crop zero x shape) = 0%nat) /\
    (Z.of_nat (im_h x) < fst shape -> Z.of_nat (im_h (crop zero x shape)) < fst shape) /\
    (Z.of_nat (im_w x) < snd shape -> Z.of_nat (im_w (crop zero x shape)) < snd shape).
  Proof.
    intros Hw H1 H2. unfold crop.
    destruct (crop_length (im_rows x) (fst shape) H1) as (A1 & A2 & A3). fold (im_h x) in A1, A2, A3.
    destruct (crop_length (repeat zero (im_w x)) (snd shape) H2) as (B1 & B2 & B3). rewrite !repeat_length in B1, B2, B3.
    split.
    - unfold wf. cbn [im_rows im_w]. apply Forall_forall. intros l Hl. apply in_map_iff in Hl. destruct Hl as (r & <- & Hr).
      assert (Lr : length r = im_w x).
      { unfold wf in Hw. rewrite Forall_forall in Hw. apply Hw. unfold py_slice in Hr.
        assert (F : forall n (l : list (list A)) y, In y (firstn n l) -> In y l) by (intros n l y Hy; rewrite <- (firstn_skipn n l); apply in_or_app; auto).
        assert (K : forall n (l : list (list A)) y, In y (skipn n l) -> In y l) by (intros n l y Hy; rewrite <- (firstn_skipn n l); apply in_or_app; auto).
        eapply K, F, Hr. }
      apply Nat2Z.inj. rewrite !slice_length, Lr, repeat_length. reflexivity.
    - assert (EH : forall w (rows : list (list A)), im_h (mk_image w rows) = length rows) by reflexivity. rewrite !EH, !map_length. cbn [im_w]. repeat split; lia.
  Qed.
End Two.
