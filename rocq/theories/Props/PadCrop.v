(** C23, C24, C53: padding, cropping and the sizes of FFT convolutions. *)
From Coq Require Import List ZArith Bool Lia.
From Verif.Model Require Import Py PadCrop.
From Verif.Spec Require Import PadCrop.
From Verif.Proofs Require Import PadCrop.
Import ListNotations.
Local Open Scope Z_scope.

(** An array whose rows all have the announced width. *)
Definition array {A} (h w : nat) (x : image A) : Prop := im_w x = w /\ is_size h w (im_rows x).
Lemma array_wf {A} h w (x : image A) : array h w x <-> wf x /\ im_h x = h /\ im_w x = w.
Proof. unfold array, is_size, wf, im_h. split; [intros (<- & <- & H)|intros (H & <- & <-)]; auto. Qed.

(** ** C23 *)
(** The padded array has the requested size, holds the original pixels, shifted, and zeros elsewhere. *)
Theorem c23_pad : forall (A : Type) (zero : A) (x : image A) h w eh ew, array h w x -> (h <= eh)%nat -> (w <= ew)%nat ->
  exists p top left, pad zero x (Z.of_nat eh, Z.of_nat ew) = Ok p /\ array eh ew p /\ (top + h <= eh)%nat /\ (left + w <= ew)%nat /\
    (forall i j, (i < h)%nat -> (j < w)%nat -> pixel (im_rows p) (top + i) (left + j) = pixel (im_rows x) i j) /\
    framed zero top left h w (im_rows x) (im_rows p).
Proof.
  intros A zero x h w eh ew Hx Hh Hw. apply array_wf in Hx. destruct Hx as (Hwf & Lh & Lw).
  destruct (pad zero x (Z.of_nat eh, Z.of_nat ew)) as [p|] eqn:Hp; [|rewrite pad_ok in Hp; [discriminate|cbn [fst]; lia|cbn [snd]; lia]].
  destruct (padded_size_ok zero x (Z.of_nat eh, Z.of_nat ew) Hwf ltac:(cbn [fst]; lia) ltac:(cbn [snd]; lia) p Hp) as (Wp & Ph & Pw). cbn [fst snd] in Ph, Pw.
  rewrite pad_ok in Hp by (cbn [fst snd]; lia). cbn [fst snd] in Hp.
  destruct (margins (Z.of_nat (im_h x)) (Z.of_nat eh)) as (m & r & D & B & E). destruct (margins (Z.of_nat (im_w x)) (Z.of_nat ew)) as (m' & r' & D' & B' & E').
  rewrite E, E' in Hp. exists p, (Z.to_nat (m + r)), (Z.to_nat (m' + r')).
  split; [reflexivity|]. split; [apply array_wf; repeat split; [exact Wp|lia|lia]|]. split; [lia|]. split; [lia|].
  assert (Er : im_rows p = repeat (repeat zero (Z.to_nat (m' + r')) ++ repeat zero (im_w x) ++ repeat zero (Z.to_nat m')) (Z.to_nat (m + r)) ++
    map (fun l => repeat zero (Z.to_nat (m' + r')) ++ l ++ repeat zero (Z.to_nat m')) (im_rows x) ++
    repeat (repeat zero (Z.to_nat (m' + r')) ++ repeat zero (im_w x) ++ repeat zero (Z.to_nat m')) (Z.to_nat m)).
  { assert (Ep : p = padded zero x (m + r, m) (m' + r', m')) by congruence. rewrite Ep. reflexivity. }
  assert (RI : forall (T : Type) (v y : T) n k, nth_error (repeat v n) k = Some y -> y = v).
  { intros T v y n k Hk. apply nth_error_In in Hk. apply repeat_spec in Hk. exact Hk. }
  assert (Blank : forall row y j, row = repeat zero (Z.to_nat (m' + r')) ++ repeat zero (im_w x) ++ repeat zero (Z.to_nat m') -> nth_error row j = Some y -> y = zero).
  { intros row y j -> Hj. apply nth_error_In in Hj. rewrite !in_app_iff in Hj. destruct Hj as [Hj|[Hj|Hj]]; apply repeat_spec in Hj; exact Hj. }
  assert (IN : forall i j, (i < h)%nat -> (j < w)%nat -> pixel (im_rows p) (Z.to_nat (m + r) + i) (Z.to_nat (m' + r') + j) = pixel (im_rows x) i j).
  { intros i j Hi Hj. unfold pixel. rewrite Er.
    rewrite nth_error_app2 by (rewrite repeat_length; lia). rewrite repeat_length.
    replace (Z.to_nat (m + r) + i - Z.to_nat (m + r))%nat with i by lia.
    rewrite nth_error_app1 by (rewrite map_length; unfold im_h in Lh; lia). rewrite nth_error_map.
    destruct (nth_error (im_rows x) i) as [row|] eqn:Erow; [|reflexivity]. cbn [option_map].
    rewrite nth_error_app2 by (rewrite repeat_length; lia). rewrite repeat_length. replace (Z.to_nat (m' + r') + j - Z.to_nat (m' + r'))%nat with j by lia.
    rewrite nth_error_app1; [reflexivity|]. unfold wf in Hwf. rewrite Forall_forall in Hwf. rewrite (Hwf row (nth_error_In _ _ Erow)). lia. }
  split; [exact IN|]. intros i j q Hq. split.
  - intros i' j' -> -> Hi Hj. rewrite <- IN by assumption. exact Hq.
  - intros Hout. unfold pixel in Hq. rewrite Er in Hq.
    destruct (Nat.lt_ge_cases i (Z.to_nat (m + r))) as [C|C].
    { rewrite nth_error_app1 in Hq by (rewrite repeat_length; lia).
      destruct (nth_error (repeat _ (Z.to_nat (m + r))) i) as [row|] eqn:Erow; [|discriminate]. apply RI in Erow. eapply Blank; eassumption. }
    rewrite nth_error_app2 in Hq by (rewrite repeat_length; lia). rewrite repeat_length in Hq.
    destruct (Nat.lt_ge_cases (i - Z.to_nat (m + r)) h) as [C2|C2].
    + rewrite nth_error_app1 in Hq by (rewrite map_length; unfold im_h in Lh; lia). rewrite nth_error_map in Hq.
      destruct (nth_error (im_rows x) (i - Z.to_nat (m + r))) as [row|] eqn:Erow; [|discriminate]. cbn [option_map] in Hq.
      assert (Lr : length row = w). { unfold wf in Hwf. rewrite Forall_forall in Hwf. rewrite (Hwf row (nth_error_In _ _ Erow)). exact Lw. }
      destruct (Nat.lt_ge_cases j (Z.to_nat (m' + r'))) as [C3|C3].
      * rewrite nth_error_app1 in Hq by (rewrite repeat_length; lia). apply RI in Hq. exact Hq.
      * rewrite nth_error_app2 in Hq by (rewrite repeat_length; lia). rewrite repeat_length in Hq. rewrite nth_error_app2 in Hq by lia. apply RI in Hq. exact Hq.
    + rewrite nth_error_app2 in Hq by (rewrite map_length; unfold im_h in Lh; lia).
      destruct (nth_error (repeat _ (Z.to_nat m)) _) as [row|] eqn:Erow; [|discriminate]. apply RI in Erow. eapply Blank; eassumption.
Qed.
Print Assumptions c23_pad.

(** A size smaller than the image is refused. *)
Theorem c23_pad_too_small : forall (A : Type) (zero : A) (x : image A) ext,
  Z.of_nat (im_h x) > fst ext \/ Z.of_nat (im_w x) > snd ext -> pad zero x ext = Err ValueError.
Proof. intros A zero x ext. apply pad_err. Qed.
Print Assumptions c23_pad_too_small.

(** Cropping undoes padding when at least two rows and two columns were added. *)
Theorem c23_crop_pad_partial : forall (A : Type) (zero : A) (x : image A) h w eh ew, array h w x -> (h + 2 <= eh)%nat -> (w + 2 <= ew)%nat ->
  exists p, pad zero x (Z.of_nat eh, Z.of_nat ew) = Ok p /\ crop zero p (Z.of_nat h, Z.of_nat w) = x.
Proof.
  intros A zero x h w eh ew Hx Hh Hw. apply array_wf in Hx. destruct Hx as (Hwf & Lh & Lw).
  destruct (pad zero x (Z.of_nat eh, Z.of_nat ew)) as [p|] eqn:Hp; [|rewrite pad_ok in Hp; [discriminate|cbn [fst]; lia|cbn [snd]; lia]].
  exists p. split; [reflexivity|]. subst h w. eapply crop_pad; [exact Hwf| | |exact Hp]; cbn [fst snd]; lia.
Qed.
Print Assumptions c23_crop_pad_partial.

(** With zero or one added row (or column) the cropped array is empty: the stop of the slice is -0. *)
Theorem c23_zero_margin_refuted : forall (A : Type) (zero : A) (x : image A) h w eh ew, array h w x ->
  (h <= eh <= h + 1)%nat \/ (w <= ew <= w + 1)%nat -> (h <= eh)%nat -> (w <= ew)%nat ->
  exists p, pad zero x (Z.of_nat eh, Z.of_nat ew) = Ok p /\
    let c := crop zero p (Z.of_nat h, Z.of_nat w) in im_h c = 0%nat \/ im_w c = 0%nat.
Proof.
  intros A zero x h w eh ew Hx Hc Hh Hw. apply array_wf in Hx. destruct Hx as (Hwf & Lh & Lw).
  destruct (pad zero x (Z.of_nat eh, Z.of_nat ew)) as [p|] eqn:Hp; [|rewrite pad_ok in Hp; [discriminate|cbn [fst]; lia|cbn [snd]; lia]].
  exists p. split; [reflexivity|].
  destruct (padded_size_ok zero x (Z.of_nat eh, Z.of_nat ew) Hwf ltac:(cbn [fst]; lia) ltac:(cbn [snd]; lia) p Hp) as (Wp & Ph & Pw). cbn [fst snd] in Ph, Pw.
  destruct (crop_size zero p (Z.of_nat h, Z.of_nat w) Wp ltac:(cbn [fst]; lia) ltac:(cbn [snd]; lia)) as (_ & _ & _ & K1 & K2 & _ & _). cbn [fst snd] in K1, K2.
  cbn zeta. destruct Hc as [Hc|Hc]; [left; apply K1; lia|right; apply K2; lia].
Qed.
Print Assumptions c23_zero_margin_refuted.

(** crop returns the requested height exactly when the image is at least two rows higher (or no row is requested);
    the same for the width.  It never raises. *)
Theorem c23_crop_size_partial : forall (A : Type) (zero : A) (x : image A) h w sh sw, array h w x ->
  let c := crop zero x (Z.of_nat sh, Z.of_nat sw) in
  array (im_h c) (im_w c) c /\
  (im_h c = sh <-> (sh + 2 <= h)%nat \/ sh = 0%nat) /\ (im_w c = sw <-> (sw + 2 <= w)%nat \/ sw = 0%nat).
Proof.
  intros A zero x h w sh sw Hx c. apply array_wf in Hx. destruct Hx as (Hwf & Lh & Lw).
  destruct (crop_size zero x (Z.of_nat sh, Z.of_nat sw) Hwf ltac:(cbn [fst]; lia) ltac:(cbn [snd]; lia)) as (W & K1 & K2 & K3 & K4 & K5 & K6).
  cbn [fst snd] in *. fold c in W, K1, K2, K3, K4, K5, K6. split; [apply array_wf; auto|]. split; split; lia.
Qed.
Print Assumptions c23_crop_size_partial.

Example c23_example : exists p, pad 0 (mk_image 2%nat [[1; 2]; [3; 4]]) (5, 4) = Ok p /\
  im_rows p = [[0; 0; 0; 0]; [0; 0; 0; 0]; [0; 1; 2; 0]; [0; 3; 4; 0]; [0; 0; 0; 0]] /\
  crop 0 p (2, 2) = mk_image 2%nat [[1; 2]; [3; 4]].
Proof. eexists. split; [vm_compute; reflexivity|]. split; vm_compute; reflexivity. Qed.
Example c23_example_empty : crop 0 (mk_image 2%nat [[1; 2]; [3; 4]]) (2, 2) = mk_image 0%nat [].
Proof. vm_compute. reflexivity. Qed.

(** ** C24, C53 *)
(** The Fourier transforms and products keep the size of their arguments. *)
Definition keeps_size2 {A} (f : image A -> image A -> image A) : Prop := forall h w a b, array h w a -> array h w b -> array h w (f a b).
Definition keeps_size {A} (f : image A -> image A) : Prop := forall h w a, array h w a -> array h w (f a).

Lemma pad_array {A} (zero : A) x h w eh ew : array h w x -> (h <= eh)%nat -> (w <= ew)%nat ->
  exists p, pad zero x (Z.of_nat eh, Z.of_nat ew) = Ok p /\ array eh ew p.
Proof. intros H1 H2 H3. destruct (c23_pad A zero x h w eh ew H1 H2 H3) as (p & _ & _ & Hp & Ha & _). eauto. Qed.

(** The response has the size of the patch, for patches of at least 6 x 6 pixels. *)
Theorem c24_response_size_partial : forall (A : Type) (zero : A) circular spectrum (filter patch : image A) h w,
  keeps_size2 circular -> keeps_size spectrum -> array h w filter -> array h w patch -> (6 <= h)%nat -> (6 <= w)%nat ->
  exists c, expert_response zero circular spectrum (Z.of_nat h, Z.of_nat w) filter patch = Ok c /\ array h w c.
Proof.
  intros A zero circ spec f x h w Hc Hs Hf Hx Hh Hw. unfold expert_response, padded_size. cbn [fst snd].
  set (eh := Z.to_nat (3 * Z.of_nat h / 2 - 1)). set (ew := Z.to_nat (3 * Z.of_nat w / 2 - 1)).
  assert (Dh : Z.of_nat eh = 3 * Z.of_nat h / 2 - 1 /\ (h + 2 <= eh)%nat) by (unfold eh; pose proof (Z.div_mod (3 * Z.of_nat h) 2 ltac:(lia)); pose proof (Z.mod_pos_bound (3 * Z.of_nat h) 2 ltac:(lia)); lia).
  assert (Dw : Z.of_nat ew = 3 * Z.of_nat w / 2 - 1 /\ (w + 2 <= ew)%nat) by (unfold ew; pose proof (Z.div_mod (3 * Z.of_nat w) 2 ltac:(lia)); pose proof (Z.mod_pos_bound (3 * Z.of_nat w) 2 ltac:(lia)); lia).
  destruct Dh as [Dh Dh'], Dw as [Dw Dw']. rewrite <- Dh, <- Dw.
  destruct (pad_array zero f h w eh ew Hf ltac:(lia) ltac:(lia)) as (pf & Ef & Af). rewrite Ef. cbn [bind].
  pose proof (Hs _ _ _ Af) as As. unfold convolve_sum_fft, zh, zw.
  pose proof (proj1 (array_wf _ _ _) As) as (_ & Lh & Lw). rewrite Lh, Lw.
  destruct (pad_array zero x h w eh ew Hx ltac:(lia) ltac:(lia)) as (px & Ex & Ax). rewrite Ex. cbn [bind finish].
  eexists. split; [reflexivity|]. pose proof (Hc _ _ _ _ As Ax) as Ac.
  pose proof (proj1 (array_wf _ _ _) Hx) as (_ & Xh & Xw). rewrite Xh, Xw.
  destruct (c23_crop_size_partial A zero _ eh ew h w Ac) as (W & K1 & K2).
  rewrite (proj2 K1), (proj2 K2) in W by (left; assumption). exact W.
Qed.
Print Assumptions c24_response_size_partial.

(** For patches of 2 to 5 pixels in some direction the response is empty. *)
Theorem c24_small_patch_refuted : forall (A : Type) (zero : A) circular spectrum (filter patch : image A) h w,
  keeps_size2 circular -> keeps_size spectrum -> array h w filter -> array h w patch -> (2 <= h)%nat -> (2 <= w)%nat ->
  (h <= 5)%nat \/ (w <= 5)%nat ->
  exists c, expert_response zero circular spectrum (Z.of_nat h, Z.of_nat w) filter patch = Ok c /\ (im_h c = 0%nat \/ im_w c = 0%nat).
Proof.
  intros A zero circ spec f x h w Hc Hs Hf Hx Hh Hw Hsmall. unfold expert_response, padded_size. cbn [fst snd].
  set (eh := Z.to_nat (3 * Z.of_nat h / 2 - 1)). set (ew := Z.to_nat (3 * Z.of_nat w / 2 - 1)).
  assert (Dh : Z.of_nat eh = 3 * Z.of_nat h / 2 - 1 /\ (h <= eh)%nat /\ ((h <= 5)%nat -> (eh <= h + 1)%nat)) by (unfold eh; pose proof (Z.div_mod (3 * Z.of_nat h) 2 ltac:(lia)); pose proof (Z.mod_pos_bound (3 * Z.of_nat h) 2 ltac:(lia)); lia).
  assert (Dw : Z.of_nat ew = 3 * Z.of_nat w / 2 - 1 /\ (w <= ew)%nat /\ ((w <= 5)%nat -> (ew <= w + 1)%nat)) by (unfold ew; pose proof (Z.div_mod (3 * Z.of_nat w) 2 ltac:(lia)); pose proof (Z.mod_pos_bound (3 * Z.of_nat w) 2 ltac:(lia)); lia).
  destruct Dh as (Dh & Dh' & Dh''), Dw as (Dw & Dw' & Dw''). rewrite <- Dh, <- Dw.
  destruct (pad_array zero f h w eh ew Hf ltac:(lia) ltac:(lia)) as (pf & Ef & Af). rewrite Ef. cbn [bind].
  pose proof (Hs _ _ _ Af) as As. unfold convolve_sum_fft, zh, zw.
  pose proof (proj1 (array_wf _ _ _) As) as (_ & Lh & Lw). rewrite Lh, Lw.
  destruct (pad_array zero x h w eh ew Hx ltac:(lia) ltac:(lia)) as (px & Ex & Ax). rewrite Ex. cbn [bind finish].
  eexists. split; [reflexivity|]. pose proof (Hc _ _ _ _ As Ax) as Ac. pose proof (proj1 (array_wf _ _ _) Ac) as (Wc & Ch & Cw).
  pose proof (proj1 (array_wf _ _ _) Hx) as (_ & Xh & Xw). rewrite Xh, Xw.
  destruct (crop_size zero (circ (spec pf) px) (Z.of_nat h, Z.of_nat w) Wc ltac:(cbn [fst]; lia) ltac:(cbn [snd]; lia)) as (_ & _ & _ & K3 & K4 & _).
  cbn [fst snd] in K3, K4. destruct Hsmall as [S|S]; [left; apply K3|right; apply K4]; lia.
Qed.
Print Assumptions c24_small_patch_refuted.

(** One pixel patches cannot be trained: the filter cannot be padded to size 0. *)
Theorem c24_one_pixel_raises : forall (A : Type) (zero : A) circular spectrum (filter patch : image A),
  array 1 1 filter -> expert_response zero circular spectrum (1, 1) filter patch = Err ValueError.
Proof.
  intros A zero circ spec f x Hf. apply array_wf in Hf. destruct Hf as (_ & Lh & Lw). unfold expert_response, padded_size. cbn [fst snd].
  rewrite pad_err; [reflexivity|]. rewrite Lh. left. reflexivity.
Qed.
Print Assumptions c24_one_pixel_raises.
(** So an expert answers with a map of the size of its patch if and only if both sides have at least six pixels. *)
Theorem c24_response_size_iff : forall (A : Type) (zero : A) circular spectrum (filter patch : image A) h w,
  keeps_size2 circular -> keeps_size spectrum -> array h w filter -> array h w patch -> (1 <= h)%nat -> (1 <= w)%nat ->
  ((exists c, expert_response zero circular spectrum (Z.of_nat h, Z.of_nat w) filter patch = Ok c /\ array h w c) <-> (6 <= h)%nat /\ (6 <= w)%nat).
Proof.
  intros A zero circ spec f x h w Hc Hs Hf Hx Hh Hw. split.
  - intros (c & E & Ac). destruct (le_lt_dec 2 h) as [H2|H2]; [destruct (le_lt_dec 2 w) as [W2|W2]|].
    + destruct (le_lt_dec 6 h) as [H6|H6]; [destruct (le_lt_dec 6 w) as [W6|W6]; [split; assumption|]|].
      * destruct (c24_small_patch_refuted A zero circ spec f x h w Hc Hs Hf Hx H2 W2 ltac:(right; lia)) as (c' & E' & Z).
        rewrite E in E'. injection E' as <-. apply array_wf in Ac. lia.
      * destruct (c24_small_patch_refuted A zero circ spec f x h w Hc Hs Hf Hx H2 W2 ltac:(left; lia)) as (c' & E' & Z).
        rewrite E in E'. injection E' as <-. apply array_wf in Ac. lia.
    + exfalso. assert (w = 1%nat) by lia. subst w. apply array_wf in Hf. destruct Hf as (_ & Lh & Lw). unfold expert_response, padded_size in E.
      cbn [fst snd] in E. rewrite pad_err in E; [discriminate|]. cbn [fst snd]. rewrite Lw. right. reflexivity.
    + exfalso. assert (h = 1%nat) by lia. subst h. apply array_wf in Hf. destruct Hf as (_ & Lh & Lw). unfold expert_response, padded_size in E.
      cbn [fst snd] in E. rewrite pad_err in E; [discriminate|]. cbn [fst snd]. rewrite Lh. left. reflexivity.
  - intros [H6 W6]. apply c24_response_size_partial; assumption.
Qed.
Print Assumptions c24_response_size_iff.

(** Spatial convolution: 'same' gives the size of the image for filters of at least 6 x 6 pixels that fit, an empty
    array for filters of 2 to 5 pixels. *)
Theorem c53_same_size_partial : forall (A : Type) (zero : A) circular (x f : image A) h w fh fw,
  keeps_size2 circular -> array h w x -> array fh fw f -> (2 <= fh)%nat -> (2 <= fw)%nat ->
  (fh + 1 <= h + Nat.div2 fh)%nat -> (fw + 1 <= w + Nat.div2 fw)%nat ->
  exists c, convolve_spatial zero circular Same x f = Ok c /\
    ((6 <= fh)%nat -> (6 <= fw)%nat -> array h w c) /\
    ((fh <= 5)%nat -> im_h c = 0%nat) /\ ((fw <= 5)%nat -> im_w c = 0%nat).
Proof.
  intros A zero circ x f h w fh fw Hc Hx Hf H2h H2w Hfh Hfw. unfold convolve_spatial, zh, zw. cbn [fst snd].
  pose proof (proj1 (array_wf _ _ _) Hx) as (_ & Xh & Xw). pose proof (proj1 (array_wf _ _ _) Hf) as (_ & Fh & Fw). rewrite Xh, Xw, Fh, Fw.
  assert (D : forall n, Z.of_nat n / 2 = Z.of_nat (Nat.div2 n)).
  { intros n. rewrite Nat.div2_div. rewrite Nat2Z.inj_div. reflexivity. }
  rewrite !D. pose proof (Nat.div2_odd fh) as O1. pose proof (Nat.div2_odd fw) as O2.
  set (hf := Nat.div2 fh) in *. set (wf' := Nat.div2 fw) in *.
  assert (B1 : (Nat.b2n (Nat.odd fh) <= 1)%nat) by (destruct (Nat.odd fh); cbn; lia). assert (B2 : (Nat.b2n (Nat.odd fw) <= 1)%nat) by (destruct (Nat.odd fw); cbn; lia).
  replace (Z.of_nat h + Z.of_nat hf - 1) with (Z.of_nat (h + hf - 1)) by lia. replace (Z.of_nat w + Z.of_nat wf' - 1) with (Z.of_nat (w + wf' - 1)) by lia.
  destruct (pad_array zero x h w (h + hf - 1) (w + wf' - 1) Hx ltac:(lia) ltac:(lia)) as (px & Ex & Ax). rewrite Ex. cbn [bind].
  destruct (pad_array zero f fh fw (h + hf - 1) (w + wf' - 1) Hf ltac:(lia) ltac:(lia)) as (pf & Ef & Af). rewrite Ef. cbn [bind finish].
  eexists. split; [reflexivity|]. pose proof (Hc _ _ _ _ Af Ax) as Ac. pose proof (proj1 (array_wf _ _ _) Ac) as (Wc & Ch & Cw).
  split.
  - intros G1 G2. destruct (c23_crop_size_partial A zero _ _ _ h w Ac) as (W & K1 & K2). rewrite (proj2 K1), (proj2 K2) in W by lia. exact W.
  - destruct (crop_size zero (circ pf px) (Z.of_nat h, Z.of_nat w) Wc ltac:(cbn [fst]; lia) ltac:(cbn [snd]; lia)) as (_ & _ & _ & K3 & K4 & _).
    cbn [fst snd] in K3, K4. split; intros G; [apply K3|apply K4]; lia.
Qed.
Print Assumptions c53_same_size_partial.

(** fft_convolve2d with a filter given in the frequency domain only works in mode 'full'. *)
Theorem c53_fft_filter_refuted : forall (A : Type) (zero : A) circular (x fft_f : image A) h w fh fw m,
  array h w x -> array fh fw fft_f -> (h <= fh)%nat -> (w <= fw)%nat ->
  match m with
  | Full => exists c, convolve_fft zero circular m x fft_f = Ok c
  | Same | Valid => convolve_fft zero circular m x fft_f = Err NameError
  | OtherMode => convolve_fft zero circular m x fft_f = Err ValueError
  end.
Proof.
  intros A zero circ x f h w fh fw m Hx Hf Hh Hw. pose proof (proj1 (array_wf _ _ _) Hf) as (_ & Fh & Fw).
  destruct (pad_array zero x h w fh fw Hx Hh Hw) as (px & Ex & _). unfold convolve_fft, zh, zw. rewrite Fh, Fw, Ex. cbn [bind].
  destruct m; cbn [finish]; eauto.
Qed.
Print Assumptions c53_fft_filter_refuted.

(** fft_convolve2d_sum given the spectrum of the padded filter does, in every mode, what it does given the filter itself, when
    the filter has the size of the image (the patches of the experts).  [spectrum] stands for fft2. *)
Theorem c53_spectrum_agrees : forall (A : Type) (zero : A) circular spectrum (x f : image A) h w m, keeps_size spectrum ->
  array h w x -> array h w f -> (2 <= h)%nat -> (2 <= w)%nat ->
  exists pf, pad zero f (Z.of_nat (h + Nat.div2 h - 1), Z.of_nat (w + Nat.div2 w - 1)) = Ok pf /\
    convolve_sum_fft zero circular m x (spectrum pf) = convolve_spatial zero (fun a b => circular (spectrum a) b) m x f.
Proof.
  intros A zero circ spec x f h w m Hs Hx Hf H2 W2.
  assert (D : forall n, Z.of_nat n / 2 = Z.of_nat (Nat.div2 n)).
  { intros n. rewrite Nat.div2_div, Nat2Z.inj_div. reflexivity. }
  assert (R : forall n, (2 <= n)%nat -> 2 * (Z.of_nat (n + Nat.div2 n - 1) + 1) / 3 / 2 = Z.of_nat n / 2).
  { intros n Hn. pose proof (Nat.div2_odd n) as O. rewrite D. destruct (Nat.odd n); cbn [Nat.b2n] in O.
    - replace (2 * (Z.of_nat (n + Nat.div2 n - 1) + 1)) with (2 + (2 * Z.of_nat (Nat.div2 n)) * 3) by lia.
      rewrite Z.div_add by lia. change (2 / 3) with 0. rewrite Z.add_0_l, Z.mul_comm. apply Z.div_mul. lia.
    - replace (2 * (Z.of_nat (n + Nat.div2 n - 1) + 1)) with ((Z.of_nat (Nat.div2 n) * 2) * 3) by lia.
      rewrite Z.div_mul by lia. apply Z.div_mul. lia. }
  assert (G : forall n, (2 <= n)%nat -> (1 <= Nat.div2 n)%nat) by (intros [|[|n]] Hn; cbn; lia).
  pose proof (G h H2). pose proof (G w W2).
  destruct (pad_array zero f h w (h + Nat.div2 h - 1) (w + Nat.div2 w - 1) Hf ltac:(lia) ltac:(lia)) as (pf & Ef & Af).
  exists pf. split; [exact Ef|].
  pose proof (proj1 (array_wf _ _ _) (Hs _ _ _ Af)) as (_ & Sh & Sw).
  pose proof (proj1 (array_wf _ _ _) Hx) as (_ & Xh & Xw). pose proof (proj1 (array_wf _ _ _) Hf) as (_ & Fh & Fw).
  unfold convolve_sum_fft, convolve_spatial, zh, zw. rewrite Sh, Sw, Xh, Xw, Fh, Fw. cbn [fst snd].
  rewrite !R, !D by assumption.
  replace (Z.of_nat h + Z.of_nat (Nat.div2 h) - 1) with (Z.of_nat (h + Nat.div2 h - 1)) by lia.
  replace (Z.of_nat w + Z.of_nat (Nat.div2 w) - 1) with (Z.of_nat (w + Nat.div2 w - 1)) by lia.
  rewrite Ef. destruct (pad zero x _); reflexivity.
Qed.
Print Assumptions c53_spectrum_agrees.
(** For other sizes the size of the filter cannot be recovered: a 12 x 12 image and a 6 x 6 filter give, in mode 'valid', an
    8 x 8 array from the spectrum and a 10 x 10 array from the filter. *)
Theorem c53_spectrum_refuted : exists (x f pf c1 c2 : image Z), array 12 12 x /\ array 6 6 f /\ pad 0 f (14, 14) = Ok pf /\
  convolve_sum_fft 0 (fun a b => b) Valid x pf = Ok c1 /\ convolve_spatial 0 (fun a b => b) Valid x f = Ok c2 /\
  array 8 8 c1 /\ array 10 10 c2.
Proof.
  exists (mk_image 12%nat (repeat (repeat 1 12) 12)), (mk_image 6%nat (repeat (repeat 1 6) 6)). do 3 eexists.
  assert (K : forall h w l, length l = h -> forallb (fun r : list Z => Nat.eqb (length r) w) l = true -> array h w (mk_image w l)).
  { intros h w l L B. split; [reflexivity|]. split; [exact L|]. apply Forall_forall. intros r Hr.
    rewrite forallb_forall in B. apply Nat.eqb_eq, B, Hr. }
  split; [apply K; reflexivity|]. split; [apply K; reflexivity|]. split; [vm_compute; reflexivity|].
  split; [vm_compute; reflexivity|]. split; [vm_compute; reflexivity|]. split; apply K; reflexivity.
Qed.
Print Assumptions c53_spectrum_refuted.

(** A concrete response: the hypotheses are met by pointwise arithmetic on 6 x 6 patches. *)
Definition zip_image (a b : image Z) : image Z :=
  mk_image (im_w a) (map (fun rs => map (fun pq => fst pq * snd pq) (combine (fst rs) (snd rs))) (combine (im_rows a) (im_rows b))).
Lemma zip_keeps : keeps_size2 zip_image.
Proof.
  intros h w a b (Wa & La & Fa) (Wb & Lb & Fb). split; [exact Wa|]. split.
  - cbn [zip_image im_rows]. rewrite map_length, combine_length. lia.
  - cbn [zip_image im_rows]. apply Forall_forall. intros r Hr. apply in_map_iff in Hr. destruct Hr as ([r1 r2] & <- & Hr). cbn [fst snd].
    rewrite map_length, combine_length. rewrite Forall_forall in Fa, Fb. rewrite (Fa _ (in_combine_l _ _ _ _ Hr)), (Fb _ (in_combine_r _ _ _ _ Hr)). lia.
Qed.
Example c24_example : let p := mk_image 6%nat (repeat (repeat 1 6) 6) in
  exists c, expert_response 0 zip_image (fun x => x) (6, 6) p p = Ok c /\ array 6 6 c.
Proof.
  intros p. assert (Hp : array 6 6 p) by (split; [reflexivity|]; split; [reflexivity|]; repeat constructor).
  apply (c24_response_size_partial Z 0 zip_image (fun x => x) p p 6 6); [exact zip_keeps|intros ? ? ? H; exact H|exact Hp|exact Hp|lia|lia].
Qed.
