(** C106: the reference shape of training images at another resolution. *)
From Coq Require Import List Reals Lra Lia.
From Verif.Model Require Import Py ErrorR.
From Verif.Spec Require Import ErrorR.
From Verif.Proofs Require Import ErrorR.
Import ListNotations.
Local Open Scope R_scope.

Lemma dilate_add k s t : add_shapes (dilate k s) (dilate k t) = dilate k (add_shapes s t).
Proof.
  revert t. unfold add_shapes, dilate. induction s as [|p s IH]; intros [|q t]; try reflexivity. cbn [map combine]. f_equal; [|apply IH].
  unfold padd. cbn. f_equal; ring.
Qed.
Lemma dilate_mean k shapes : mean_pointcloud (map (dilate k) shapes) = match mean_pointcloud shapes with Ok m => Ok (dilate k m) | Err e => Err e end.
Proof.
  destruct shapes as [|s r]; [reflexivity|]. cbn [map mean_pointcloud].
  assert (E : forallb (fun t => Nat.eqb (length t) (length (dilate k s))) (map (dilate k) r) = forallb (fun t => Nat.eqb (length t) (length s)) r).
  { induction r as [|t r IH]; [reflexivity|]. cbn [map forallb]. rewrite IH. unfold dilate. now rewrite !map_length. }
  rewrite E. destruct (forallb _ r); [|reflexivity]. f_equal. cbn [length]. rewrite map_length.
  assert (E2 : fold_left add_shapes (map (dilate k) r) (dilate k s) = dilate k (fold_left add_shapes r s)).
  { clear E. revert s. induction r as [|t r IH]; intros s; [reflexivity|]. cbn [map fold_left]. rewrite dilate_add. apply IH. }
  rewrite E2. unfold scale_shape, dilate. rewrite !map_map. apply map_ext. intros p. cbn. f_equal; ring.
Qed.
(** With a diagonal the reference shape does not depend on the resolution of the training images (which all have the same one);
    without, it has theirs. *)
Theorem c106_reference : forall k shapes, 0 < k ->
  compute_reference_shape (map (dilate k) shapes) None = match compute_reference_shape shapes None with Ok r => Ok (dilate k r) | Err e => Err e end /\
  forall d, d <> 0 -> (forall m, mean_pointcloud shapes = Ok m -> ~ (height m = 0 /\ width m = 0)) ->
    compute_reference_shape (map (dilate k) shapes) (Some d) = compute_reference_shape shapes (Some d).
Proof.
  intros k shapes Hk. unfold compute_reference_shape. rewrite dilate_mean. split.
  - destruct (mean_pointcloud shapes); reflexivity.
  - intros d Hd Hm. destruct (mean_pointcloud shapes) as [m|e]; cbn [bind]; [|reflexivity]. specialize (Hm m eq_refl).
    destruct (Req_EM_T d 0); [contradiction|]. destruct m as [|p m]; [reflexivity|]. cbn [dilate map]. change ((k * fst p, k * snd p) :: map _ m) with (dilate k (p :: m)).
    rewrite height_dilate, width_dilate, Rabs_pos_eq by lra. set (h := height (p :: m)) in *. set (w := width (p :: m)) in *.
    assert (P : 0 < h ^ 2 + w ^ 2) by (destruct (Req_dec h 0) as [E|E]; [destruct (Req_dec w 0); [tauto|]|]; nra).
    replace ((k * h) ^ 2 + (k * w) ^ 2) with (k ^ 2 * (h ^ 2 + w ^ 2)) by ring.
    rewrite sqrt_mult, sqrt_pow2 by (try lra; apply pow2_ge_0). assert (S : 0 < sqrt (h ^ 2 + w ^ 2)) by (apply sqrt_lt_R0; exact P).
    set (S' := sqrt (h ^ 2 + w ^ 2)) in *. assert (C : forall x, d / (k * S') * (k * x) = d / S' * x) by (intros x; field; lra).
    f_equal. unfold scale_shape, dilate. rewrite map_map. apply map_ext. intros q. cbn [fst snd]. now rewrite !C.
Qed.
Print Assumptions c106_reference.
Example c106_reference_ex : let shapes := [[(0, 0); (3, 4)]] in
  (forall m, mean_pointcloud shapes = Ok m -> ~ (height m = 0 /\ width m = 0)) /\ map (dilate 2) shapes <> shapes /\
  exists r, compute_reference_shape shapes (Some 10) = Ok r.
Proof.
  cbv zeta. split; [|split].
  - intros m [= <-] [H _]. revert H. unfold height. cbn. unfold Rmax, Rmin. repeat destruct Rle_dec; lra.
  - intros [= H1 H2]. lra.
  - unfold compute_reference_shape. cbn. destruct (Req_EM_T 10 0); [lra|]. eexists; reflexivity.
Qed.
