(** A concrete world in which the assumptions on menpo hold: resizing halves, feature [f] cuts off a border
    of [f] pixels, algorithms move every point by one. *)
From Coq Require Import String List ZArith QArith Qcanon Bool Lia.
From Verif.Model Require Import Py Dict Affine Result Fitter.
From Verif.Spec Require Import Result Fitter.
From Verif.Proofs Require Dict Affine.
Import ListNotations.
Local Open Scope Qc_scope.

Definition demo_world (im : image aff) : aff := px im.

Definition move_lms (t : aff) (d : dict shape) : dict shape := map (fun kv => (fst kv, apply t (snd kv))) d.

Lemma get_move t d g s : dict_get g d = Some s -> dict_get g (move_lms t d) = Some (apply t s).
Proof.
  induction d as [|[k v] d IH]; cbn; [discriminate|]. destruct (String.eqb g k); auto. intros [= ->]. reflexivity.
Qed.

(** The image resampled so that [t] maps its coordinates to those of [im]. *)
Definition resample (t : aff) (im : image aff) : image aff :=
  mkImage (compose_after (px im) t) (move_lms (inverse t) (lms im)).

Lemma resample_carries t im : det t <> 0 -> carries demo_world im (resample t im).
Proof.
  intros H g s Hs. exists (apply (inverse t) s). split; [apply get_move; exact Hs|].
  unfold demo_world. cbn. rewrite Affine.apply_compose, Affine.apply_inverse_r by exact H. reflexivity.
Qed.

Definition demo_resize (im : image aff) (ref : shape) (g : string) : res (image aff) :=
  Ok (resample (scale_aff (Q2Qc 2)) (mkImage id_aff (lms im))).

Definition demo_feature (f : nat) (im : image aff) : res (image aff) :=
  if Qc_eq_bool (det (px im)) 0 then Err (UserExn 1)
  else Ok (resample (translation (Q2Qc (inject_Z (Z.of_nat f)), 0)) im).

Definition demo_rescale (im : image aff) (q : Qc) : res (image aff * aff) :=
  if Qc_eq_bool q 0 then Err (UserExn 2)
  else let t := scale_aff (/ q) in Ok (resample t im, t).

(** Affine map taking three source points to three target points. *)
Definition cross3 (p q r : point) : Qc :=
  (fst q - fst p) * (snd r - snd p) - (snd q - snd p) * (fst r - fst p).
Definition solve3 (p q r : point * point) : list aff :=
  let '((x1, y1), (u1, v1)) := p in
  let '((x2, y2), (u2, v2)) := q in
  let '((x3, y3), (u3, v3)) := r in
  let D := cross3 (x1, y1) (x2, y2) (x3, y3) in
  if Qc_eq_bool D 0 then [] else
  let a := ((u2 - u1) * (y3 - y1) - (u3 - u1) * (y2 - y1)) / D in
  let b := ((u3 - u1) * (x2 - x1) - (u2 - u1) * (x3 - x1)) / D in
  let c := ((v2 - v1) * (y3 - y1) - (v3 - v1) * (y2 - y1)) / D in
  let d := ((v3 - v1) * (x2 - x1) - (v2 - v1) * (x3 - x1)) / D in
  [mkAff a b c d (u1 - a * x1 - b * y1) (v1 - c * x1 - d * y1)].
Definition demo_align (src tgt : shape) : res aff :=
  let ps := combine src tgt in
  match flat_map (fun p => flat_map (fun q => flat_map (fun r => solve3 p q r) ps) ps) ps with
  | a :: _ => Ok a
  | [] => Err (UserExn 3)
  end.

Lemma solve3_exact w p q r t :
  In t (solve3 (p, apply_pt w p) (q, apply_pt w q) (r, apply_pt w r)) -> t = w.
Proof.
  destruct p as [x1 y1], q as [x2 y2], r as [x3 y3]. unfold solve3, apply_pt. cbn [fst snd].
  destruct (Qc_eq_bool (cross3 (x1, y1) (x2, y2) (x3, y3)) 0) eqn:E; [intros []|].
  apply Affine.Qceqb_false in E. unfold cross3 in *. cbn [fst snd] in *. intros [<-|[]].
  apply Affine.aff_ext; cbn; field; exact E.
Qed.

Lemma solve3_nonempty p q r u v w : cross3 p q r <> 0 -> solve3 (p, u) (q, v) (r, w) <> [].
Proof.
  destruct p as [x1 y1], q as [x2 y2], r as [x3 y3], u, v, w. unfold solve3. intros H. 
  apply Affine.Qceqb_false in H. rewrite H. discriminate.
Qed.

Lemma cross3_apply w p q r : cross3 (apply_pt w p) (apply_pt w q) (apply_pt w r) = det w * cross3 p q r.
Proof. destruct p, q, r. unfold cross3, apply_pt, det. cbn. ring. Qed.

Lemma combine_apply w s x : In x s -> In (x, apply_pt w x) (combine s (apply w s)).
Proof.
  induction s as [|y s IH]; [intros []|]. intros [->|H]; [left; reflexivity|right; auto].
Qed.
Lemma combine_apply_inv w s x y : In (x, y) (combine s (apply w s)) -> y = apply_pt w x.
Proof.
  induction s as [|z s IH]; [intros []|]. intros [[= -> ->]|H]; auto.
Qed.

Lemma demo_align_exact w s : det w <> 0 -> spans (apply w s) -> demo_align s (apply w s) = Ok w.
Proof.
  intros Hd (p & q & r & Hp & Hq & Hr & Hc). unfold apply in Hp, Hq, Hr.
  apply in_map_iff in Hp, Hq, Hr. destruct Hp as (p0 & <- & Hp). destruct Hq as (q0 & <- & Hq). destruct Hr as (r0 & <- & Hr).
  fold (cross3 (apply_pt w p0) (apply_pt w q0) (apply_pt w r0)) in Hc. rewrite cross3_apply in Hc.
  assert (Hc0 : cross3 p0 q0 r0 <> 0) by (intros E; apply Hc; rewrite E; ring).
  unfold demo_align. set (ps := combine s (apply w s)).
  set (L := flat_map _ ps).
  assert (Hall : forall t, In t L -> t = w).
  { intros t Ht. unfold L in Ht. apply in_flat_map in Ht. destruct Ht as ((a & a') & Ha & Ht).
    apply in_flat_map in Ht. destruct Ht as ((b & b') & Hb & Ht).
    apply in_flat_map in Ht. destruct Ht as ((c & c') & Hc' & Ht).
    apply combine_apply_inv in Ha, Hb, Hc'. subst. eapply solve3_exact. exact Ht. }
  assert (Hne : L <> []).
  { pose proof (solve3_nonempty p0 q0 r0 (apply_pt w p0) (apply_pt w q0) (apply_pt w r0) Hc0) as Hn.
    destruct (solve3 (p0, apply_pt w p0) (q0, apply_pt w q0) (r0, apply_pt w r0)) as [|t l] eqn:Es; [congruence|].
    intros EL. assert (Hin : In t L).
    { unfold L. apply in_flat_map. eexists. split; [apply combine_apply; exact Hp|].
      apply in_flat_map. eexists. split; [apply combine_apply; exact Hq|].
      apply in_flat_map. eexists. split; [apply combine_apply; exact Hr|]. rewrite Es. left. reflexivity. }
    rewrite EL in Hin. exact Hin. }
  destruct L as [|t l]; [congruence|]. rewrite (Hall t (or_introl eq_refl)). reflexivity.
Qed.

Definition step_right : aff := translation (1, 0).
Definition demo_algorithm (i : nat) (im : image aff) (s : shape) (gt : option shape) (k : Z) (rc : bool)
  : res (iresult shape nat nat nat) :=
  nonparametric_result [apply step_right s] (Some s) gt None.

Lemma demo_faithful p : faithful demo_resize demo_feature demo_rescale demo_align demo_algorithm demo_world p.
Proof.
  constructor.
  - intros d ref g im' [= <-]. split; [discriminate|]. intros g' s Hs.
    eexists. split; [apply get_move; exact Hs|]. unfold demo_world. cbn [px resample].
    rewrite Affine.apply_compose, Affine.apply_inverse_r by discriminate. apply Affine.apply_id.
  - intros f im im'. unfold demo_feature. destruct (Qc_eq_bool (det (px im)) 0) eqn:E; [discriminate|].
    apply Affine.Qceqb_false in E. intros [= <-].
    assert (Ht : det (translation (Q2Qc (inject_Z (Z.of_nat f)), 0)) = 1) by (unfold det; cbn; ring).
    split; [|apply resample_carries; rewrite Ht; discriminate].
    unfold demo_world, resample. cbn [px]. rewrite Affine.det_compose, Ht. intros E2. apply E. rewrite <- E2. ring.
  - intros im q im' t. unfold demo_rescale. destruct (Qc_eq_bool q 0) eqn:E; [discriminate|].
    apply Affine.Qceqb_false in E. intros [= <- <-].
    assert (Ht : det (scale_aff (/ q)) <> 0).
    { unfold det, scale_aff. cbn. intros E2.
      assert (E3 : (/ q * / q - 0 * 0) * (q * q) = 1) by (field; exact E).
      rewrite E2 in E3. discriminate. }
    split; [exact Ht|]. split; [reflexivity|]. apply resample_carries. exact Ht.
  - exact demo_align_exact.
  - intros i im s g k rc r [= <-]. cbn. split; [reflexivity|]. eexists. split; reflexivity.
Qed.
