(** What the images handed to the per-scale algorithms are, independently of the transforms menpofit
    computes: every image made on the way has a true map to the coordinates of the user's image. *)
From Coq Require Import String List ZArith QArith Qcanon.
From Verif.Model Require Import Py Dict Affine Result Fitter.
From Verif.Spec Require Import Result.
Import ListNotations.
Local Open Scope nat_scope.

(** Three of the points are not on a line. *)
Definition spans (s : shape) : Prop :=
  exists p q r, In p s /\ In q s /\ In r s /\
    ((fst q - fst p) * (snd r - snd p) - (snd q - snd p) * (fst r - fst p) <> 0)%Qc.

(** A block of one feature, then features each different from the one before. *)
Fixpoint changes_every_time (f : nat) (fs : list nat) : Prop :=
  match fs with [] => True | g :: fs' => g <> f /\ changes_every_time g fs' end.
Fixpoint no_late_repeat (f : nat) (fs : list nat) : Prop :=
  match fs with
  | [] => True
  | g :: fs' => if g =? f then no_late_repeat f fs' else changes_every_time g fs'
  end.

Section World.
  Context {Px P A C : Type}.
  Variable rescale_to_pointcloud : image Px -> shape -> string -> res (image Px).
  Variable feature : nat -> image Px -> res (image Px).
  Variable rescale : image Px -> Qc -> res (image Px * aff).
  Variable alignment_affine : shape -> shape -> res aff.
  Variable algorithm : nat -> image Px -> shape -> option shape -> Z -> bool -> res (iresult shape P A C).
  (** The true map of an image's coordinates to those of the user's image. *)
  Variable world : image Px -> aff.
  (** The pixels of the user's image. *)
  Variable user_px : Px.

  (** A landmark group of [im] is carried along to the same place of the scene in [im']. *)
  Definition carries (im im' : image Px) : Prop :=
    forall g s, dict_get g (lms im) = Some s ->
      exists s', dict_get g (lms im') = Some s' /\ apply (world im') s' = apply (world im) s.

  (** What is assumed of menpo: resizing and feature extraction move landmarks along with the pixels by
      an invertible affine map; rescale returns the map from the new image to the old one; the
      least-squares affine alignment of two exactly related shapes is that relation; algorithms report
      the shape they were started from. *)
  Record faithful : Prop := {
    f_resize : forall d ref g im', rescale_to_pointcloud (mkImage user_px d) ref g = Ok im' ->
      det (world im') <> 0%Qc /\
      (forall g s, dict_get g d = Some s -> exists s', dict_get g (lms im') = Some s' /\ apply (world im') s' = s);
    f_feature : forall f im im', feature f im = Ok im' -> det (world im') <> 0%Qc /\ carries im im';
    f_rescale : forall im q im' t, rescale im q = Ok (im', t) ->
      det t <> 0%Qc /\ world im' = compose_after (world im) t /\ carries im im';
    f_align : forall w s, det w <> 0%Qc -> spans (apply w s) -> alignment_affine s (apply w s) = Ok w;
    f_algorithm : forall i im s g k rc r, algorithm i im s g k rc = Ok r ->
      r_initial r = Some s /\ exists rest, r_shapes r = s :: rest /\ last_res rest = Ok (r_final r) }.

  (** A fit of [n] scales that returned [m]: the per-scale images and results, and how [m] reports them. *)
  Record reported (n : nat) (rc : bool) (init : shape) (gt : option shape) (images : list (image Px))
         (rs : list (iresult shape P A C)) (m : mresult shape P A C) : Prop := {
    rp_images : length images = n;
    rp_results : length rs = n;
    rp_ran : forall j im r, nth_error images j = Some im -> nth_error rs j = Some r ->
      exists s g k, algorithm j im s g k rc = Ok r /\
        (forall g0, g = Some g0 -> exists g1, gt = Some g1 /\ apply (world im) g0 = g1);
    rp_initial : r_initial (m_res m) = Some init;
    rp_shapes : r_shapes (m_res m)
      = init :: concat (map (fun ir => map (apply (world (fst ir))) (tl (r_shapes (snd ir)))) (combine images rs));
    rp_final : forall im r, nth_error images (n - 1) = Some im -> nth_error rs (n - 1) = Some r ->
      r_final (m_res m) = apply (world im) (r_final r);
    rp_gt : r_gt (m_res m) = gt }.
End World.

(** A result class whose shapes are those of the multi-scale result. *)
Definition builds_on {P A C} (build : list (iresult shape P A C) -> nat -> list (shape -> shape) ->
    list (shape -> shape) -> option shape -> res (mresult shape P A C)) : Prop :=
  forall rs n affs scs gt m, build rs n affs scs gt = Ok m ->
    exists m0, multi_nonparametric rs n affs scs gt = Ok m0 /\
      r_initial (m_res m) = r_initial (m_res m0) /\ r_shapes (m_res m) = r_shapes (m_res m0) /\
      r_final (m_res m) = r_final (m_res m0) /\ r_gt (m_res m) = r_gt (m_res m0).
