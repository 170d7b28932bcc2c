(** Specification of the generated bounding boxes and of the flow of training shapes. *)
From Coq Require Import String List ZArith Bool.
From Verif.Model Require Import Py Dict Perturb.
Import ListNotations.
Local Open Scope nat_scope.

(** Boxes under the names <prefix>0, <prefix>1, ... in this order. *)
Definition number {V} (prefix : string) (bs : list V) : list (string * V) :=
  map (fun kb => (numbered_key prefix (fst kb), snd kb)) (combine (seq 0 (length bs)) bs).
Definition is_generated {V} (kv : string * V) : bool := prefix bb_prefix (fst kv).

Section Boxes.
  Context {Sh Px : Type}.
  Variable bounding_box : Sh -> Sh.
  Variable constrain : Px -> Sh -> Sh.
  Variable perturb_func : nat -> Sh -> Sh -> res Sh.
  (** The boxes an image must get: per provided box, the boxes of [n] outcomes of the user's function
      (one call each, calls numbered from [c0] on), followed by the provided box itself when [glob]. *)
  Definition outcomes (c0 n : nat) (gt_s : Sh) (i : nat) (bb : Sh) (ps : list Sh) : Prop :=
    length ps = n /\
    forall l s, nth_error ps l = Some s -> perturb_func (c0 + i * n + l) gt_s bb = Ok s.
  Definition boxes_of (glob : bool) (p : Px) (bb : Sh) (ps : list Sh) : list Sh :=
    map (fun s => constrain p (bounding_box s)) ps ++ (if glob then [constrain p bb] else []).
  Definition expected_boxes (c0 n : nat) (glob : bool) (p : Px) (gt_s : Sh) (bbs new : list Sh) : Prop :=
    exists pss, length pss = length bbs /\
      (forall i bb ps, nth_error bbs i = Some bb -> nth_error pss i = Some ps -> outcomes c0 n gt_s i bb ps) /\
      new = concat (map (fun bp => boxes_of glob p (fst bp) (snd bp)) (combine bbs pss)).
End Boxes.

(** *** Training *)
Section Train.
  Context {Sh Px Tr Scene : Type}.
  Notation img := (pimage Sh Px).
  (** Where in the scene a shape given in the coordinates of an image lies. *)
  Variable place : Px -> Sh -> Scene.
  (** Landmarks carried over to another image: same names and order, same places in the scene. *)
  Definition carried (im im' : img) : Prop :=
    Forall2 (fun kv kv' => fst kv = fst kv' /\ place (ppx im) (snd kv) = place (ppx im') (snd kv'))
            (plms im) (plms im').
  (** Two consecutive scales: every estimate of the first is where the second starts from. *)
  Definition continues (a b : @scale_trace Sh Px) : Prop :=
    let '(imgs, _, est) := a in
    let '(imgs', cur', _) := b in
    length imgs' = length imgs /\ length est = length imgs /\ length cur' = length imgs' /\
    forall i im im' es cs, nth_error imgs i = Some im -> nth_error imgs' i = Some im' ->
      nth_error est i = Some es -> nth_error cur' i = Some cs ->
      map (place (ppx im')) cs = map (place (ppx im)) es.
  (** As above for the first [n] estimates of every image only. *)
  Definition continues_first (n : nat) (a b : @scale_trace Sh Px) : Prop :=
    let '(imgs, _, est) := a in
    let '(imgs', cur', _) := b in
    length imgs' = length imgs /\ length est = length imgs /\ length cur' = length imgs' /\
    forall i im im' es cs, nth_error imgs i = Some im -> nth_error imgs' i = Some im' ->
      nth_error est i = Some es -> nth_error cur' i = Some cs ->
      map (place (ppx im')) cs = firstn n (map (place (ppx im)) es).
  Fixpoint chain {A} (R : A -> A -> Prop) (l : list A) : Prop :=
    match l with a :: ((b :: _) as r) => R a b /\ chain R r | _ => True end.

  (** What is assumed of the external code: feature extraction and rescaling carry the landmarks along,
      the transform returned by rescaling maps the new coordinates to the old ones, and an algorithm
      returns one estimate per shape it is given. *)
  Record faithful_training (feature : nat -> img -> res img) (scale_image : nat -> img -> res (img * Tr))
         (tapply : Tr -> Sh -> Sh)
         (train : nat -> list img -> list Sh -> list (list Sh) -> res (list (list Sh))) : Prop := {
    ft_scale : forall j im im' t, scale_image j im = Ok (im', t) ->
      carried im im' /\ forall s, place (ppx im') s = place (ppx im) (tapply t s);
    ft_feature : forall f im im', feature f im = Ok im' -> carried im im';
    ft_train : forall j imgs gts cur est, train j imgs gts cur = Ok est ->
      map (@length Sh) est = map (@length Sh) cur }.
  (** A feature function that does not change the coordinates (as crop-free, stride-free features do). *)
  Definition keeps_coordinates (feature : nat -> img -> res img) (f : nat) : Prop :=
    forall im im', feature f im = Ok im' -> forall s, place (ppx im') s = place (ppx im) s.
  (** Wherever the features change from one scale to the next, the earlier ones keep the coordinates. *)
  Definition changes_keep_coordinates (feature : nat -> img -> res img) (fs : list nat) : Prop :=
    forall i f f', nth_error fs i = Some f -> nth_error fs (S i) = Some f' -> f <> f' -> keeps_coordinates feature f.
  (** No temporary group of the training is present. *)
  Definition no_temporary (im : img) : Prop := forall k, dict_get (sdm_key k) (plms im) = None.
End Train.
