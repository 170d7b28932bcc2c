(** Instances and random instances of the trained models: AAM, ATM, APS and unified AAM-CLM. *)
From Coq Require Import ZArith.
From mathcomp Require Import all_ssreflect all_algebra.
From Verif.Model Require Import Py PyIndex.
Set Implicit Arguments.
Unset Strict Implicit.
Unset Printing Implicit Defensive.
Import GRing.Theory Num.Theory.
Local Open Scope ring_scope.

(** A [patch_shape] argument: one pair, or the list of the pairs of all scales. *)
Inductive patch_arg := OneShape of nat * nat | AllShapes of seq (nat * nat).

(** The kinds of AAM / ATM: the holistic class and its masked, linear, linear masked and patch-based
    subclasses. *)
Inductive kind := Holistic | Masked | LinearKind | LinearMaskedKind | PatchKind.

(** What an [_instance] method returns.  [Warped texture landmarks_of shape patch]: the image [texture]
    warped into the reference frame built around [shape] ([build_reference_frame], or
    [build_patch_reference_frame] with the patch shape given), the transform going from that frame's
    landmarks to those of [landmarks_of].  [Both]: a pair.  The menpo calls (frames, transforms, warps)
    are not interpreted: only their arguments are recorded. *)
Inductive rendered (V W : Type) :=
| Warped (texture : W) (landmarks_of : W) (shape : V) (patch : option patch_arg)
| Both (shape : V) (texture : W).

Section Instances.
  Variable F : rcfType.

  (** A [menpo.model.PCAModel]: mean, components with their eigenvalues, number of active ones (the
      setter of menpo keeps it within the number of components). *)
  Record pca (V : lmodType F) := Pca {
    p_mean : V;
    p_comps : seq (F * V);
    p_active : nat }.
  (** [n_active_components] *)
  Definition n_active V (m : pca V) : nat := minn (p_active m) (size (p_comps m)).

  (** The component and the eigenvalue of index [i]. *)
  Definition comp V (m : pca V) i : V := (nth (0, 0) (p_comps m) i).2.
  Definition ev V (m : pca V) i : F := (nth (0, 0) (p_comps m) i).1.

  (** [PCAModel.instance(weights, normalized_weights=True)] (menpo): at most [n_active_components]
      weights, padded with zeros, multiplied by the square roots of the eigenvalues. *)
  Definition pca_instance V (m : pca V) (w : seq F) : res V :=
    if (size w <= n_active m)%N
    then Ok (p_mean m + \sum_(i < n_active m) (nth 0 w i * Num.sqrt (ev m i)) *: comp m i)
    else Err ValueError.

  (** A default of [None] is replaced by [[0]]: aam/base.py 449-452, atm/base.py 395-396, aps/base.py
      508-509, unified_aam_clm/base.py 376-379. *)
  Definition weights_or_zero (w : option (seq F)) : seq F := if w is Some w then w else [:: 0].

  (** [shape_instance], clm/base.py 365-387, unified_aam_clm/base.py 328-349 *)
  Definition shape_instance (V : lmodType F) (models : seq (pca V)) (ws : option (seq F)) (k : Z) : res V :=
    let? sm := py_at models k in
    pca_instance sm (weights_or_zero ws).

  (** *** AAM *)
  Section Aam.
    Variables V W : lmodType F.
    (** A trained AAM: class, shape models ([.model] of the shape model of every scale), appearance
        models, patch shapes. *)
    Record aam := Aam {
      aam_kind : kind;
      aam_shape : seq (pca V);
      aam_app : seq (pca W);
      aam_patch : seq (nat * nat) }.

    (** [_instance]: aam/base.py 487-497 (holistic), 686-698 (masked), 842-843 and 1021-1022 (linear,
        linear masked), 1185-1186 (patch); unified_aam_clm/base.py 412-422 (holistic only). *)
    Definition aam_instance_at (a : aam) (k : Z) (s : V) (t : W) : res (rendered V W) :=
      match aam_kind a with
      | Holistic => let? am := py_at (aam_app a) k in Ok (Warped t (p_mean am) s None)
      | Masked =>
          let? am := py_at (aam_app a) k in
          let? ps := py_at (aam_patch a) k in
          Ok (Warped t (p_mean am) s (Some (OneShape ps)))
      | LinearKind | LinearMaskedKind => Err NotImplementedError
      | PatchKind => Ok (Both s t)
      end.

    (** [instance], aam/base.py 426-460, unified_aam_clm/base.py 351-387 *)
    Definition aam_instance (a : aam) (ws wa : option (seq F)) (k : Z) : res (rendered V W) :=
      let? sm := py_at (aam_shape a) k in
      let? am := py_at (aam_app a) k in
      let? s := pca_instance sm (weights_or_zero ws) in
      let? t := pca_instance am (weights_or_zero wa) in
      aam_instance_at a k s t.

    (** [random_instance], aam/base.py 462-485, unified_aam_clm/base.py 389-410; [r1] and [r2] are the
        two calls of [np.random.randn], both given the number of active components of the shape model. *)
    Definition aam_random (a : aam) (r1 r2 : nat -> seq F) (k : Z) : res (rendered V W) :=
      let? sm := py_at (aam_shape a) k in
      let? am := py_at (aam_app a) k in
      let? s := pca_instance sm (r1 (n_active sm)) in
      let? t := pca_instance am (r2 (n_active sm)) in
      aam_instance_at a k s t.
  End Aam.

  (** *** ATM *)
  Section Atm.
    Variables (V : lmodType F) (W : Type).
    Record atm := Atm {
      atm_kind : kind;
      atm_shape : seq (pca V);
      atm_templates : seq W;
      atm_patch : seq (nat * nat) }.

    (** [_instance]: atm/base.py 426-436 (holistic), 576-587 (masked: [patch_shape=self.patch_shape], the
        list of all scales), 721-722 and 885-886 (linear, linear masked), 1027-1028 (patch). *)
    Definition atm_instance_at (a : atm) (s : V) (t : W) : res (rendered V W) :=
      match atm_kind a with
      | Holistic => Ok (Warped t t s None)
      | Masked => Ok (Warped t t s (Some (AllShapes (atm_patch a))))
      | LinearKind | LinearMaskedKind => Err NotImplementedError
      | PatchKind => Ok (Both s t)
      end.

    (** [instance], atm/base.py 376-402 *)
    Definition atm_instance (a : atm) (ws : option (seq F)) (k : Z) : res (rendered V W) :=
      let? sm := py_at (atm_shape a) k in
      let? t := py_at (atm_templates a) k in
      let? s := pca_instance sm (weights_or_zero ws) in
      atm_instance_at a s t.

    (** [random_instance], atm/base.py 404-424 *)
    Definition atm_random (a : atm) (r : nat -> seq F) (k : Z) : res (rendered V W) :=
      let? sm := py_at (atm_shape a) k in
      let? t := py_at (atm_templates a) k in
      let? s := pca_instance sm (r (n_active sm)) in
      atm_instance_at a s t.
  End Atm.

  (** *** APS *)
  Section Aps.
    Variables (V : lmodType F) (G : Type).
    (** Shape models and deformation graphs of the scales. *)
    Record aps := Aps { aps_shape : seq (pca V); aps_graphs : seq G }.

    (** [instance], aps/base.py 489-524: the shape, and with [as_graph] the deformation graph of the scale
        it is given (a [PointTree] or a [PointDirectedGraph] according to the graph's class: 511-523). *)
    Definition aps_instance (a : aps) (ws : option (seq F)) (k : Z) (as_graph : bool) : res (V * option G) :=
      let? sm := py_at (aps_shape a) k in
      let? s := pca_instance sm (weights_or_zero ws) in
      if as_graph then let? g := py_at (aps_graphs a) k in Ok (s, Some g) else Ok (s, None).

    (** [random_instance], aps/base.py 526-540 *)
    Definition aps_random (a : aps) (r : nat -> seq F) (k : Z) (as_graph : bool) : res (V * option G) :=
      let? sm := py_at (aps_shape a) k in
      aps_instance a (Some (r (n_active sm))) k as_graph.
  End Aps.
End Instances.
